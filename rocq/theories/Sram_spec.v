(* A memory with one port, and its history. *)
From Verif Require Import Base.
Local Open Scope Z_scope.

(* the input pins during one clock edge; the enables are active low, and so is a bit of the mask *)
Record cycle := { ceb : bool; web : bool; addr : Z; din : Z; mask : Z }.
Definition reads (c : cycle) : Prop := ceb c = false /\ web c = true.
(* the word after a write: masked bits are kept *)
Definition word (partial : bool) (old : Z) (c : cycle) : Z :=
  if partial then Z.lor (Z.land old (mask c)) (Z.ldiff (din c) (mask c)) else din c.
(* the content of the memory after a history *)
Definition store (partial : bool) (m : Z -> Z) (c : cycle) : Z -> Z :=
  if negb (ceb c) && negb (web c) then fun a => if a =? addr c then word partial (m a) c else m a else m.
Definition content (partial : bool) (m : Z -> Z) (h : list cycle) : Z -> Z := fold_left (store partial) h m.
(* the pins of a memory of so many words of dw bits *)
Definition pins (words dw : Z) (c : cycle) : Prop :=
  0 <= addr c < words /\ 0 <= din c < 2 ^ dw /\ 0 <= mask c < 2 ^ dw.
