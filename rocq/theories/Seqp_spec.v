(* Temporal properties: what a chain of implications says, and how SystemVerilog reads its text. *)
From Verif Require Import Base.
From Coq Require Import Sorted.
Local Open Scope nat_scope.

(* a one-bit signal: the instances on the way to it from the top, and its name; the top is [] *)
Definition path := list nat.
Record sig := { s_path : path; s_name : nat }.
(* v, from lo to hi clock ticks later *)
Record step := { p_sig : sig; p_lo : nat; p_hi : nat }.
(* the values of all signals at every tick *)
Definition trace := nat -> sig -> bool.
(* the last step happens at some time; each step that happens implies the rest from there *)
Fixpoint meaning (tr : trace) (t : nat) (c : list step) : Prop :=
  match c with
  | [] => True
  | s :: r => match r with
              | [] => exists d, p_lo s <= d <= p_hi s /\ tr (t + d) (p_sig s) = true
              | _ => forall d, p_lo s <= d <= p_hi s -> tr (t + d) (p_sig s) = true -> meaning tr (t + d) r
              end
  end.

(* the text: ##n, ##[lo:hi], a name (of the module itself, or with instances), |-> *)
Inductive ref := Local (n : nat) | Handle (p : path) (n : nat).
Inductive tok := TDelay (n : nat) | TRange (lo hi : nat) | TRef (r : ref) | TImp.
Inductive rprop := RSeq (lo hi : nat) (r : ref) | RImp (lo hi : nat) (r : ref) (q : rprop).
(* IEEE 1800: a sequence with a delay; |-> associates to the right *)
Inductive seq_text : list tok -> nat -> nat -> ref -> Prop :=
| Q_now : forall r, seq_text [TRef r] 0 0 r
| Q_delay : forall n r, seq_text [TDelay n; TRef r] n n r
| Q_range : forall lo hi r, lo <= hi -> seq_text [TRange lo hi; TRef r] lo hi r.
Inductive reads_as : list tok -> rprop -> Prop :=
| P_last : forall s lo hi r, seq_text s lo hi r -> reads_as s (RSeq lo hi r)
| P_imp : forall s lo hi r rest q, seq_text s lo hi r -> reads_as rest q -> reads_as (s ++ TImp :: rest) (RImp lo hi r q).
(* what a name means in the instance q of the module it is written in; a name with instances is found from the top *)
Definition resolve (q : path) (r : ref) : sig := match r with Local n => {| s_path := q; s_name := n |} | Handle p n => {| s_path := p; s_name := n |} end.
Fixpoint holds (tr : trace) (q : path) (t : nat) (x : rprop) : Prop :=
  match x with
  | RSeq lo hi r => exists d, lo <= d <= hi /\ tr (t + d) (resolve q r) = true
  | RImp lo hi r y => forall d, lo <= d <= hi -> tr (t + d) (resolve q r) = true -> holds tr q (t + d) y
  end.
Fixpoint refs (x : rprop) : list ref := match x with RSeq _ _ r => [r] | RImp _ _ r y => r :: refs y end.

(* building a chain: each call is on what the last one returned *)
Inductive call := Imply (v : sig) | Wait (lo hi : nat).
(* the last wait before the next implication *)
Fixpoint waited (lo hi : nat) (cs : list call) : nat * nat := match cs with Wait l h :: r => waited l h r | _ => (lo, hi) end.
Fixpoint from_imply (cs : list call) : list call := match cs with Wait _ _ :: r => from_imply r | _ => cs end.

(* assert property (name) [pass] [else fail]; *)
Inductive atok := AHead (name : nat) | AElse | AStmt (s : nat) | AEnd.
Inductive action := Pass (s : nat) | Fail (s : nat) | NoAction.
Inductive assert_text : list atok -> action -> Prop :=
| A_none : forall n, assert_text [AHead n; AEnd] NoAction
| A_pass : forall n s, assert_text [AHead n; AStmt s] (Pass s)
| A_fail : forall n s, assert_text [AHead n; AElse; AStmt s] (Fail s).
