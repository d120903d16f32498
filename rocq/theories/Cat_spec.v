(* Concatenations and extensions that are asked for one after the other. *)
From Verif Require Import Base.
Local Open Scope Z_scope.
Local Open Scope list_scope.

(* Objects are numbered as they are made.  A variable of a width, signed or not; x.concat(y); x.extend(w); another width for a variable, by its
   parameter; one signal for another in a concatenation of two *)
Inductive act := New (w : Z) (s : bool) | Cat (x y : nat) | Ext (x : nat) (w : Z) | Resize (x : nat) (w : Z) | Move (c t n : nat).
(* variables keep their widths and concatenations their parts *)
Definition quiet (h : list act) : Prop := forall a, In a h -> match a with Resize _ _ | Move _ _ _ => False | _ => True end.
