(* Hierarchical names: top.inst.inst.var.1.2 *)
From Coq Require Import Ascii String.
From Verif Require Import Base Num_model.
Local Open Scope Z_scope.

Definition name := list ascii.
Definition chars (s : string) : name := list_ascii_of_string s.
Fixpoint dot_join (l : list name) : name :=
  match l with [] => [] | [x] => x | x :: r => x ++ chars "." ++ dot_join r end.
(* a name that can be part of a hierarchical name *)
Definition part (n : name) : Prop := n <> [] /\ ~ In "."%char n.
(* instances from one generator down to another *)
Inductive below (child : nat -> name -> option nat) : nat -> list name -> nat -> Prop :=
| below_here g : below child g [] g
| below_child g n g' l h : child g n = Some g' -> below child g' l h -> below child g (n :: l) h.
(* the text of a number *)
Definition digits (k : Z) : name := chars (dec k).
