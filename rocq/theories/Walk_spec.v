(* Going through children that change meanwhile. *)
From Verif Require Import Base.
Local Open Scope list_scope.

(* What a visit of a child does to the list of the children, after the visits before it (children are numbered) *)
Definition effect := list nat -> nat -> list nat -> list nat.
(* it changes nothing before the child *)
Definition onwards (e : effect) : Prop := forall tr c pre post, ~ In c pre -> exists rest, e tr c (pre ++ c :: post) = pre ++ rest.
(* some elements of a list, in its order *)
Inductive sublist : list nat -> list nat -> Prop :=
| S_nil : sublist [] []
| S_keep x a b : sublist a b -> sublist (x :: a) (x :: b)
| S_drop x a b : sublist a b -> sublist a (x :: b).
(* it only takes out the child or some after it *)
Definition removing (e : effect) : Prop := forall tr c pre post, ~ In c pre -> exists rest, sublist rest (c :: post) /\ e tr c (pre ++ c :: post) = pre ++ rest.
(* it takes out at most one child before it *)
Definition one_before (e : effect) : Prop := forall tr c pre post, ~ In c pre ->
  e tr c (pre ++ c :: post) = pre ++ c :: post \/ exists p x q, pre = p ++ x :: q /\ e tr c (pre ++ c :: post) = p ++ q ++ c :: post.
(* it only takes out children before it *)
Definition before (e : effect) : Prop := forall tr c pre post, ~ In c pre -> exists pre', sublist pre' pre /\ e tr c (pre ++ c :: post) = pre' ++ c :: post.
