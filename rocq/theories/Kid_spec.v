(* Hierarchies of state machines: who was made whose child, and how one is reached from another. *)
From Verif Require Import Base.

(* state machines are numbered; gen gives the generator each belongs to.  A history of calls parent.add_child(child) *)
Definition history := list (nat * nat).
(* p has c as a child: it was made one, and both belong to the same generator *)
Definition child_of (gen : nat -> nat) (h : history) (p c : nat) : Prop := In (p, c) h /\ gen p = gen c.

(* a way down the hierarchy from r, listed from its lower end *)
Inductive way (child : nat -> nat -> Prop) (r : nat) : list nat -> Prop :=
| way_here : way child r [r]
| way_down v w l : way child r (v :: l) -> child v w -> way child r (w :: v :: l).
(* d is r or is below it *)
Definition below (child : nat -> nat -> Prop) (r d : nat) : Prop := exists l, way child r (d :: l).
(* a circle: a state machine strictly below itself *)
Definition circular (child : nat -> nat -> Prop) (v : nat) : Prop := exists w, child v w /\ below child w v.
(* one way at most to every state machine below r *)
Definition tree_from (child : nat -> nat -> Prop) (r : nat) : Prop :=
  forall d l1 l2, way child r (d :: l1) -> way child r (d :: l2) -> l1 = l2.
(* a is listed before b *)
Definition before (l : list nat) (a b : nat) : Prop := exists l1 l2 l3, l = l1 ++ a :: l2 ++ b :: l3.
