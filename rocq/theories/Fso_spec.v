(* Outputs of a state machine and their values in a state. *)
From Verif Require Import Base.
From Coq Require Import Permutation.
Local Open Scope list_scope.

(* Variables and values are numbered.  fsm.output(v), with a default or without; state.output(v, x), of one state *)
Inductive act := Declare (v : nat) (d : option nat) | Give (v x : nat).
Definition declares (h : list act) : list (nat * option nat) := flat_map (fun a => match a with Declare v d => [(v, d)] | Give _ _ => [] end) h.
Definition gives (h : list act) : list (nat * nat) := flat_map (fun a => match a with Declare _ _ => [] | Give v x => [(v, x)] end) h.
(* the first entry of a key *)
Definition first {A} (l : list (nat * A)) (k : nat) (a : A) : Prop := exists l1 l2, l = l1 ++ (k, a) :: l2 /\ ~ In k (map fst l1).
(* the value of an output in the state: the first it was given there, or else the default of its first declaration *)
Definition value (h : list act) (v x : nat) : Prop := first (gives h) v x \/ ~ In v (map fst (gives h)) /\ first (declares h) v (Some x).
(* the variables the state was given values of, in the order of the first time *)
Definition given_order (h : list act) : list nat := rev (nodup Nat.eq_dec (rev (map fst (gives h)))).
