(* Names and accesses of the parts of a variable. *)
From Coq Require Import String.
From Verif Require Import Base Num_model.
Local Open Scope string_scope.
Local Open Scope Z_scope.

(* n.1.2 *)
Fixpoint dots (ix : list Z) : string := match ix with [] => "" | i :: ix => "." ++ dec i ++ dots ix end.
(* v[1][2] *)
Fixpoint brackets (ix : list Z) : string := match ix with [] => "" | i :: ix => "[" ++ dec i ++ "]" ++ brackets ix end.

(* the dimensions of an array, and of a variable that is none *)
Definition an_array (dims : list Z) : Prop := (exists a b r, dims = a :: b :: r) \/ exists d, dims = [d] /\ 1 < d.
Definition scalar (dims : list Z) : Prop := exists d, dims = [d] /\ d <= 1.
