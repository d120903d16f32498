(* Which bits of an input port are driven and which are assigned zero. *)
From Verif Require Import Base.
Local Open Scope Z_scope.

(* an existing assignment to the port, to a range of its bits (low to high), or to an element chosen
   by a variable *)
Inductive drive := Whole | Bits (low high : Z) | Indexed.
Definition drives (b : Z) (d : drive) : bool :=
  match d with Whole | Indexed => true | Bits l h => (l <=? b) && (b <=? h) end.
Definition driven (ds : list drive) (b : Z) : bool := existsb (drives b) ds.
(* a zero: the module whose statement it is, and the bits it is assigned to, highest first *)
Inductive owner := Parent | Child.
Record zero := { z_owner : owner; z_high : Z; z_low : Z }.
Definition times_zeroed (zs : list zero) (b : Z) : nat :=
  length (filter (fun z => (z_low z <=? b) && (b <=? z_high z)) zs).
(* the existing assignments lie inside the port *)
Definition inside (w : Z) (d : drive) : Prop :=
  match d with Bits l h => 0 <= l <= h /\ h < w | _ => True end.
Definition aligned (k : Z) (d : drive) : Prop :=
  match d with Bits l h => l mod k = 0 /\ (h + 1) mod k = 0 | _ => True end.
