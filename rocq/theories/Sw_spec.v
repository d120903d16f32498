(* What the cases of a switch statement should hold. *)
From Coq Require Import ZArith List Bool.
Import ListNotations.

(* A case is a value, or none for the default.  The statements a history of additions puts under one. *)
Definition case := option Z.
Definition case_eqb (a b : case) : bool :=
  match a, b with None, None => true | Some x, Some y => Z.eqb x y | _, _ => false end.
Definition under (c : case) (hist : list (case * list nat)) : list nat :=
  flat_map (fun a => if case_eqb (fst a) c then snd a else []) hist.

(* The order cases are visited in: values that are not negative in ascending order, then the negative ones in
   ascending order, then the default. *)
Definition before (a b : case) : Prop :=
  match a, b with
  | Some x, Some y => ((0 <= x /\ (y < 0 \/ x < y)) \/ (x < 0 /\ y < 0 /\ x < y))%Z
  | Some _, None => True
  | None, _ => False
  end.
Definition int64 (v : Z) : Prop := (- 2 ^ 63 <= v < 2 ^ 63)%Z.
