(* What "no test is repeated along an else-if chain" means. *)
From Verif Require Import Base SV_spec IR IRSem_spec.
Local Open Scope Z_scope.

(* the predicates along  if (p1) .. else if (p2) .. else if (p3) .. *)
Fixpoint elif_tests (s : stmt) : list expr :=
  match s with
  | SIf c _ [s'] => c :: elif_tests s'
  | SIf c _ _ => [c]
  | _ => []
  end.

(* no two tests of the chain compare the same expression with the same bit pattern *)
Definition no_repeated_test (s : stmt) : Prop :=
  forall i j e v w b v' w' b', i <> j ->
    nth_error (elif_tests s) i = Some (EBin Eq e (EConst v w b)) ->
    nth_error (elif_tests s) j = Some (EBin Eq e (EConst v' w' b')) ->
    enc w v <> enc w' v'.

(* an equality with a constant compares operands of the same width *)
Definition eq_typed (G : tenv) (s : stmt) : Prop :=
  forall e v w b t f, s = SIf (EBin Eq e (EConst v w b)) t f -> w = ewidth G e.
