From Verif Require Import Base Const_model Loop_spec.
Local Open Scope Z_scope.

(* src/stmt.cc:353-363 ForStmt::ForStmt: the loop variable is signed if start or end is negative *)
Definition loop_signed (start stop : Z) : bool := (start <? 0) || (stop <? 0).
(* src/codegen.cc:944-972; the bounds and the step are printed in decimal *)
Definition print_for (genvar : bool) (start stop step : Z) : header :=
  {| h_type := if genvar then TGenvar else if loop_signed start stop then TInt else TUnsigned;
     h_start := start; h_less := stop >? start; h_stop := stop; h_plus := step >? 0; h_step := Z.abs step |}.

(* src/expr.cc:2148-2203 IterVar::safe_to_resize for an expression with loop variables: eval gives
   its value for values of them; every variable has a lowest value and an exclusive highest.  Each is
   tried at both ends while the others are at the highest. *)
Fixpoint set_at (l : list Z) (i : nat) (v : Z) : list Z :=
  match l, i with [], _ => [] | _ :: r, O => v :: r | a :: r, S k => a :: set_at r k v end.
Definition fits_width (o : option Z) (w : Z) (s : bool) : bool :=
  match o with Some v => match is_legal v w s with Ok Legal => true | _ => false end | None => false end.
Definition safe_to_resize (eval : list Z -> option Z) (ranges : list (Z * Z)) (w : Z) (s : bool) : bool :=
  let top := map (fun r => snd r - 1) ranges in
  forallb (fun i => fits_width (eval (set_at top i (fst (nth i ranges (0, 0))))) w s && fits_width (eval top) w s) (seq 0 (length ranges)).
