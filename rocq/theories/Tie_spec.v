(* Variables that only carry a constant to a port of an instance. *)
From Verif Require Import Base SV_spec IR IRSem_spec Design_spec Dce_spec Fan_spec.
Local Open Scope Z_scope.

(* the statement is in the process, and no other statement of the design does the same to x *)
Definition only (does : stmt -> Prop) (d : design) (it : item) (s : stmt) : Prop :=
  In it d /\ inside s (body_of (i_proc it)) /\ does s /\
  forall it' s', In it' d -> inside s' (body_of (i_proc it')) -> does s' -> it' = it /\ s' = s.
Definition writes_stmt (x : var) (s : stmt) : Prop := exists k l e, s = SAssign k l e /\ lhs_var l = x.
(* a variable of g assigned once, a constant, and used once, in an assignment to a port of an instance in g *)
Definition tied (H : hierarchy) (d : design) (g : nat) (x p : var) : Prop :=
  In x (h_vars H g) /\ h_kind H p <> KVar /\ h_parent H (h_owner H p) = Some g /\
  (exists it k l v w s, only (writes_stmt x) d it (SAssign k l (EConst v w s))) /\
  (exists it k e, only (reads_stmt x) d it (SAssign k (LVar p) e)).
Record tie_good (G : tenv) (H : hierarchy) (d : design) : Prop := {
  ti_ids : NoDup (map i_id d);
  ti_vars : forall g x, In x (h_vars H g) -> h_owner H x = g /\ h_kind H x = KVar;
  (* both are continuous assignments of g, the second one to the variable itself, all of one width *)
  ti_plain : forall g x p, tied H d g x p ->
    G x = G p /\ ~ d_event x d /\ (forall it, In it d -> ~ loops_over x (body_of (i_proc it))) /\
    (forall it k l v w s, only (writes_stmt x) d it (SAssign k l (EConst v w s)) ->
       i_gen it = g /\ i_proc it = PWire (LVar x) (EConst v w s) /\ w = d_width (G x)) /\
    (forall it k e, only (reads_stmt x) d it (SAssign k (LVar p) e) -> i_gen it = g /\ i_proc it = PWire (LVar p) (EVar x)) }.
(* the signal was used and is used no more *)
Definition untied (H : hierarchy) (d d' : design) (x : var) : Prop := h_kind H x = KVar /\ d_reads x d /\ ~ d_reads x d' /\ ~ d_assigns x d'.
