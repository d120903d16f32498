(* Properties C468-C471: finding a signal in a condition and a loop variable in an expression. *)
From Verif Require Import Base Conn_spec Ifv_spec Ifv_model Ifv_proofs.
Local Open Scope nat_scope.

(* an if statement is checked against a latch only if it tests a signal of the sensitivity list that is not a clock *)
Theorem C468_sound : forall signals clock ifs c, In c (checked_ifs signals clock ifs) ->
  In c ifs /\ exists t, In t signals /\ clock t = false /\ occurs t c.
Proof.
  intros signals clock ifs c H. apply in_flat_map in H. destruct H as (t & T & H).
  destruct (clock t) eqn:C; [destruct H|]. apply filter_In in H. destruct H as [I H].
  split; [exact I|]. exists t. split; [exact T|]. split; [exact C|]. apply has_var_occurs, H.
Qed.
(* and it is checked if the test is made of operators, extensions, concatenations and parts of signals *)
Theorem C468_complete : forall signals clock ifs c t, In c ifs -> arith c ->
  In t signals -> clock t = false -> occurs t c -> In c (checked_ifs signals clock ifs).
Proof.
  intros signals clock ifs c t I A T C O. apply in_flat_map. exists t. split; [exact T|]. rewrite C.
  apply filter_In. split; [exact I|]. apply has_var_arith; assumption.
Qed.
Example C468_ex :
  let c := SBin (SUn (SSlice (SPort 1))) (SConcat [SVar 3; SPort 2; SConst]) in
  arith c /\ occurs 1 c /\ checked_ifs [0; 1] (Nat.eqb 0) [SPort 0; c; SPort 2] = [c].
Proof.
  cbv zeta. split; [|split; [|reflexivity]].
  - apply ar_bin.
    + apply ar_un, ar_part. repeat constructor.
    + apply ar_concat. intros s [<-|[<-|[<-|[]]]]; [apply ar_part|apply ar_part|apply ar_const]; constructor.
  - apply occ_left. repeat constructor.
Qed.

(* C469: every if statement that tests the reset is checked.  Refuted: a reset under a cast, in the condition of a
   conditional expression, in an index, an argument of a call, or in an expression of which bits are picked is not found *)
Theorem C469_hidden_refuted :
  (forall t s, has_var t (SCast s) = false) /\
  (forall t c a b, ~ occurs t a -> ~ occurs t b -> has_var t (SCond c a b) = false) /\
  (forall t s i, ~ occurs t s -> has_var t (SIndex s i) = false) /\
  (forall t l, has_var t (SCall l) = false) /\
  (forall t a b, has_var t (SSlice (SBin a b)) = false) /\
  ~ (forall signals clock ifs c t, In c ifs -> In t signals -> clock t = false -> occurs t c ->
       In c (checked_ifs signals clock ifs)).
Proof.
  assert (N : forall t s, ~ occurs t s -> has_var t s = false).
  { intros t s H. destruct (has_var t s) eqn:E; [|reflexivity]. exfalso. apply H, has_var_occurs, E. }
  split; [reflexivity|]. split; [|split; [|split; [reflexivity|split; [reflexivity|]]]].
  - intros t c a b A B. cbn. rewrite (N _ _ A), (N _ _ B). reflexivity.
  - intros t s i H. cbn. destruct (root s) eqn:R; try reflexivity.
    destruct (Nat.eqb_spec p t) as [->|E]; [|reflexivity]. exfalso. apply H, root_occurs, R.
  - intros H. specialize (H [1] (fun _ => false) [SCast (SPort 1)] (SCast (SPort 1)) 1).
    assert (K : In (SCast (SPort 1)) []) by (apply H; cbn; auto; repeat constructor). destruct K.
Qed.
Example C469_ex :
  checked_ifs [1] (fun _ => false) [SCond (SPort 1) (SVar 0) SConst; SIndex (SVar 0) (SPort 1); SPort 1] = [SPort 1].
Proof. reflexivity. Qed.

(* an expression is taken to use a loop variable only if it does, and always if it is made of operators, extensions,
   concatenations and parts picked by constants *)
Theorem C470_loop_variable : forall iter s,
  (has_iter iter s = true -> exists p, iter p = true /\ occurs p s) /\
  (sliced s -> (exists p, iter p = true /\ occurs p s) -> has_iter iter s = true).
Proof.
  intros iter s. split; [apply has_iter_occurs|]. intros H (p & A & B). apply (has_iter_sliced iter p); assumption.
Qed.
Example C470_ex : let s := SSlice (SBin (SVar 0) (SUn (SPort 4))) in
  sliced s /\ occurs 4 s /\ has_iter (Nat.eqb 4) s = true /\ has_iter (Nat.eqb 5) s = false.
Proof. cbv zeta. split; [repeat constructor|]. split; [|split; reflexivity]. apply occ_slice, occ_right, occ_un, occ_port. Qed.

(* C471: an expression that uses a loop variable is taken to.  Refuted: not in an index, a cast, a call or the condition
   of a conditional expression *)
Theorem C471_hidden_refuted :
  (forall iter s i, has_iter iter s = false -> has_iter iter (SIndex s i) = false) /\
  (forall iter s, has_iter iter (SCast s) = false) /\ (forall iter l, has_iter iter (SCall l) = false) /\
  (forall iter c a b, has_iter iter a = false -> has_iter iter b = false -> has_iter iter (SCond c a b) = false) /\
  ~ (forall iter s p, iter p = true -> occurs p s -> has_iter iter s = true).
Proof.
  split; [intros iter s i H; exact H|]. split; [reflexivity|]. split; [reflexivity|]. split.
  - intros iter c a b A B. cbn. rewrite A, B. reflexivity.
  - intros H. specialize (H (fun _ => true) (SIndex (SVar 0) (SPort 1)) 1 eq_refl).
    assert (K : false = true) by (apply H; apply occ_index, occ_port). discriminate.
Qed.
Example C471_ex : has_iter (Nat.eqb 1) (SIndex (SVar 0) (SBin (SPort 1) SConst)) = false /\
  occurs 1 (SIndex (SVar 0) (SBin (SPort 1) SConst)).
Proof. split; [reflexivity|]. apply occ_index, occ_left, occ_port. Qed.
Print Assumptions C468_sound.
Print Assumptions C468_complete.
Print Assumptions C469_hidden_refuted.
Print Assumptions C470_loop_variable.
Print Assumptions C471_hidden_refuted.
