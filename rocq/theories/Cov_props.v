From Verif Require Import Base Cov_spec Cov_model Cov_proofs.
Local Open Scope nat_scope.

(* The blocks found for a simulation state are those entered in it. *)
Theorem C37_hits_are_the_entered_blocks : forall st s, simple s -> forall id, In id (hits st s) <-> covers st id s.
Proof. exact hits_ok. Qed.
(* Whatever runs are added, marked, and analysed in between: an analysis reports exactly the
   blocks entered in a failing run and in no passing run. *)
Theorem C37_reported_statements : forall design ops, Forall simple design -> Forall not_addcov ops ->
  forall id, In id (analyze design (fold_left (do_op design) ops fresh)) <-> suspicious design (fold_left do_run ops []) id.
Proof.
  intros design ops S N id. destruct (history design ops fresh N) as [Sd R]; [intros i c []|]. rewrite analyze_ok by assumption. rewrite R. reflexivity.
Qed.
Theorem C37_each_reported_once : forall design a, NoDup (analyze design a).
Proof. intros. apply NoDup_nodup. Qed.
(* The order of the runs does not matter. *)
Theorem C37_run_order_does_not_matter : forall design runs runs', Forall simple design -> (forall r, In r runs <-> In r runs') ->
  forall id, In id (analyze design (fold_left (do_op design) (map AddRun runs) fresh)) <-> In id (analyze design (fold_left (do_op design) (map AddRun runs') fresh)).
Proof.
  intros design runs runs' S E id.
  assert (forall l, Forall not_addcov (map AddRun l)) as N by (induction l; cbn; constructor; auto; exact I).
  assert (forall l k, fold_left do_run (map AddRun l) k = k ++ l) as F.
  { induction l as [|r l IH]; intros k; cbn; [now rewrite app_nil_r|]. rewrite IH, <- app_assoc. reflexivity. }
  rewrite !C37_reported_statements by auto. rewrite !F. cbn [app]. unfold suspicious. split; intros [(r & J & W) Q].
  - split; [exists r; split; [now apply E|exact W]|]. intros r' J'. apply Q. now apply E.
  - split; [exists r; split; [now apply E|exact W]|]. intros r' J'. apply Q. now apply E.
Qed.
Definition ex_design : list cstmt := [CProc [CIf 0 10 [CLeaf; CIf 1 11 [CLeaf] 12 []] 13 []]; CIf 2 14 [CScope 16 []] 15 []].
Definition ex_state (a b c : Z) : cstate := fun p => match p with 0 => Some a | 1 => Some b | 2 => Some c | _ => None end.
Definition ex_ops : list cop :=
  [AddRun {| r_wrong := false; r_cov := []; r_states := [ex_state 1 0 0] |}; Analyze;
   AddRun {| r_wrong := false; r_cov := []; r_states := [ex_state 0 1 0; ex_state 1 1 0] |}; Compute 1; MarkWrong 1].
Example C37_ex : analyze ex_design (fold_left (do_op ex_design) ex_ops fresh) = [13; 11].
Proof. reflexivity. Qed.
Example C37_ex_hyps : Forall simple ex_design /\ Forall not_addcov ex_ops.
Proof. split; repeat constructor. Qed.
(* Branches of case statements and bodies of loops are never counted. *)
Theorem C121_case_branches_and_loops_are_missed_refuted : forall st p cs i b,
  hits st (CSwitch p cs) = [] /\ hits st (CFor i b) = [] /\
  (forall z body, st p = Some z -> In (Some z, (i, body)) cs -> covers st i (CSwitch p cs)) /\ covers st i (CFor i b).
Proof.
  intros. split; [reflexivity|]. split; [reflexivity|]. split; [|apply cv_for]. intros z body E J. apply (cv_case st i p cs body). left. eauto.
Qed.
(* a failing run enters the branch for 3, nothing is reported *)
Definition ex_switch : list cstmt := [CProc [CSwitch 0 [(Some 3%Z, (10, [CLeaf])); (None, (11, []))]]].
Definition ex_swrun : srun := {| r_wrong := true; r_cov := []; r_states := [ex_state 3 0 0] |}.
Example C121_ex : analyze ex_switch (fold_left (do_op ex_switch) [AddRun ex_swrun] fresh) = [] /\ suspicious ex_switch [ex_swrun] 10.
Proof.
  split; [reflexivity|]. split.
  - exists ex_swrun. split; [now left|]. split; [reflexivity|]. right. split; [reflexivity|]. exists (ex_state 3 0 0), (CProc [CSwitch 0 [(Some 3%Z, (10, [CLeaf])); (None, (11, []))]]).
    split; [now left|]. split; [now left|]. eapply cv_proc; [now left|]. apply (cv_case _ _ _ _ [CLeaf]). left. exists 3%Z. split; [reflexivity|now left].
  - intros r [<-|[]] W. discriminate.
Qed.
(* Coverage added to a run after an analysis is ignored. *)
Theorem C122_later_coverage_is_ignored_refuted : forall design runs i c,
  let before := fold_left (do_op design) (map AddRun runs ++ [Analyze]) fresh in
  analyze design (do_op design before (AddCov i c)) = analyze design before.
Proof.
  intros design runs i c before.
  assert (sound design before /\ a_runs before = runs) as [Sd Rn].
  { unfold before. destruct (history design (map AddRun runs ++ [Analyze]) fresh) as [Sd Rn].
    - apply Forall_app. split; [clear; induction runs; cbn; constructor; auto; exact I|repeat constructor].
    - intros j k [].
    - split; [exact Sd|]. rewrite Rn, fold_left_app. cbn [fold_left do_run].
      assert (forall l k, fold_left do_run (map AddRun l) k = k ++ l) as F.
      { clear. induction l as [|r l IH]; intros k; cbn; [now rewrite app_nil_r|]. rewrite IH, <- app_assoc. reflexivity. }
      apply F. }
  assert (forall i r, nth_error runs i = Some r -> exists c, find_n (a_cache before) i = Some c) as Full.
  { intros j rj Rj. unfold before. rewrite fold_left_app. cbn [fold_left do_op].
    set (b0 := fold_left (do_op design) (map AddRun runs) fresh).
    assert (sound design b0 /\ a_runs b0 = runs) as [S0 R0].
    { destruct (history design (map AddRun runs) fresh) as [Q1 Q2]; [clear; induction runs; cbn; constructor; auto; exact I|intros ? ? []|]. split; [exact Q1|].
      unfold b0. rewrite Q2. assert (forall l k, fold_left do_run (map AddRun l) k = k ++ l) as F.
      { clear. induction l as [|r l IH]; intros k; cbn; [now rewrite app_nil_r|]. rewrite IH, <- app_assoc. reflexivity. } apply F. }
    destruct (fill_ok design b0 S0) as (_ & _ & F). rewrite R0 in F. specialize (F j rj Rj).
    destruct (find_n (a_cache (fill design b0)) j) eqn:E; [eauto|]. exfalso. eapply find_n_none; eassumption. }
  clearbody before. unfold analyze.
  assert (forall a l, (forall j, In j l -> exists c, find_n (a_cache a) j = Some c) -> fold_left (compute design) l a = a) as Nop.
  { intros a l. induction l as [|j l IH]; intros H; [reflexivity|]. cbn [fold_left].
    assert (compute design a j = a) as ->; [|apply IH; auto using in_cons]. unfold compute. destruct (H j (or_introl eq_refl)) as [q Q]. rewrite Q. destruct (nth_error (a_runs a) j); reflexivity. }
  assert (length (set_nth runs i (fun r => {| r_wrong := r_wrong r; r_cov := r_cov r ++ c; r_states := r_states r |})) = length runs) as Len.
  { clear. revert i. induction runs as [|a l IH]; intros i; [reflexivity|]. destruct i; cbn; auto. }
  assert (forall j, In j (seq 0 (length runs)) -> exists c, find_n (a_cache before) j = Some c) as Fl.
  { intros j J. apply in_seq in J. destruct (nth_error runs j) eqn:E; [eapply Full; eassumption|]. apply nth_error_None in E. lia. }
  unfold fill at 2. rewrite Rn, Nop by exact Fl. cbn [do_op do_run]. rewrite Rn. unfold fill. cbn [a_runs]. rewrite Len.
  rewrite Nop by exact Fl. unfold fault_stmts.
  assert (forall w, counted {| a_runs := set_nth runs i (fun r => {| r_wrong := r_wrong r; r_cov := r_cov r ++ c; r_states := r_states r |}); a_cache := a_cache before |} w = counted before w) as Ct.
  { intros w. unfold counted. cbn [a_runs a_cache]. rewrite Rn. apply flat_map_ext. intros [j d]. cbn [fst snd]. rewrite set_nth_nth.
    destruct (Nat.eqb i j); [|reflexivity]. destruct (nth_error runs j); reflexivity. }
  rewrite !Ct. reflexivity.
Qed.
Definition ex_late : srun := {| r_wrong := true; r_cov := [1]; r_states := [ex_state 0 0 0] |}.
Example C122_ex : analyze [] (fold_left (do_op []) [AddRun ex_late; Analyze; AddCov 0 [2]] fresh) = [1]
  /\ suspicious [] (fold_left do_run [AddRun ex_late; Analyze; AddCov 0 [2]] []) 2.
Proof.
  split; [reflexivity|]. cbn. split.
  - eexists. split; [now left|]. split; [reflexivity|]. left. cbn. auto.
  - intros r [<-|[]] W. discriminate.
Qed.

(* The number of covered lines is at most the number of lines, and so is the number of covered
   branches if only branches with debug information are recorded. *)
Theorem C123_rates_at_most_one : forall lines branches parent covs,
  length (line_hits lines parent covs) <= length lines /\
  (NoDup branches -> (forall c b, In c covs -> In b c -> In b branches) -> length (branch_hits covs) <= length branches).
Proof.
  intros lines branches parent covs. split.
  - unfold line_hits. induction lines as [|l r IH]; [apply le_n|]. cbn. destruct (match parent l with Some b => _ | None => _ end); cbn; lia.
  - intros N H. apply NoDup_incl_length; [apply NoDup_nodup|]. intros b J. apply nodup_In in J. apply in_concat in J as (c & Jc & Jb). eauto.
Qed.
(* a line counts as covered exactly if the block it is in is in one of the coverages *)
Theorem C123_covered_lines : forall lines parent covs l,
  In l (line_hits lines parent covs) <-> In l lines /\ exists b c, parent l = Some b /\ In c covs /\ In b c.
Proof.
  intros lines parent covs l. unfold line_hits, branch_hits. rewrite filter_In. split.
  - intros [I H]. split; [exact I|]. destruct (parent l) as [b|] eqn:E; [|discriminate].
    apply existsb_exists in H. destruct H as (b' & J & K). apply Nat.eqb_eq in K. subst b'.
    apply nodup_In in J. apply in_concat in J. destruct J as (c & Jc & Jb). eauto.
  - intros [I (b & c & E & Jc & Jb)]. split; [exact I|]. rewrite E. apply existsb_exists. exists b.
    split; [|apply Nat.eqb_refl]. apply nodup_In. apply in_concat. eauto.
Qed.
Print Assumptions C123_covered_lines.
Example C123_ex : length (line_hits [1; 2; 3] (fun l => if l =? 1 then Some 8 else Some 9) [[8]; [8; 7]]) = 1
  /\ length (branch_hits [[8]; [8; 7]]) = 2 /\ (forall c b, In c [[8]; [8; 7]] -> In b c -> In b [7; 8; 9]).
Proof. split; [reflexivity|]. split; [reflexivity|]. cbn. intuition (subst; cbn in *; intuition). Qed.
(* Blocks without debug information are counted as covered branches but not as branches. *)
Theorem C124_branch_rate_above_one_refuted : forall n, exists branches covs,
  NoDup branches /\ length (branch_hits covs) = length branches + n /\ (forall b, In b branches -> exists c, In c covs /\ In b c).
Proof.
  intros n. exists [0], [seq 0 (S n)]. split; [repeat constructor; intros []|]. split.
  - unfold branch_hits. cbn [concat]. rewrite app_nil_r. rewrite nodup_fixed_point by apply seq_NoDup. rewrite seq_length. reflexivity.
  - intros b [<-|[]]. eexists. split; [now left|]. apply in_seq. lia.
Qed.
Example C124_ex : length (branch_hits [[0; 1; 2]]) = 3.
Proof. reflexivity. Qed.

Print Assumptions C37_hits_are_the_entered_blocks.
Print Assumptions C37_reported_statements.
Print Assumptions C37_each_reported_once.
Print Assumptions C37_run_order_does_not_matter.
Print Assumptions C121_case_branches_and_loops_are_missed_refuted.
Print Assumptions C122_later_coverage_is_ignored_refuted.
Print Assumptions C123_rates_at_most_one.
Print Assumptions C124_branch_rate_above_one_refuted.
