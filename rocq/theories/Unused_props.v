(* C280-C282: removing variables that are not used and blocks that are empty. *)
From Verif Require Import Base SV_spec IR IRSem_spec IR_lemmas IfCase_proofs IR_frame Flow_spec Flow_proofs Design_spec Design_proofs Dce_spec Dce_model Dce_proofs
  Fan_spec Fan_model Tie_model Tie_proofs Move_spec Inst_run Inst_inv Unused_model.
Local Open Scope Z_scope.

Lemma no_list : forall {A} (l : list A), l = [] <-> forall x, ~ In x l.
Proof. intros A l. split; [intros -> x []|apply no_elements]. Qed.
Lemma sinks_none : forall d x, sinks_of d x = [] <-> ~ d_reads x d.
Proof.
  intros d x. rewrite no_list. split.
  - intros N (it & I & s & J & R). apply (N (it, s)). apply in_statements. split; [exact I|]. split; [exact J|]. now apply mem_In, reads_sinks.
  - intros N (it, s) J. apply in_statements in J. destruct J as (J1 & J2 & J3). apply N. exists it. split; [exact J1|]. exists s. split; [exact J2|]. now apply reads_sinks, mem_In.
Qed.
Lemma sources_none : forall d x, sources_of d x = [] <-> ~ d_assigns x d.
Proof.
  intros d x. rewrite no_list. split.
  - intros N (it & I & k & l & e & J & E). apply (N (it, SAssign k l e)). apply in_statements. split; [exact I|]. split; [exact J|]. now apply Nat.eqb_eq.
  - intros N (it, s) J. apply in_statements in J. destruct J as (J1 & J2 & J3). destruct s; cbn in J3; try discriminate. apply Nat.eqb_eq in J3. apply N. exists it. split; [exact J1|]. do 3 eexists. split; [exact J2|exact J3].
Qed.
(* C280: exactly the variables that no process reads or assigns go, and only in generators that are not external; ports stay *)
Theorem C280_unused : forall H ext d g x, In x (h_vars H g) ->
  (~ In x (h_vars (remove_unused_vars H ext d) g) <-> ext g = false /\ h_kind H x = KVar /\ ~ d_reads x d /\ ~ d_assigns x d).
Proof.
  intros H ext d g x I. cbn [remove_unused_vars h_vars]. unfold keep_vars. destruct (ext g); [split; [contradiction|intros [E _]; discriminate]|]. rewrite filter_In. unfold unused. rewrite <- sinks_none, <- sources_none.
  destruct (h_kind H x), (sinks_of d x), (sources_of d x); cbn; split; intros X; try (exfalso; apply X; auto; fail); try (intros [_ Y]; discriminate); try (destruct X as (_ & X1 & X2 & X3); congruence). auto.
Qed.
Theorem C280_order : forall H ext d g, h_ports (remove_unused_vars H ext d) g = h_ports H g /\ exists keep, h_vars (remove_unused_vars H ext d) g = filter keep (h_vars H g).
Proof.
  intros H ext d g. split; [reflexivity|]. cbn. unfold keep_vars. destruct (ext g); [|eauto]. exists (fun _ => true). induction (h_vars H g) as [|x r IH]; [reflexivity|]. cbn. now rewrite <- IH.
Qed.
(* C281: removing the empty blocks changes nothing; the other processes stay, in their order, and no empty block is left *)
Definition empty_block (it : item) : Prop := i_proc it = PComb [] \/ exists evs, i_proc it = PFf evs [].
Lemma empty_iff : forall it, is_empty_block it = true <-> empty_block it.
Proof.
  intros it. unfold is_empty_block, empty_block. destruct (i_proc it) as [l e|[|s b]|evs [|s b]]; split; try discriminate; eauto; intros [E|[? E]]; discriminate.
Qed.
Lemma empty_body : forall it, empty_block it -> body_of (i_proc it) = [].
Proof. intros it [E|[evs E]]; now rewrite E. Qed.
Theorem C281_same_histories : forall G d h, history G (remove_unused_stmts d) h <-> history G d h.
Proof.
  intros G d. assert (forall it, In it (remove_unused_stmts d) <-> In it d /\ ~ empty_block it) as Ii by (intros it; unfold remove_unused_stmts; rewrite filter_In, negb_true_iff, <- empty_iff; destruct (is_empty_block it); intuition congruence).
  assert (forall r, settled G (remove_unused_stmts d) r <-> settled G d r) as S1.
  { intros r. split; intros S0 it I E x; [|apply S0; [apply Ii in I; apply I|exact E]]. destruct (is_empty_block it) eqn:B.
    - apply empty_iff in B. rewrite (empty_body it B). reflexivity.
    - apply S0; [|exact E]. apply Ii. split; [exact I|]. rewrite <- empty_iff. congruence. }
  assert (forall r r', next G (remove_unused_stmts d) r r' <-> next G d r r') as N1.
  { intros r r'. unfold next. rewrite S1. apply and_iff_compat_l.
    assert (flat_map (fun it => queued G it r) (fired G (remove_unused_stmts d) r r') = flat_map (fun it => queued G it r) (fired G d r r')) as ->.
    { clear. unfold fired, remove_unused_stmts. induction d as [|it l IH]; [reflexivity|]. cbn [filter]. destruct (is_empty_block it) eqn:B; cbn [negb filter].
      - rewrite IH. destruct (existsb (edge G r r') (events_of (i_proc it))); [|reflexivity]. cbn [flat_map]. apply empty_iff in B. unfold queued at 2. now rewrite (empty_body it B).
      - destruct (existsb (edge G r r') (events_of (i_proc it))); [|exact IH]. cbn [flat_map]. now rewrite IH. }
    assert (forall x, clocked (remove_unused_stmts d) x <-> clocked d x) as C1.
    { intros x. split; intros (it & I & E & A); exists it; (split; [|auto]).
      - apply Ii in I. apply I.
      - apply Ii. split; [exact I|]. intros B. rewrite (empty_body it B) in A. destruct A as (k & l & e & J & _). inversion J; contradiction. }
    split; intros N x C; apply N; now apply C1. }
  intros h. split; intros Hh; (induction Hh as [r S0|r r' l Hh IH N]; [apply h_first; now apply S1|apply h_next; [exact IH|now apply N1]]).
Qed.
Theorem C281_left : forall d, (forall it, In it (remove_unused_stmts d) -> ~ empty_block it) /\ (forall it, In it d -> ~ empty_block it -> In it (remove_unused_stmts d)) /\
  (exists keep, remove_unused_stmts d = filter keep d) /\ remove_unused_stmts (remove_unused_stmts d) = remove_unused_stmts d.
Proof.
  intros d. unfold remove_unused_stmts. split; [|split; [|split; [eauto|]]].
  - intros it I B. apply filter_In in I. apply empty_iff in B. rewrite B in I. destruct I as [_ I]. discriminate.
  - intros it I B. apply filter_In. split; [exact I|]. rewrite <- empty_iff in B. now destruct (is_empty_block it).
  - induction d as [|it l IH]; [reflexivity|]. cbn [filter]. destruct (negb (is_empty_block it)) eqn:B; [cbn [filter]; rewrite B; now rewrite IH|exact IH].
Qed.
Local Open Scope nat_scope.
Definition UH : hierarchy := {| h_gens := [0]; h_parent := fun _ => None; h_vars := fun _ => [1; 2; 3]; h_ports := fun _ => [0];
  h_kind := fun x => match x with 0 => KIn | _ => KVar end; h_owner := fun _ => 0 |}.
Definition UD : design :=
  [ {| i_id := 0; i_gen := 0; i_proc := PComb [] |};
    {| i_id := 1; i_gen := 0; i_proc := PWire (LVar 1) (EVar 0) |};
    {| i_id := 2; i_gen := 0; i_proc := PFf [(true, 2)] [SAssign NonBlocking (LVar 1) (EVar 1)] |} ].
Example C280_ex : h_vars (remove_unused_vars UH (fun _ => false) UD) 0 = [1] /\ h_vars (remove_unused_vars UH (fun _ => true) UD) 0 = [1; 2; 3].
Proof. split; reflexivity. Qed.
Example C281_ex : map i_id (remove_unused_stmts UD) = [1; 2].
Proof. reflexivity. Qed.
(* C282: a variable may be removed although a process waits for its edges: they are not recorded.  Any such variable that nothing else uses is *)
Theorem C282_event_refuted : forall H d g x, In x (h_vars H g) -> h_kind H x = KVar -> d_event x d -> ~ d_reads x d -> ~ d_assigns x d ->
  ~ In x (h_vars (remove_unused_vars H (fun _ => false) d) g).
Proof. intros H d g x I K _ R A. apply C280_unused; auto. Qed.
Example C282_ex : In 2 (h_vars UH 0) /\ h_kind UH 2 = KVar /\ d_event 2 UD /\ ~ In 2 (h_vars (remove_unused_vars UH (fun _ => false) UD) 0).
Proof. split; [cbn; auto|]. split; [reflexivity|]. split; [|cbn; lia]. exists (nth 2 UD {| i_id := 0; i_gen := 0; i_proc := PComb [] |}), (true, 2). cbn. auto. Qed.
Print Assumptions C280_unused.
Print Assumptions C280_order.
Print Assumptions C281_same_histories.
Print Assumptions C281_left.
Print Assumptions C282_event_refuted.
