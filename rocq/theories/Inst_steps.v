From Verif Require Import Base SV_spec IR IRSem_spec IR_lemmas IfCase_proofs IR_frame Flow_spec Flow_proofs Design_spec Design_proofs Dce_spec Dce_model Dce_proofs
  Fan_spec Fan_model Retarget_proofs Fan_proofs Tie_model Tie_proofs Tie_props Move_spec Move_model Move_proofs Move_props Pass_spec Pass_proofs Inline_spec Inline_model Inline_proofs
  Inst_spec Inst_model Inst_proofs.
Local Open Scope Z_scope.

(* ---- what a step on p0 and v0 in g0 leaves as it is ---- *)
Record mild (g0 : nat) (p0 v0 : var) (it it' : item) : Prop := {
  md_id : i_id it' = i_id it; md_gen : i_gen it' = i_gen it; md_events : events_of (i_proc it') = events_of (i_proc it);
  md_reads : forall x, x <> p0 -> x <> v0 -> reads x (body it') <-> reads x (body it);
  md_touches : forall x, x <> p0 -> x <> v0 -> touches x (body it') <-> touches x (body it);
  md_loops : forall x, loops_over x (body it') <-> loops_over x (body it);
  md_stuck : forall x s, x <> p0 -> x <> v0 -> inside s (body it') -> stuck x s -> exists s0, inside s0 (body it) /\ stuck x s0;
  md_reads_only : forall x, reads x (body it') -> reads x (body it) \/ (x = v0 /\ i_gen it = g0);
  md_touches_only : forall x, touches x (body it') -> touches x (body it) \/ (x = v0 /\ i_gen it = g0) }.
Lemma mild_refl : forall g p v it, mild g p v it it.
Proof. intros g p v it. split; try tauto; try reflexivity. eauto. Qed.
Lemma mild_in : forall g p v it, mild g p v it (to_in g p v it).
Proof.
  intros g p v it. destruct (Nat.eq_dec (i_gen it) g) as [E|N]; [|rewrite (out_else g p v it N); apply mild_refl].
  assert (body (to_in g p v it) = map (to_stmt p v) (body it)) as B by now apply out_body.
  assert (forall x, x <> p -> x <> v -> touches x (body (to_in g p v it)) <-> touches x (body it)) as T.
  { intros x Np Nv. rewrite B. split.
    - intros X. apply to_touches in X. destruct X as [[X _]|[X|[X _]]]; [exact X|now right|contradiction].
    - intros [X|X]; [left|right; now apply loops_to]. apply assigns_to_iff. exists x. split; [exact X|]. unfold tv. destruct (Nat.eqb_spec x p); [contradiction|reflexivity]. }
  split.
  - unfold to_in. destruct (Nat.eqb (i_gen it) g); reflexivity.
  - unfold to_in. destruct (Nat.eqb (i_gen it) g); reflexivity.
  - apply out_events.
  - intros x _ _. rewrite B. apply reads_to.
  - exact T.
  - intros x. rewrite B. apply loops_to.
  - intros x s _ _ I S0. rewrite B in I. apply to_inside in I. destruct I as (s0 & I & ->). exists s0. split; [exact I|]. now apply to_stuck in S0.
  - intros x R. rewrite B in R. left. rewrite reads_to in R; exact R.
  - intros x X. rewrite B in X. apply to_touches in X. destruct X as [[X _]|[X|[X _]]]; [now left|left; now right|right; auto].
Qed.
Lemma mild_out : forall g p v it, mild g p v it (move_item p v g it).
Proof.
  intros g p v it. unfold move_item. destruct (Nat.eqb_spec (i_gen it) g) as [E|N]; [|apply mild_refl].
  split; cbn [i_id i_gen i_proc]; try reflexivity; try apply move_events.
  - intros x Np Nv. rewrite move_body. split; [intros R; apply ms_reads_from in R; destruct R as [R|[-> _]]; [exact R|contradiction]|].
    intros (s & I & R). exists (move_stmt p v s). split; [now apply inside_ms|].
    assert (forall e, In x (evars e) -> In x (evars (moved_test p v e))) as K by (intros e; apply (partly_reads p v e _ x (moved_test_partly p v e) Np Nv)).
    inversion R as [k l e R0|c t f R0|e cs dd R0|e R0]; subst.
    + rewrite ms_assign. constructor. destruct R0 as [R0|R0]; [now left|right]. now apply (partly_reads p v e _ x (moved_right_partly p v k l e) Np Nv).
    + cbn [move_stmt]. fold (moved_test p v c). constructor. now apply K.
    + cbn [move_stmt]. fold (moved_test p v e). constructor. now apply K.
    + cbn [move_stmt]. fold (moved_test p v e). constructor. now apply K.
  - intros x _ _. rewrite move_body. apply ms_touches.
  - intros x. rewrite move_body. split; [apply ms_loops|]. intros (a & b & st & bd & I). apply (inside_ms p v) in I. do 4 eexists. exact I.
  - intros x s Np Nv I S0. rewrite move_body in I. apply ms_inside in I. destruct I as (s0 & I & ->). exists s0. split; [exact I|]. now apply ms_stuck in S0.
  - intros x R. rewrite move_body in R. apply ms_reads_from in R. destruct R as [R|[-> _]]; auto.
  - intros x X. rewrite move_body in X. left. now apply ms_touches in X.
Qed.

(* ---- the lists of statements ---- *)
Lemma statements_app : forall f d1 d2, statements f (d1 ++ d2) = (statements f d1 ++ statements f d2)%list.
Proof. intros. apply flat_map_app. Qed.
Section Lists.
  Variables (g0 : nat) (sm : stmt -> stmt) (F : item -> item).
  Hypothesis Hb : forall it, i_gen it = g0 -> body (F it) = map sm (body it).
  Hypothesis Hn : forall it, i_gen it <> g0 -> F it = it.
  Hypothesis Hc : forall l, collect_body (fun s => [s]) (map sm l) = map sm (collect_body (fun s => [s]) l).
  Definition FS (k : item * stmt) : item * stmt := (F (fst k), if Nat.eqb (i_gen (fst k)) g0 then sm (snd k) else snd k).
  Lemma statements_map : forall f d, (forall s, f (sm s) = f s) -> statements f (map F d) = map FS (statements f d).
  Proof.
    intros f d E. unfold statements. induction d as [|it r IH]; [reflexivity|]. cbn [map flat_map]. rewrite IH, map_app. f_equal. rewrite map_map. unfold FS. cbn [fst snd].
    destruct (Nat.eqb_spec (i_gen it) g0) as [Eg|Ng].
    - rewrite (Hb it Eg), Hc. clear - E. induction (collect_body (fun s => [s]) (body it)) as [|s l IH]; [reflexivity|]. cbn [map filter]. rewrite E. destruct (f s); [cbn [map]; now rewrite IH|exact IH].
    - rewrite (Hn it Ng). reflexivity.
  Qed.
End Lists.
Section Collects.
  Variable m : stmt -> stmt.
  Notation all := (collect_body (fun s => [s])).
  Hypothesis Hif : forall c t f, exists c', m (SIf c t f) = SIf c' (map m t) (map m f).
  Hypothesis Hsw : forall e cs d, exists e', m (SSwitch e cs d) = SSwitch e' (map (fun c => (fst c, map m (snd c))) cs) (match d with Some l => Some (map m l) | None => None end).
  Hypothesis Hfor : forall i u v st l, m (SFor i u v st l) = SFor i u v st (map m l).
  Hypothesis Hbl : forall l, m (SBlock l) = SBlock (map m l).
  Hypothesis Has : forall k l e, exists l' e', m (SAssign k l e) = SAssign k l' e'.
  Hypothesis Hre : forall e, exists e', m (SReturn e) = SReturn e'.
  Hypothesis Hbr : forall s, match s with SAssign _ _ _ | SIf _ _ _ | SSwitch _ _ _ | SFor _ _ _ _ _ | SBlock _ | SReturn _ => True | _ => m s = s end.
  Lemma all_fix : forall l, (fix all (l : list stmt) : list stmt := match l with [] => [] | s :: r => collect (fun s => [s]) s ++ all r end) l = all l.
  Proof using. clear. induction l as [|s r IH]; [reflexivity|]. cbn [collect_body flat_map]. now rewrite IH. Qed.
  Lemma collect_map : forall s, collect (fun s => [s]) (m s) = map m (collect (fun s => [s]) s).
  Proof.
    assert (forall l, Forall (fun s => collect (fun s => [s]) (m s) = map m (collect (fun s => [s]) s)) l -> all (map m l) = map m (all l)) as B.
    { induction 1 as [|s r E _ IH]; [reflexivity|]. cbn [map collect_body flat_map]. fold (all (map m r)). fold (all r). now rewrite E, IH, map_app. }
    induction s as [k l e|c t f Ht Hf|e cs d Hcs Hd|i u v sp bd Hb|bd Hb|e| |k] using stmt_ind'.
    - destruct (Has k l e) as (l' & e' & E). rewrite E. cbn. now rewrite E.
    - destruct (Hif c t f) as (c' & E). rewrite E. cbn [collect]. rewrite (all_fix (map m t)), (all_fix (map m f)), (all_fix t), (all_fix f), (B t Ht), (B f Hf). cbn [map app]. now rewrite E, map_app.
    - destruct (Hsw e cs d) as (e' & E). rewrite E. cbn [collect map app]. rewrite E. f_equal. rewrite map_app. f_equal.
      + clear - Hcs B. induction Hcs as [|[k l] r Hb _ IH]; [reflexivity|]. cbn [map flat_map fst snd]. rewrite (all_fix (map m l)), (all_fix l), (B l Hb), map_app. now rewrite IH.
      + destruct d as [l|]; [|reflexivity]. rewrite (all_fix (map m l)), (all_fix l). apply B. now apply Hd.
    - rewrite Hfor. cbn [collect map app]. rewrite (all_fix (map m bd)), (all_fix bd), Hfor. now rewrite (B bd Hb).
    - rewrite Hbl. cbn [collect map app]. rewrite (all_fix (map m bd)), (all_fix bd), Hbl. now rewrite (B bd Hb).
    - destruct (Hre e) as (e' & E). rewrite E. cbn. now rewrite E.
    - pose proof (Hbr SBreak) as E. cbn in E. rewrite E. cbn. now rewrite E.
    - match goal with |- collect _ (m ?s) = _ => pose proof (Hbr s) as E end. cbn in E. rewrite E. cbn. now rewrite E.
  Qed.
  Lemma collect_all_map : forall l, all (map m l) = map m (all l).
  Proof. induction l as [|s r IH]; [reflexivity|]. cbn [map collect_body flat_map]. fold (all (map m r)). fold (all r). now rewrite collect_map, IH, map_app. Qed.
End Collects.
Lemma collect_to : forall a b l, collect_body (fun s => [s]) (map (to_stmt a b) l) = map (to_stmt a b) (collect_body (fun s => [s]) l).
Proof. intros a b. apply collect_all_map; intros; cbn [to_stmt]; eauto. destruct s; reflexivity || exact I. Qed.
Lemma collect_ms : forall a b l, collect_body (fun s => [s]) (map (move_stmt a b) l) = map (move_stmt a b) (collect_body (fun s => [s]) l).
Proof.
  intros a b. apply collect_all_map; intros.
  - cbn [move_stmt]. eauto.
  - cbn [move_stmt]. eauto.
  - reflexivity.
  - reflexivity.
  - rewrite ms_assign. eauto.
  - cbn [move_stmt]. eauto.
  - destruct s; reflexivity || exact I.
Qed.
(* the statements that assign x or use x are the same ones *)
Lemma mem_iff : forall x l l', (In x l <-> In x l') -> mem x l = mem x l'.
Proof. intros x l l' E. destruct (mem x l') eqn:M; [apply mem_In, E, mem_In, M|]. apply mem_false. rewrite E. now apply mem_false. Qed.
Lemma sources_in : forall g p v d x, x <> p -> x <> v -> sources_of (map (to_in g p v) d) x = map (FS g (to_stmt p v) (to_in g p v)) (sources_of d x).
Proof.
  intros g p v d x Np Nv. apply statements_map; [intros it E; now apply out_body|intros it N; now apply out_else|apply collect_to|].
  intros s. destruct s; try reflexivity. cbn [to_stmt assigns_to]. rewrite to_var. unfold tv. destruct (Nat.eqb_spec (lhs_var l) p) as [E|N]; [|reflexivity].
  destruct (Nat.eqb_spec v x), (Nat.eqb_spec (lhs_var l) x); congruence.
Qed.
Lemma sinks_in : forall g p v d x, sinks_of (map (to_in g p v) d) x = map (FS g (to_stmt p v) (to_in g p v)) (sinks_of d x).
Proof.
  intros g p v d x. apply statements_map; [intros it E; now apply out_body|intros it N; now apply out_else|apply collect_to|].
  intros s. apply mem_iff. rewrite !reads_sinks. apply reads_ts.
Qed.
Lemma sources_out : forall g p v d x, sources_of (map (move_item p v g) d) x = map (FS g (move_stmt p v) (move_item p v g)) (sources_of d x).
Proof.
  intros g p v d x. apply statements_map.
  - intros it E. unfold move_item. rewrite E, Nat.eqb_refl. apply move_body.
  - intros it N. unfold move_item. destruct (Nat.eqb_spec (i_gen it) g); [contradiction|reflexivity].
  - apply collect_ms.
  - intros s. destruct s; try reflexivity. now rewrite ms_assign.
Qed.
Lemma ms_reads_same : forall p v x s, x <> p -> x <> v -> reads_stmt x (move_stmt p v s) <-> reads_stmt x s.
Proof.
  intros p v x s Np Nv. split; [apply (ms_reads p v x Np Nv)|]. intros R.
  assert (forall e, In x (evars e) -> In x (evars (moved_test p v e))) as K by (intros e; apply (partly_reads p v e _ x (moved_test_partly p v e) Np Nv)).
  inversion R as [k l e R0|c t f R0|e cs dd R0|e R0]; subst.
  - rewrite ms_assign. constructor. destruct R0 as [R0|R0]; [now left|right]. now apply (partly_reads p v e _ x (moved_right_partly p v k l e) Np Nv).
  - cbn [move_stmt]. fold (moved_test p v c). constructor. now apply K.
  - cbn [move_stmt]. fold (moved_test p v e). constructor. now apply K.
  - cbn [move_stmt]. fold (moved_test p v e). constructor. now apply K.
Qed.
Lemma sinks_out : forall g p v d x, x <> p -> x <> v -> sinks_of (map (move_item p v g) d) x = map (FS g (move_stmt p v) (move_item p v g)) (sinks_of d x).
Proof.
  intros g p v d x Np Nv. apply statements_map.
  - intros it E. unfold move_item. rewrite E, Nat.eqb_refl. apply move_body.
  - intros it N. unfold move_item. destruct (Nat.eqb_spec (i_gen it) g); [contradiction|reflexivity].
  - apply collect_ms.
  - intros s. apply mem_iff. rewrite !reads_sinks. now apply ms_reads_same.
Qed.
