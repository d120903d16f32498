From Verif Require Import Base Cov_spec Cov_model.
Local Open Scope nat_scope.

Fixpoint cstmt_ind' (P : cstmt -> Prop)
  (h1 : forall p tid t fid f, Forall P t -> Forall P f -> P (CIf p tid t fid f))
  (h2 : forall p cs, P (CSwitch p cs)) (h3 : forall id b, P (CFor id b))
  (h4 : forall id b, Forall P b -> P (CScope id b)) (h5 : forall b, Forall P b -> P (CProc b)) (h6 : P CLeaf) (s : cstmt) : P s :=
  let all := fix all (l : list cstmt) : Forall P l :=
    match l with [] => Forall_nil _ | s :: r => Forall_cons _ (cstmt_ind' P h1 h2 h3 h4 h5 h6 s) (all r) end in
  match s with
  | CIf p tid t fid f => h1 p tid t fid f (all t) (all f)
  | CSwitch p cs => h2 p cs
  | CFor id b => h3 id b
  | CScope id b => h4 id b (all b)
  | CProc b => h5 b (all b)
  | CLeaf => h6
  end.
Lemma hits_if : forall st p tid t fid f, hits st (CIf p tid t fid f) =
  match st p with Some v => if (v =? 0)%Z then fid :: flat_map (hits st) f else tid :: flat_map (hits st) t | None => fid :: flat_map (hits st) f end.
Proof.
  intros. cbn. assert (forall l, (fix all (l : list cstmt) : list nat := match l with [] => [] | s :: r => hits st s ++ all r end) l = flat_map (hits st) l) as E
    by (induction l; cbn; congruence). rewrite !E. reflexivity.
Qed.
Lemma hits_scope : forall st id b, hits st (CScope id b) = id :: flat_map (hits st) b.
Proof. intros. cbn. f_equal. Qed.
Lemma hits_proc : forall st b, hits st (CProc b) = flat_map (hits st) b.
Proof. intros. cbn. induction b; cbn; congruence. Qed.
Lemma is_true_dec : forall v, is_true v <-> exists z, v = Some z /\ (z =? 0)%Z = false.
Proof. intros v. unfold is_true. split; intros (z & E & N); exists z; split; auto; [now apply Z.eqb_neq|now apply Z.eqb_neq]. Qed.
Lemma hits_ok : forall st s, simple s -> forall id, In id (hits st s) <-> covers st id s.
Proof.
  intros st. induction s as [p tid t fid f Ht Hf|p cs|i b|i b Hb|b Hb|] using cstmt_ind'; intros S id.
  - inversion S as [? ? ? ? ? St Sf| | |]; subst. rewrite hits_if.
    assert (forall l, Forall (fun s => simple s -> forall id, In id (hits st s) <-> covers st id s) l -> Forall simple l ->
              (In id (flat_map (hits st) l) <-> exists s, In s l /\ covers st id s)) as L.
    { intros l F Sl. rewrite in_flat_map. rewrite Forall_forall in F, Sl. split; intros (s & J & K); exists s; split; auto; apply F; auto. }
    specialize (L t Ht St) as Lt. specialize (L f Hf Sf) as Lf. clear L.
    destruct (st p) as [v|] eqn:E; [destruct (Z.eqb_spec v 0) as [->|N]|].
    + assert (~ is_true (st p)) as NT by (intros (z & Q & R); congruence). cbn [In]. rewrite Lf. split.
      * intros [->|(s & J & K)]; [now apply cv_else|eapply cv_else_in; eassumption].
      * intros C. inversion C; subst; try contradiction; [now left|right; eauto].
    + assert (is_true (st p)) as T by (exists v; auto). cbn [In]. rewrite Lt. split.
      * intros [->|(s & J & K)]; [now apply cv_then|eapply cv_then_in; eassumption].
      * intros C. inversion C; subst; try contradiction; [now left|right; eauto].
    + assert (~ is_true (st p)) as NT by (intros (z & Q & R); congruence). cbn [In]. rewrite Lf. split.
      * intros [->|(s & J & K)]; [now apply cv_else|eapply cv_else_in; eassumption].
      * intros C. inversion C; subst; try contradiction; [now left|right; eauto].
  - inversion S.
  - inversion S.
  - inversion S as [|? ? Sb| |]; subst. rewrite hits_scope. cbn [In]. rewrite in_flat_map. rewrite Forall_forall in Hb, Sb. split.
    + intros [->|(s & J & K)]; [apply cv_scope|]. eapply cv_scope_in; [exact J|]. apply Hb; auto.
    + intros C. inversion C; subst; [now left|right]. eexists; split; [eassumption|]. apply Hb; auto.
  - inversion S as [| |? Sb|]; subst. rewrite hits_proc. rewrite in_flat_map. rewrite Forall_forall in Hb, Sb. split.
    + intros (s & J & K). eapply cv_proc; [exact J|]. apply Hb; auto.
    + intros C. inversion C; subst. eexists; split; [eassumption|]. apply Hb; auto.
  - cbn. split; [intros []|intros C; inversion C].
Qed.
Lemma run_coverage_ok : forall design r id, Forall simple design -> In id (run_coverage design r) <-> run_covers design r id.
Proof.
  intros design r id S. unfold run_coverage, run_covers. destruct (r_cov r) as [|c l] eqn:E.
  - rewrite in_flat_map. rewrite Forall_forall in S. split.
    + intros (st & J & K). apply in_flat_map in K as (s & J2 & K). right. split; [reflexivity|]. exists st, s. split; [assumption|]. split; [assumption|]. apply hits_ok; auto.
    + intros [[]|[_ (st & s & J1 & J2 & C)]]. exists st. split; [assumption|]. apply in_flat_map. exists s. split; [assumption|]. apply hits_ok; auto.
  - split; [auto|]. intros [H|[H _]]; [assumption|discriminate].
Qed.

(* the cache holds coverages of the runs *)
Definition sound (design : list cstmt) (a : analyzer) : Prop :=
  forall i c, In (i, c) (a_cache a) -> exists r, nth_error (a_runs a) i = Some r /\ c = run_coverage design r.
Lemma find_n_in : forall A (l : list (nat * A)) k a, find_n l k = Some a -> In (k, a) l.
Proof. induction l as [|[j b] r IH]; cbn; intros k a H; [discriminate|]. destruct (Nat.eqb_spec k j) as [->|]; [injection H as ->; auto|auto]. Qed.
Lemma find_n_none : forall A (l : list (nat * A)) k a, find_n l k = None -> ~ In (k, a) l.
Proof. induction l as [|[j b] r IH]; cbn; intros k a H J; [exact J|]. destruct (Nat.eqb_spec k j) as [->|D]; [discriminate|]. destruct J as [J|J]; [injection J; congruence|eapply IH; eassumption]. Qed.
Lemma compute_runs : forall design a i, a_runs (compute design a i) = a_runs a.
Proof. intros. unfold compute. destruct (nth_error (a_runs a) i); [destruct (find_n (a_cache a) i)|]; reflexivity. Qed.
Lemma fill_runs_l : forall design l a, a_runs (fold_left (compute design) l a) = a_runs a.
Proof. induction l; intros; cbn; [reflexivity|]. rewrite IHl. apply compute_runs. Qed.
Lemma compute_sound : forall design a i, sound design a -> sound design (compute design a i).
Proof.
  intros design a i S j c H. rewrite compute_runs. unfold compute in H. destruct (nth_error (a_runs a) i) as [r|] eqn:R; [|now apply S].
  destruct (find_n (a_cache a) i); [now apply S|]. cbn [a_cache] in H. apply in_app_or in H as [H|[H|[]]]; [now apply S|]. injection H as <- <-. eauto.
Qed.
Lemma compute_mono : forall design a i e, In e (a_cache a) -> In e (a_cache (compute design a i)).
Proof. intros. unfold compute. destruct (nth_error (a_runs a) i); [destruct (find_n (a_cache a) i)|]; auto. cbn. apply in_or_app. auto. Qed.
Lemma compute_has : forall design a i, i < length (a_runs a) -> exists c, In (i, c) (a_cache (compute design a i)).
Proof.
  intros design a i L. unfold compute. destruct (nth_error (a_runs a) i) as [r|] eqn:R; [|apply nth_error_None in R; lia].
  destruct (find_n (a_cache a) i) as [c|] eqn:F; [exists c; now apply find_n_in|]. cbn. exists (run_coverage design r). apply in_or_app. right. now left.
Qed.
Lemma fill_l : forall design l a, sound design a -> (forall i, In i l -> i < length (a_runs a)) ->
  sound design (fold_left (compute design) l a) /\ (forall e, In e (a_cache a) -> In e (a_cache (fold_left (compute design) l a)))
  /\ forall i, In i l -> exists c, In (i, c) (a_cache (fold_left (compute design) l a)).
Proof.
  induction l as [|i l IH]; intros a S L; cbn [fold_left].
  - split; [assumption|]. split; [auto|intros i []].
  - destruct (IH (compute design a i)) as (S' & M & F).
    + now apply compute_sound. + intros j J. rewrite compute_runs. apply L. now right.
    + split; [assumption|]. split; [intros e He; apply M, compute_mono, He|]. intros j [->|J]; [|auto].
      destruct (compute_has design a j) as [c C]; [apply L; now left|]. exists c. apply M, C.
Qed.
Lemma fill_ok : forall design a, sound design a -> sound design (fill design a) /\ a_runs (fill design a) = a_runs a
  /\ forall i r, nth_error (a_runs a) i = Some r -> In (i, run_coverage design r) (a_cache (fill design a)).
Proof.
  intros design a S. destruct (fill_l design (seq 0 (length (a_runs a))) a S) as (S' & _ & F).
  { intros i J. apply in_seq in J. lia. }
  split; [exact S'|]. split; [apply fill_runs_l|]. intros i r R. destruct (F i) as [c C].
  { apply in_seq. split; [lia|]. apply nth_error_Some. congruence. }
  destruct (S' i c C) as (r' & R' & ->). unfold fill. rewrite fill_runs_l in R'. congruence.
Qed.
Lemma counted_ok : forall design a w id, sound design a -> In id (counted (fill design a) w) <->
  exists r, In r (a_runs a) /\ r_wrong r = w /\ In id (run_coverage design r).
Proof.
  intros design a w id S. destruct (fill_ok design a S) as (S' & R & F). unfold counted. rewrite in_flat_map. split.
  - intros ([i c] & J & K). cbn [fst snd] in K. destruct (S' i c J) as (r & N & ->). rewrite N in K. rewrite R in N.
    destruct (Bool.eqb (r_wrong r) w) eqn:B; [|destruct K]. exists r. split; [eapply nth_error_In; eassumption|]. split; [now apply eqb_prop|assumption].
  - intros (r & J & W & K). apply In_nth_error in J as [i N]. exists (i, run_coverage design r). split; [now apply F|]. cbn [fst snd].
    rewrite R, N, W, Bool.eqb_reflx. exact K.
Qed.
Lemma analyze_ok : forall design a id, Forall simple design -> sound design a ->
  In id (analyze design a) <-> suspicious design (a_runs a) id.
Proof.
  intros design a id Sm S. unfold analyze, fault_stmts. rewrite nodup_In, filter_In, (counted_ok design a true id S), negb_true_iff, <- not_true_iff_false.
  assert (existsb (Nat.eqb id) (counted (fill design a) false) = true <-> exists r, In r (a_runs a) /\ r_wrong r = false /\ In id (run_coverage design r)) as ->.
  { rewrite <- (counted_ok design a false id S), existsb_exists. split; [intros (y & J & E); apply Nat.eqb_eq in E; now subst|intros J; exists id; split; [assumption|apply Nat.eqb_refl]]. }
  unfold suspicious. split.
  - intros [(r & J & W & C) N]. split; [exists r; split; [assumption|split; [assumption|now apply run_coverage_ok]]|].
    intros r' J' W' C'. apply N. exists r'. split; [assumption|]. split; [assumption|now apply run_coverage_ok].
  - intros [(r & J & W & C) N]. split; [exists r; split; [assumption|split; [assumption|now apply run_coverage_ok]]|].
    intros (r' & J' & W' & C'). apply (N r' J' W'). now apply run_coverage_ok.
Qed.
Lemma set_nth_nth : forall A (l : list A) i f j, nth_error (set_nth l i f) j = if Nat.eqb i j then option_map f (nth_error l j) else nth_error l j.
Proof.
  induction l as [|a r IH]; intros i f j; cbn.
  - destruct (Nat.eqb i j); destruct j; reflexivity.
  - destruct i, j; cbn; auto.
Qed.
Definition not_addcov (o : cop) : Prop := match o with AddCov _ _ => False | _ => True end.
Lemma do_op_sound : forall design a o, not_addcov o -> sound design a -> sound design (do_op design a o).
Proof.
  intros design a o N S. destruct o as [r|i|i| |i c]; cbn [do_op do_run]; [| | | |destruct N].
  - intros i c J. cbn [a_cache a_runs] in *. destruct (S i c J) as (r' & R & ->). exists r'. split; [|reflexivity]. rewrite nth_error_app1; [assumption|]. apply nth_error_Some. congruence.
  - intros j c J. cbn [a_cache a_runs] in *. destruct (S j c J) as (r' & R & ->). rewrite set_nth_nth, R. destruct (Nat.eqb i j); [|eauto].
    cbn [option_map]. eexists. split; [reflexivity|]. destruct r' as [w cv ss]. destruct ss; reflexivity.
  - now apply compute_sound.
  - now apply fill_ok.
Qed.
Lemma do_op_runs : forall design a o, a_runs (do_op design a o) = do_run (a_runs a) o.
Proof. intros design a [r|i|i| |i c]; try reflexivity; cbn [do_op do_run]; [apply compute_runs|apply fill_runs_l]. Qed.
Lemma history : forall design ops a, Forall not_addcov ops -> sound design a ->
  sound design (fold_left (do_op design) ops a) /\ a_runs (fold_left (do_op design) ops a) = fold_left do_run ops (a_runs a).
Proof.
  induction ops as [|o r IH]; intros a F S; cbn [fold_left]; [auto|]. inversion F; subst.
  destruct (IH (do_op design a o)) as [S' R']; [assumption|now apply do_op_sound|]. split; [assumption|]. rewrite R', do_op_runs. reflexivity.
Qed.
