(* What running a block leaves unchanged. *)
From Verif Require Import Base SV_spec IR IRSem_spec IR_lemmas IfCase_proofs.
Local Open Scope Z_scope.

Lemma ev_agree G r r' e : (forall x, In x (evars e) -> r x = r' x) -> ev G r e = ev G r' e.
Proof.
  induction e; cbn [evars ev]; intros H; auto.
  - rewrite H; [reflexivity|now left].
  - now rewrite IHe.
  - rewrite IHe1, IHe2; auto; intros; apply H, in_or_app; auto.
  - rewrite IHe1, IHe2, IHe3; auto; intros; apply H, in_or_app; auto; right; apply in_or_app; auto.
  - now rewrite IHe.
  - rewrite IHe1, IHe2; auto; intros; apply H, in_or_app; auto.
  - now rewrite IHe.
Qed.

Lemma changes_mono x a b : changes_now x a -> (forall s, inside s a -> inside s b) -> changes_now x b.
Proof.
  intros [(k & l & e & H & H1)|(s & t & u & bd & H)] K; [left; exists k, l, e; split; auto|right].
  exists s, t, u, bd; auto.
Qed.

Section Frame.
  Variables (G : tenv) (x : var).
  Definition QF (s : stmt) : Prop :=
    ~ changes_now x [s] -> forall st, st_cur (exec G s st) x = st_cur st x.
  Lemma run_frame_aux l : Forall QF l -> ~ changes_now x l ->
    forall st, st_cur (run G l st) x = st_cur st x.
  Proof.
    induction 1 as [|s r Hs Hr IH]; intros N st; [reflexivity|].
    assert (st_cur (exec G s st) x = st_cur st x) as E.
    { apply Hs. intros C. apply N. eapply changes_mono; eauto. intros y Hy.
      eapply inside_elem; eauto. now left. }
    rewrite run_cons. destruct (st_status _); auto.
    rewrite IH; auto. intros C. apply N. eapply changes_mono; eauto.
    intros y Hy. eapply inside_mono; eauto. intros z; now right.
  Qed.
  Lemma exec_frame s : QF s.
  Proof.
    induction s as [k l e|c t f Ht Hf|e cs d Hcs Hd|i a b sp body Hb|body Hb|e| |k] using stmt_ind';
      intros N st; try reflexivity.
    - cbn. destruct k; try reflexivity;
        (cbn; unfold do_write, upd; destruct (Nat.eqb_spec x (w_var (target G (st_cur st) l (ev G (st_cur st) e)))) as [E|];
         [|reflexivity]; exfalso; apply N; left; do 3 eexists; split; [apply inside_self|]; split; [discriminate|];
         rewrite E; destruct l; reflexivity).
    - rewrite exec_if. destruct (truth _ _ _).
      + apply run_frame_aux; auto. intros C. apply N. eapply changes_mono; eauto.
        intros y Hy. eapply in_then; eauto. now left.
      + apply run_frame_aux; auto. intros C. apply N. eapply changes_mono; eauto.
        intros y Hy. eapply in_else; eauto. now left.
    - rewrite exec_switch. generalize (ev G (st_cur st) e) (ewidth G e). intros v w.
      assert (forall k b, In (k, b) cs -> ~ changes_now x b) as N1.
      { intros k b Hk C. apply N. eapply changes_mono; eauto.
        intros y Hy. eapply in_case; eauto. now left. }
      assert (forall b, d = Some b -> ~ changes_now x b) as N2.
      { intros b -> C. apply N. eapply changes_mono; eauto.
        intros y Hy. eapply in_default; eauto. now left. }
      clear N. induction Hcs as [|[k b] r Hb Hr IH]; cbn.
      + destruct d; auto. apply run_frame_aux; auto.
      + destruct (v =? enc w k).
        * apply run_frame_aux; auto. apply (N1 k). now left.
        * apply IH. intros k1 b1 H1. apply (N1 k1). now right.
    - rewrite exec_for. generalize (for_values a b sp). intros vs.
      assert (x <> i) as Hxi.
      { intros ->. apply N. right. do 4 eexists. apply inside_self. }
      assert (~ changes_now x body) as N1.
      { intros C. apply N. eapply changes_mono; eauto. intros y Hy. eapply in_for; eauto. now left. }
      revert st. induction vs as [|v vs IH]; intros st; [reflexivity|]. cbn [loop].
      set (st1 := {| st_cur := _ |}).
      assert (st_cur (run G body st1) x = st_cur st x) as E.
      { rewrite run_frame_aux by auto. subst st1. cbn. unfold upd.
        destruct (Nat.eqb_spec x i); [contradiction|reflexivity]. }
      destruct (st_status (run G body st1)); cbn; auto. now rewrite IH.
    - rewrite exec_block. apply run_frame_aux; auto. intros C. apply N. eapply changes_mono; eauto.
      intros y Hy. eapply in_block; eauto. now left.
  Qed.
  Lemma run_frame l : ~ changes_now x l -> forall st, st_cur (run G l st) x = st_cur st x.
  Proof. apply run_frame_aux. apply Forall_forall. intros; apply exec_frame. Qed.
End Frame.

Lemma run_ev_frame G l e :
  (forall x, In x (evars e) -> ~ changes_now x l) ->
  forall st, ev G (st_cur (run G l st)) e = ev G (st_cur st) e.
Proof. intros H st. apply ev_agree. intros x Hx. apply run_frame; auto. Qed.
