(* Proofs about Enable_model. *)
From Verif Require Import Base SV_spec IR IRSem_spec IR_lemmas IfCase_proofs IR_frame Flow_spec Flow_proofs
  Enable_spec Enable_model.
Local Open Scope Z_scope.

Section En.
  Variable G : tenv.
  Definition stays (s : stmt) : Prop := no_jump [s] ->
    forall st, st_status st = Running -> st_status (exec G s st) = Running.
  Lemma nj_incl : forall a b, (forall s, inside s a -> inside s b) -> no_jump b -> no_jump a.
  Proof. intros a b I N s H. apply N, I, H. Qed.
  Ltac nsub := eapply nj_incl; [|eassumption]; eauto with ins.
  Lemma stays_block : forall l, Forall stays l -> no_jump l ->
    forall st, st_status st = Running -> st_status (run G l st) = Running.
  Proof.
    induction l as [|s l IH]; intros F N st S; [exact S|]. apply Forall_cons_iff in F as [F1 F2].
    rewrite run_cons. assert (st_status (exec G s st) = Running) as E by (apply F1; auto; nsub).
    rewrite E. apply IH; auto; nsub.
  Qed.
  Lemma stays_all : forall s, stays s.
  Proof.
    induction s as [k l e|c t f Ht Hf|e cs d Hcs Hd|i a b sp body Hb|body Hb|e| |k] using stmt_ind'; intros N st S.
    - cbn. destruct k; exact S.
    - rewrite exec_if. destruct (truth G (st_cur st) c); apply stays_block; auto; nsub.
    - rewrite exec_switch, pick_chosen.
      destruct (chosen (ev G (st_cur st) e) (ewidth G e) cs d) as [b|] eqn:E; [|exact S].
      apply stays_block; auto; [|nsub].
      destruct (chosen_in _ _ _ _ _ E) as [[k K]|K]; [|auto].
      rewrite Forall_forall in Hcs. exact (Hcs _ K).
    - rewrite exec_for. generalize (for_values a b sp). intros vs. revert st S.
      induction vs as [|v vs IH]; intros st S; [exact S|]. cbn [loop].
      match goal with |- context [run G body ?s1] => assert (st_status (run G body s1) = Running) as E end.
      { apply stays_block; auto; nsub. }
      rewrite E. apply IH, E.
    - rewrite exec_block. apply stays_block; auto; nsub.
    - exfalso. exact (proj2 (N _ (inside_self _)) e eq_refl).
    - exfalso. exact (proj1 (N _ (inside_self _)) eq_refl).
    - exact S.
  Qed.
  Lemma run_stays : forall l, no_jump l -> forall st, st_status st = Running -> st_status (run G l st) = Running.
  Proof. intros l. apply stays_block. apply Forall_forall. intros; apply stays_all. Qed.

  Lemma cond_at_incl : forall p l acc c, cond_at G l p acc = Ok (Some c) ->
    forall a, acc = Some a -> incl (evars a) (evars c).
  Proof.
    induction p as [|[n b] p IH]; intros l acc c H a ->; cbn [cond_at] in H.
    - inversion H; subst. apply incl_refl.
    - destruct (nth_error l n) as [s|]; [|discriminate].
      apply obind_Ok in H as (x & E & H). destruct x as [[c' body]|]; [|discriminate].
      destruct c' as [c'|]; cbn [conj] in H.
      + eapply incl_tran; [|eapply IH; [exact H|reflexivity]]. cbn [evars]. apply incl_appr, incl_refl.
      + eapply IH; [exact H|reflexivity].
  Qed.

  (* a branch is entered iff its condition holds *)
  Lemma branch_exact : forall s b c body r,
    branch_cond G s b = Ok (Some (c, body)) ->
    cases_fit G [s] -> (match s, b with SSwitch _ cs _, BDefault => length cs = 1%nat | _, _ => True end) ->
    step_into s b = Some body
    /\ (enters G r s b = Some body \/ enters G r s b = None)
    /\ (enters G r s b = Some body <-> match c with Some c => truth G r c = true | None => True end).
  Proof.
    intros s b c body r H F D.
    destruct s as [k l e|cc t f|e cs d|i a z sp bd|bd|e| |k]; destruct b; cbn in H; try discriminate;
      try (destruct d; discriminate).
    - inversion H; subst. cbn [enters step_into]. destruct (truth G r cc); intuition congruence.
    - inversion H; subst. cbn [enters step_into]. unfold truth. cbn [ev sv_un].
      destruct (ev G r cc =? 0); cbn; intuition congruence.
    - destruct (find (fun cb => fst cb =? k) cs) as [[k' b']|] eqn:E; [|destruct d; discriminate].
      assert (c = Some (EBin Eq e (EConst k (ewidth G e) false)) /\ body = b') as [-> ->] by (destruct d; inversion H; auto).
      apply find_some in E as E'. destruct E' as [I Q]. cbn in Q. apply Z.eqb_eq in Q. subst k'.
      destruct (F e cs d (inside_self _)) as [N R]. cbn [step_into]. rewrite E. cbn [option_map snd].
      split; [reflexivity|]. rewrite truth_eq_const. cbn [enters].
      assert (forall cb, In cb cs -> enc (ewidth G e) (fst cb) = fst cb) as En.
      { intros cb J. rewrite Forall_forall in R. unfold enc. apply Z.mod_small. exact (R cb J). }
      destruct (find (fun cb => ev G r e =? enc (ewidth G e) (fst cb)) cs) as [[k2 b2]|] eqn:E2.
      + apply find_some in E2 as [I2 Q2]. rewrite (En (k2, b2) I2) in Q2. cbn [fst snd] in *.
        apply Z.eqb_eq in Q2. assert (enc (ewidth G e) k = k) as Ek by (apply (En (k, b') I)). rewrite Ek.
        destruct (Z.eqb_spec k2 k) as [->|Ne].
        * assert (b2 = b') as ->.
          { clear - N I I2. induction cs as [|[x y] cs IH]; [destruct I|]. cbn in N. apply NoDup_cons_iff in N as [N1 N2].
            destruct I as [I|I], I2 as [I2|I2]; try (inversion I; inversion I2; subst; congruence); auto.
            - inversion I; subst. exfalso. apply N1. apply in_map_iff. exists (k, b2). auto.
            - inversion I2; subst. exfalso. apply N1. apply in_map_iff. exists (k, b'). auto. }
          split; [auto|]. rewrite Z.eqb_eq. intuition.
        * split; [auto|]. split; [discriminate|]. rewrite Z.eqb_eq. congruence.
      + split; [auto|]. split; [discriminate|]. intros T. apply Z.eqb_eq in T.
        pose proof (find_none _ _ E2 (k, b') I) as K. cbn in K. apply Z.eqb_neq in K. congruence.
    - destruct d as [d|]; [|discriminate]. apply obind_Ok in H as (x & E & H). inversion H; subst. clear H.
      destruct cs as [|[k b'] [|]]; try discriminate D. cbn in E. apply Ok_inj in E. subst x.
      cbn [step_into enters find fst]. split; [reflexivity|].
      unfold truth. cbn [ev sv_bin]. destruct (ev G r e =? enc (ewidth G e) k); cbn; intuition congruence.
    - inversion H; subst. cbn. tauto.
  Qed.

  Lemma step_inside : forall s b body, step_into s b = Some body -> forall x, inside x body -> inside x [s].
  Proof.
    intros s b body H x I.
    destruct s as [k l e|cc t f|e cs d|i a z sp bd|bd|e| |k]; destruct b; cbn in H; try discriminate.
    - inversion H; subst; eauto with ins.
    - inversion H; subst; eauto with ins.
    - destruct (find _ cs) as [[k' b']|] eqn:E; [|discriminate]. inversion H; subst. apply find_some in E as [J _].
      eapply ins_case; eauto.
    - subst d. apply ins_def. exact I.
    - inversion H; subst; eauto with ins.
  Qed.

  Lemma cond_exact : forall p l acc c st r,
    cond_at G l p acc = Ok (Some c) -> no_jump l -> cases_fit G l -> single_defaults l p ->
    (forall y, In y (evars c) -> ~ changes_now y l) ->
    st_status st = Running -> (forall y, In y (evars c) -> st_cur st y = r y) ->
    (truth G r c = true <->
     (match acc with Some a => truth G r a = true | None => True end) /\ reached G l p st).
  Proof.
    induction p as [|[n b] p IH]; intros l acc c st r H N F D Ch S A; cbn [cond_at reached] in *.
    - inversion H; subst. tauto.
    - destruct (nth_error l n) as [s|] eqn:En; [|discriminate].
      pose proof (nth_error_In _ _ En) as In1.
      apply obind_Ok in H as (x & E & H). destruct x as [[c' body]|]; [|discriminate].
      set (st' := run G (firstn n l) st) in *. cbn [single_defaults] in D. rewrite En in D. destruct D as [D1 D2].
      assert (forall x, inside x [s] -> inside x l) as I1 by (intros x Hx; eapply inside_elem; eauto).
      assert (forall x, inside x (firstn n l) -> inside x l) as I2.
      { intros x Hx. eapply inside_mono; eauto. intros y Hy. rewrite <- (firstn_skipn n l). apply in_app_iff. auto. }
      destruct (branch_exact s b c' body (st_cur st') E) as (B1 & B2 & B3); auto.
      { intros e cs d Hx. eapply F; eauto. }
      assert (forall x, inside x body -> inside x l) as I3 by (intros x Hx; apply I1; eapply step_inside; eauto).
      assert (st_status st' = Running) as S' by (apply run_stays; auto; eapply nj_incl; eauto).
      assert (forall y, In y (evars c) -> st_cur st' y = r y) as A'.
      { intros y Hy. unfold st'. rewrite run_frame; [apply A, Hy|].
        intros K. apply (Ch y Hy). eapply changes_mono; eauto. }
      rewrite B1 in D2.
      rewrite (IH body (conj c' acc) c st' r H); auto;
        [|eapply nj_incl; eauto|intros e cs d Hx; eapply F; eauto|intros y Hy K; apply (Ch y Hy); eapply changes_mono; eauto].
      assert ((match conj c' acc with Some a => truth G r a = true | None => True end) <->
              (match acc with Some a => truth G r a = true | None => True end) /\ enters G (st_cur st') s b = Some body) as Q.
      { rewrite B3. destruct c' as [c'|]; cbn [conj]; [|destruct acc; tauto].
        assert (incl (evars c') (evars c)) as Ic.
        { destruct acc as [a|]; cbn [conj] in H.
          - eapply incl_tran; [|eapply cond_at_incl; [exact H|reflexivity]]. cbn. apply incl_appl, incl_refl.
          - eapply cond_at_incl; [exact H|reflexivity]. }
        assert (truth G (st_cur st') c' = truth G r c') as T.
        { unfold truth. rewrite (ev_agree G (st_cur st') r c'); [reflexivity|]. intros y Hy. apply A', Ic, Hy. }
        rewrite T. destruct acc as [a|]; [|tauto]. unfold truth. cbn [ev sv_bin].
        destruct (ev G r c' =? 0), (ev G r a =? 0); cbn; intuition. }
      rewrite Q. split.
      + intros [[Q1 Q2] Q3]. split; [exact Q1|]. split; [exact S'|]. exists s, body. auto.
      + intros (Q1 & _ & s2 & body2 & Q2 & Q3 & Q4). inversion Q2; subst s2.
        destruct B2 as [B2|B2]; [|congruence]. rewrite B2 in Q3. inversion Q3; subst. auto.
  Qed.
End En.
