From Verif Require Import Base SV_spec IR IRSem_spec IR_lemmas IfCase_proofs.
From Verif Require Import RemoveEmpty_spec RemoveEmpty_model.
Local Open Scope Z_scope.

Lemma reb_if c t f :
  reb (SIf c t f) =
  olet t' := reb_block t in
  olet f' := reb_block f in
  match t' with
  | [] => match f' with [] => UB | _ => Ok (Some (SIf (EUn UInvert c) f' [])) end
  | _ => Ok (Some (SIf c t' f'))
  end.
Proof. reflexivity. Qed.
Lemma reb_sblock b :
  reb (SBlock b) =
  olet b' := reb_block b in Ok (match b' with [] => None | _ => Some (SBlock b') end).
Proof. reflexivity. Qed.
Lemma reb_switch e cs d :
  reb (SSwitch e cs d) =
  olet cs' := reb_cases cs in
  olet d' := match d with
             | None => Ok None
             | Some b => olet b' := reb_block b in
                         Ok (match b' with [] => None | _ => Some b' end)
             end in
  match cs', d' with
  | [], None => Ok None
  | _, _ => Ok (Some (SSwitch e cs' d'))
  end.
Proof. reflexivity. Qed.

(* hollow blocks are exactly those without a leaf statement *)
Definition solid1 (s : stmt) : Prop := exists x, inside x [s] /\ leaf x = true.

Lemma solid_cons s r : solid (s :: r) <-> solid1 s \/ solid r.
Proof.
  split.
  - intros (x & Hx & L).
    assert (inside x [s] \/ inside x r) as [H|H]; [|left|right]; try (exists x; auto; fail).
    inversion Hx; subst; match goal with H : In _ (_ :: _) |- _ => destruct H as [->|Hr] end;
      try (left; apply inside_self); try (right; eapply in_here; eassumption).
    all: first [ left; eapply in_then; [now left|eassumption] | right; eapply in_then; eassumption
               | left; eapply in_else; [now left|eassumption] | right; eapply in_else; eassumption
               | left; eapply in_case; [now left| |]; eassumption | right; eapply in_case; eassumption
               | left; eapply in_default; [now left|eassumption] | right; eapply in_default; eassumption
               | left; eapply in_for; [now left|eassumption] | right; eapply in_for; eassumption
               | left; eapply in_block; [now left|eassumption] | right; eapply in_block; eassumption ].
  - intros [(x & H & L)|(x & H & L)]; exists x; split; auto.
    + eapply inside_elem; eauto. now left.
    + eapply inside_mono; eauto. intros y; now right.
Qed.
Lemma solid_nil : ~ solid [].
Proof. intros (x & H & _). inversion H; contradiction. Qed.
Lemma solid1_leaf s : leaf s = true -> solid1 s.
Proof. intros H. exists s. split; [apply inside_self|exact H]. Qed.

Ltac one_elem :=
  repeat match goal with
  | H : In _ [_] |- _ => destruct H as [H|[]]
  end.
Lemma solid1_if c t f : solid1 (SIf c t f) <-> solid t \/ solid f.
Proof.
  split.
  - intros (x & H & L). inversion H; subst; one_elem; subst; try discriminate.
    + injection H0 as -> -> ->. left; exists x; auto.
    + injection H0 as -> -> ->. right; exists x; auto.
  - intros [(x & H & L)|(x & H & L)]; exists x; split; auto;
      [eapply in_then|eapply in_else]; eauto; now left.
Qed.
Lemma solid1_block b : solid1 (SBlock b) <-> solid b.
Proof.
  split.
  - intros (x & H & L). inversion H; subst; one_elem; subst; try discriminate.
    injection H0 as ->. exists x; auto.
  - intros (x & H & L); exists x; split; auto. eapply in_block; eauto. now left.
Qed.
Lemma solid1_switch e cs d :
  solid1 (SSwitch e cs d) <->
  (exists k b, In (k, b) cs /\ solid b) \/ (exists b, d = Some b /\ solid b).
Proof.
  split.
  - intros (x & H & L). inversion H; subst; one_elem; subst; try discriminate.
    + injection H0 as -> -> ->. left; exists k, b; split; auto. exists x; auto.
    + injection H0 as -> -> ->. right; exists b; split; auto. exists x; auto.
  - intros [(k & b & Hk & x & H & L)|(b & -> & x & H & L)]; exists x; split; auto;
      [eapply in_case|eapply in_default]; eauto; now left.
Qed.

Definition Q1 (s : stmt) : Prop := forall o, reb s = Ok o -> (o = None <-> ~ solid1 s).
Lemma blk_solid l : Forall Q1 l -> forall l', reb_block l = Ok l' -> (l' = [] <-> ~ solid l).
Proof.
  induction 1 as [|s r Hs Hr IH]; intros l' H; cbn in H.
  - apply Ok_inj in H; subst. split; auto. intros _. apply solid_nil.
  - apply obind_Ok in H as (x & Hx & H). apply obind_Ok in H as (r' & Hr' & H).
    apply Ok_inj in H. specialize (Hs _ Hx). specialize (IH _ Hr'). rewrite solid_cons.
    destruct x as [y|]; subst.
    + split; [discriminate|]. intros K. destruct Hs as [_ Hs].
      discriminate Hs. tauto.
    + destruct Hs as [Hs _]. specialize (Hs eq_refl). tauto.
Qed.
Lemma reb_solid s : Q1 s.
Proof.
  induction s as [k l e|c t f Ht Hf|e cs d Hcs Hd|i a b st body Hb|body Hb|e| |k] using stmt_ind';
    intros o Ho;
    try (cbn in Ho; apply Ok_inj in Ho; subst; split; [discriminate|];
         intros N; exfalso; apply N, solid1_leaf; reflexivity).
  - rewrite reb_if in Ho. apply obind_Ok in Ho as (t' & Ht' & Ho).
    apply obind_Ok in Ho as (f' & Hf' & Ho). rewrite solid1_if.
    pose proof (blk_solid _ Ht _ Ht') as E1. pose proof (blk_solid _ Hf _ Hf') as E2.
    destruct t'; [destruct f'|]; try discriminate; apply Ok_inj in Ho; subst.
    + split; [discriminate|]. intros K. destruct E2 as [_ E2]. discriminate E2. tauto.
    + split; [discriminate|]. intros K. destruct E1 as [_ E1]. discriminate E1. tauto.
  - rewrite reb_switch in Ho. apply obind_Ok in Ho as (cs' & Hcs' & Ho).
    apply obind_Ok in Ho as (d' & Hd' & Ho). rewrite solid1_switch.
    assert (cs' = [] <-> ~ exists k b, In (k, b) cs /\ solid b) as E1.
    { clear - Hcs Hcs'. revert cs' Hcs'. induction Hcs as [|[k b] r Hb Hr IH]; intros cs' H; cbn in H.
      - apply Ok_inj in H; subst. split; auto. intros _ (k & b & [] & _).
      - apply obind_Ok in H as (b' & Hb' & H). apply obind_Ok in H as (r' & Hr' & H).
        apply Ok_inj in H. specialize (IH _ Hr'). pose proof (blk_solid _ Hb _ Hb') as E. cbn in E.
        destruct b'; subst.
        + rewrite IH. split; intros K (k1 & b1 & Hk & Hs).
          * destruct Hk as [Hk|Hk]; [injection Hk as <- <-; tauto|]. apply K; eauto.
          * apply K. exists k1, b1. split; [now right|assumption].
        + split; [discriminate|]. intros K. exfalso. destruct E as [_ E].
          discriminate E. intros Hs. apply K. exists k, b. split; [now left|assumption]. }
    assert (d' = None <-> ~ exists b, d = Some b /\ solid b) as E2.
    { destruct d as [b|].
      - apply obind_Ok in Hd' as (b' & Hb' & Hd'). apply Ok_inj in Hd'.
        pose proof (blk_solid _ (Hd _ eq_refl) _ Hb') as E.
        destruct b'; subst.
        + split; auto. intros _ (b1 & Hb1 & Hs). injection Hb1 as <-. tauto.
        + split; [discriminate|]. intros K. destruct E as [_ E].
          discriminate E. intros Hs. apply K. eauto.
      - apply Ok_inj in Hd'; subst. split; auto. intros _ (b & Hb & _). discriminate. }
    destruct cs', d'; apply Ok_inj in Ho; subst.
    + split; [discriminate|]. intros K. destruct E2 as [_ E2]. discriminate E2. tauto.
    + split; auto. intros _. destruct E1 as [E1 _], E2 as [E2 _].
      specialize (E1 eq_refl). specialize (E2 eq_refl). tauto.
    + split; [discriminate|]. intros K. destruct E1 as [_ E1]. discriminate E1. tauto.
    + split; [discriminate|]. intros K. destruct E1 as [_ E1]. discriminate E1. tauto.
  - rewrite reb_sblock in Ho. apply obind_Ok in Ho as (b' & Hb' & Ho). apply Ok_inj in Ho.
    pose proof (blk_solid _ Hb _ Hb') as E. rewrite solid1_block, <- E.
    destruct b'; subst; split; try discriminate; auto.
Qed.
Lemma reb_block_solid l l' : reb_block l = Ok l' -> (l' = [] <-> ~ solid l).
Proof. apply blk_solid. apply Forall_forall. intros; apply reb_solid. Qed.

Section Sem.
  Variable G : tenv.
  Definition sub_ready (l : list stmt) : Prop := forall x, inside x l -> reb_ready G x.
  Definition Q2 (s : stmt) : Prop :=
    sub_ready [s] -> forall o, reb s = Ok o ->
    match o with
    | None => forall st, st_status st = Running -> exec G s st = st
    | Some s' => stmt_eqR G s s'
    end.
  Lemma blk_correct l : Forall Q2 l -> sub_ready l ->
    forall l', reb_block l = Ok l' -> body_eqR G l l'.
  Proof.
    induction 1 as [|s r Hs Hr IH]; intros Rd l' H; cbn in H.
    - apply Ok_inj in H; subst. intros st _; reflexivity.
    - apply obind_Ok in H as (x & Hx & H). apply obind_Ok in H as (r' & Hr' & H).
      apply Ok_inj in H.
      assert (body_eqR G r r') as IH'.
      { apply IH; auto. intros y Hy. apply Rd. eapply inside_mono; eauto. intros z; now right. }
      assert (sub_ready [s]) as Rs.
      { intros y Hy. apply Rd. eapply inside_elem; eauto. now left. }
      specialize (Hs Rs _ Hx). destruct x; subst.
      + now apply body_eqR_cons.
      + now apply body_eqR_drop.
  Qed.

  Lemma pick_none v w cs d st :
    (forall k b, In (k, b) cs -> v <> enc w k) ->
    pick G v w cs d st = match d with None => st | Some b => run G b st end.
  Proof.
    induction cs as [|[k b] r IH]; intros H; [reflexivity|]. cbn.
    destruct (Z.eqb_spec v (enc w k)); [exfalso; apply (H k b); [now left|assumption]|].
    apply IH. intros; eapply H; right; eauto.
  Qed.

  Lemma cases_correct v w : forall cs cs' d d' st,
    st_status st = Running ->
    Forall (fun cb => Forall Q2 (snd cb)) cs ->
    (forall k b, In (k, b) cs -> sub_ready b) ->
    labels_distinct w cs ->
    (d <> None -> forall k b, In (k, b) cs -> solid b) ->
    match d with
    | None => d' = None
    | Some b => match d' with None => run G b st = st | Some b' => run G b st = run G b' st end
    end ->
    reb_cases cs = Ok cs' ->
    pick G v w cs d st = pick G v w cs' d' st.
  Proof.
    induction cs as [|[k b] r IH]; intros cs' d d' st Hst HQ Rd ND Hd Hdd H; cbn in H.
    - apply Ok_inj in H; subst. cbn. destruct d; [destruct d'; auto|subst; reflexivity].
    - apply obind_Ok in H as (b' & Hb' & H). apply obind_Ok in H as (r' & Hr' & H).
      apply Ok_inj in H. inversion HQ as [|? ? HQb HQr]; subst.
      unfold labels_distinct in ND. cbn in ND. inversion ND as [|? ? Hnin ND']; subst.
      assert (pick G v w r d st = pick G v w r' d' st) as IHr.
      { apply IH; auto.
        - intros; eapply Rd; right; eauto.
        - intros Hn k1 b1 H1. apply (Hd Hn k1 b1). now right. }
      pose proof (blk_correct b HQb (Rd k b (or_introl eq_refl)) _ Hb' st Hst) as Eb.
      cbn [pick fst snd]. destruct b' as [|x b'].
      + (* the case is removed *)
        destruct (Z.eqb_spec v (enc w k)) as [E|E]; [|exact IHr].
        rewrite Eb. cbn [run].
        assert (d = None) as ->.
        { destruct d; [|reflexivity]. exfalso.
          apply (reb_block_solid _ _ Hb') ; [reflexivity|].
          eapply Hd; [discriminate|now left]. }
        rewrite <- IHr, pick_none; [reflexivity|].
        intros k1 b1 H1 E1. apply Hnin. rewrite <- E, E1.
        apply (in_map (fun cb => enc w (fst cb)) r (k1, b1)) in H1. exact H1.
      + cbn [pick fst snd]. destruct (v =? enc w k); auto.
  Qed.

  Lemma reb_correct s : Q2 s.
  Proof.
    induction s as [k l e|c t f Ht Hf|e cs d Hcs Hd|i a b st body Hb|body Hb|e| |k] using stmt_ind';
      intros Rd o Ho;
      try (cbn in Ho; apply Ok_inj in Ho; subst; intros st0 _; reflexivity).
    - rewrite reb_if in Ho. apply obind_Ok in Ho as (t' & Ht' & Ho).
      apply obind_Ok in Ho as (f' & Hf' & Ho).
      pose proof (blk_correct t Ht ltac:(intros y Hy; apply Rd; eapply in_then; [now left|eauto]) _ Ht') as Et.
      pose proof (blk_correct f Hf ltac:(intros y Hy; apply Rd; eapply in_else; [now left|eauto]) _ Hf') as Ef.
      destruct t' as [|x t'].
      + destruct f' as [|y f']; [discriminate|]. apply Ok_inj in Ho; subst.
        intros st Hst. rewrite !exec_if.
        destruct (Rd _ (inside_self _)) as [[W1 W2]|Hsol].
        * rewrite truth_invert by auto. rewrite Et, Ef by auto.
          now destruct (truth G (st_cur st) c).
        * exfalso. apply (reb_block_solid _ _ Ht'); auto.
      + apply Ok_inj in Ho; subst. now apply stmt_eqR_if.
    - rewrite reb_switch in Ho. apply obind_Ok in Ho as (cs' & Hcs' & Ho).
      apply obind_Ok in Ho as (d' & Hd' & Ho).
      destruct (Rd _ (inside_self _)) as [ND Hsol].
      assert (forall st, st_status st = Running ->
                exec G (SSwitch e cs d) st = pick G (ev G (st_cur st) e) (ewidth G e) cs' d' st) as Q.
      { intros st Hst. rewrite exec_switch. eapply cases_correct; eauto.
        - intros k b Hk y Hy. apply Rd. eapply in_case; eauto. now left.
        - destruct d as [b|].
          + apply obind_Ok in Hd' as (b' & Hb' & Hd'). apply Ok_inj in Hd'.
            pose proof (blk_correct b (Hd _ eq_refl)
              ltac:(intros y Hy; apply Rd; eapply in_default; [now left|eauto]) _ Hb' st Hst) as E.
            destruct b'; subst; exact E.
          + now apply Ok_inj in Hd'. }
      destruct cs', d'; apply Ok_inj in Ho; subst;
        try (intros st0 Hst; rewrite Q, exec_switch by auto; reflexivity).
      intros st0 Hst. now rewrite Q.
    - rewrite reb_sblock in Ho. apply obind_Ok in Ho as (b' & Hb' & Ho). apply Ok_inj in Ho.
      pose proof (blk_correct body Hb ltac:(intros y Hy; apply Rd; eapply in_block; [now left|eauto]) _ Hb') as Eb.
      destruct b'; subst.
      + intros st Hst. rewrite exec_block. now apply Eb.
      + now apply stmt_eqR_block.
  Qed.
  Lemma reb_block_correct l l' :
    (forall x, inside x l -> reb_ready G x) ->
    reb_block l = Ok l' -> forall st, st_status st = Running -> run G l st = run G l' st.
  Proof. intros H K. eapply blk_correct; eauto. apply Forall_forall. intros; apply reb_correct. Qed.
End Sem.

(* nothing empty remains *)
Definition Q3 (s : stmt) : Prop := forall s', reb s = Ok (Some s') -> tidy s'.
Lemma blk_tidy l : Forall Q3 l -> forall l', reb_block l = Ok l' -> Forall tidy l'.
Proof.
  induction 1 as [|s r Hs Hr IH]; intros l' H; cbn in H.
  - apply Ok_inj in H; subst. constructor.
  - apply obind_Ok in H as (x & Hx & H). apply obind_Ok in H as (r' & Hr' & H).
    apply Ok_inj in H. destruct x; subst; auto.
Qed.
Lemma reb_tidy s : Q3 s.
Proof.
  induction s as [k l e|c t f Ht Hf|e cs d Hcs Hd|i a b st body Hb|body Hb|e| |k] using stmt_ind';
    intros o Ho;
    try (cbn in Ho; apply Ok_inj in Ho; injection Ho as <-; now apply tidy_leaf).
  - rewrite reb_if in Ho. apply obind_Ok in Ho as (t' & Ht' & Ho).
    apply obind_Ok in Ho as (f' & Hf' & Ho).
    pose proof (blk_tidy _ Ht _ Ht'). pose proof (blk_tidy _ Hf _ Hf').
    destruct t'; [destruct f'|]; try discriminate; apply Ok_inj in Ho; injection Ho as <-;
      constructor; auto; discriminate.
  - rewrite reb_switch in Ho. apply obind_Ok in Ho as (cs' & Hcs' & Ho).
    apply obind_Ok in Ho as (d' & Hd' & Ho).
    assert (forall k b, In (k, b) cs' -> b <> [] /\ Forall tidy b) as E1.
    { clear - Hcs Hcs'. revert cs' Hcs'. induction Hcs as [|[k b] r Hb Hr IH]; intros cs' H; cbn in H.
      - apply Ok_inj in H; subst. intros ? ? [].
      - apply obind_Ok in H as (b' & Hb' & H). apply obind_Ok in H as (r' & Hr' & H).
        apply Ok_inj in H. specialize (IH _ Hr'). pose proof (blk_tidy _ Hb _ Hb') as E.
        destruct b'; subst; [exact IH|]. intros k1 b1 [K|K]; [|now apply (IH k1)].
        injection K as <- <-. split; [discriminate|exact E]. }
    assert (forall b, d' = Some b -> b <> [] /\ Forall tidy b) as E2.
    { intros b1 ->. destruct d as [b|]; [|apply Ok_inj in Hd'; discriminate].
      apply obind_Ok in Hd' as (b' & Hb' & Hd'). apply Ok_inj in Hd'.
      pose proof (blk_tidy _ (Hd _ eq_refl) _ Hb') as E.
      destruct b'; [discriminate|]. injection Hd' as <-. split; [discriminate|exact E]. }
    destruct cs', d'; apply Ok_inj in Ho; try discriminate; injection Ho as <-;
      constructor; auto; try (left; discriminate); right; discriminate.
  - rewrite reb_sblock in Ho. apply obind_Ok in Ho as (b' & Hb' & Ho). apply Ok_inj in Ho.
    pose proof (blk_tidy _ Hb _ Hb') as E.
    destruct b'; try discriminate; injection Ho as <-. constructor; [discriminate|exact E].
Qed.
Lemma reb_block_tidy l l' : reb_block l = Ok l' -> Forall tidy l'.
Proof. apply blk_tidy, Forall_forall. intros; apply reb_tidy. Qed.
Lemma remove_empty_tidy body body' :
  remove_empty_process body = Ok (Some body') -> body' <> [] /\ Forall tidy body'.
Proof.
  unfold remove_empty_process. intros H. apply obind_Ok in H as (b & Hb & H). apply Ok_inj in H.
  destruct b; [discriminate|]. injection H as <-. split; [discriminate|].
  eapply reb_block_tidy; eauto.
Qed.
Lemma remove_empty_none_iff body o :
  remove_empty_process body = Ok o -> (o = None <-> ~ solid body).
Proof.
  unfold remove_empty_process. intros H. apply obind_Ok in H as (b & Hb & H). apply Ok_inj in H.
  pose proof (reb_block_solid _ _ Hb) as E. subst. rewrite <- E. destruct b; split; auto; discriminate.
Qed.
Lemma remove_empty_correct G body o :
  (forall x, inside x body -> reb_ready G x) ->
  remove_empty_process body = Ok o ->
  forall st, st_status st = Running ->
    run G body st = match o with None => st | Some body' => run G body' st end.
Proof.
  unfold remove_empty_process. intros Hr H st Hst.
  apply obind_Ok in H as (b & Hb & H). apply Ok_inj in H.
  rewrite (reb_block_correct G _ _ Hr Hb st Hst). destruct b; subst; reflexivity.
Qed.

(* when does the pass crash?  exactly when some visited if has two hollow branches *)
Inductive reaches : stmt -> list stmt -> Prop :=
| r_here s l : In s l -> reaches s l
| r_then s l c t f : In (SIf c t f) l -> reaches s t -> reaches s l
| r_else s l c t f : In (SIf c t f) l -> reaches s f -> reaches s l
| r_case s l e cs d k b : In (SSwitch e cs d) l -> In (k, b) cs -> reaches s b -> reaches s l
| r_default s l e cs b : In (SSwitch e cs (Some b)) l -> reaches s b -> reaches s l
| r_block s l body : In (SBlock body) l -> reaches s body -> reaches s l.
Lemma reaches_inside s l : reaches s l -> inside s l.
Proof.
  induction 1; [eapply in_here|eapply in_then|eapply in_else|eapply in_case|eapply in_default|eapply in_block];
    eauto.
Qed.
Definition Q4 (s : stmt) : Prop :=
  (forall c t f, inside (SIf c t f) [s] -> solid t \/ solid f) -> exists o, reb s = Ok o.
Lemma blk_ok l : Forall Q4 l ->
  (forall c t f, inside (SIf c t f) l -> solid t \/ solid f) -> exists l', reb_block l = Ok l'.
Proof.
  induction 1 as [|s r Hs Hr IH]; intros H; cbn; [eauto|].
  destruct Hs as [o ->]; [intros c t f K; eapply H; eapply inside_elem; [now left|eauto]|].
  destruct IH as [r' ->]; [intros c t f K; eapply H; eapply inside_mono; [eauto|intros z; now right]|].
  cbn. eauto.
Qed.
Lemma reb_ok s : Q4 s.
Proof.
  induction s as [k l e|c t f Ht Hf|e cs d Hcs Hd|i a b st body Hb|body Hb|e| |k] using stmt_ind';
    intros H; try (cbn; eauto; fail).
  - rewrite reb_if.
    destruct (blk_ok t Ht) as [t' Et]; [intros; eapply H, in_then; [now left|eauto]|].
    destruct (blk_ok f Hf) as [f' Ef]; [intros; eapply H, in_else; [now left|eauto]|].
    rewrite Et, Ef. cbn. destruct t'; [destruct f'|]; eauto.
    exfalso. apply reb_block_solid in Et, Ef.
    destruct (H _ _ _ (inside_self _)); [apply Et|apply Ef]; auto.
  - rewrite reb_switch.
    assert (exists cs', reb_cases cs = Ok cs') as [cs' ->].
    { assert (forall c t f k b, In (k, b) cs -> inside (SIf c t f) b -> solid t \/ solid f) as K.
      { intros. eapply H, in_case; eauto. now left. }
      clear - Hcs K. induction Hcs as [|[k b] r Hb Hr IH]; cbn; [eauto|].
      destruct (blk_ok b Hb) as [b' ->]; [intros; eapply K; [now left|eauto]|].
      destruct IH as [r' ->]; [intros; eapply K; [now right; eauto|eauto]|]. cbn. eauto. }
    cbn. destruct d as [b|]; cbn.
    + destruct (blk_ok b (Hd _ eq_refl)) as [b' ->]; [intros; eapply H, in_default; [now left|eauto]|].
      cbn. destruct cs', b'; eauto.
    + destruct cs'; eauto.
  - rewrite reb_sblock.
    destruct (blk_ok body Hb) as [b' ->]; [intros; eapply H, in_block; [now left|eauto]|]. cbn. eauto.
Qed.
Lemma remove_empty_total body :
  (forall c t f, inside (SIf c t f) body -> solid t \/ solid f) ->
  exists o, remove_empty_process body = Ok o.
Proof.
  intros H. unfold remove_empty_process.
  destruct (blk_ok body) as [b ->]; [apply Forall_forall; intros; apply reb_ok|exact H|].
  cbn. eauto.
Qed.
