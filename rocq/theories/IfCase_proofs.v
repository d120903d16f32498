From Verif Require Import Base SV_spec IR IRSem_spec IR_lemmas IfCase_spec IfCase_model.
Local Open Scope Z_scope.

Section P.
  Variable G : tenv.

  Lemma inside_self s : inside s [s].
  Proof. apply in_here. now left. Qed.

  Definition has_target_if_good (s : stmt) : Prop :=
    forall v n ifs, has_target_if s v n = Some ifs ->
      match s with
      | SIf (EBin Eq l (EConst k w b)) t f =>
          (forall v', v = Some v' -> v' = l)
          /\ exists r, ifs = (k, t, f) :: r
             /\ ((r = [] /\ match f with [] => True | [s'] => elif_tests s' = [] | _ => False end)
                 \/ exists s', f = [s'] /\ has_target_if s' (Some l) (S n) = Some r /\ r <> [])
      | SIf _ _ _ => False
      | _ => ifs = []
      end.

  Lemma has_target_if_inv s : has_target_if_good s.
  Proof.
    intros v n ifs H. destruct s; cbn in H; try (destruct (Nat.leb n 1); congruence).
    destruct c; try discriminate. destruct op; try discriminate. destruct c2; try discriminate.
    destruct (match v with None => true | Some v' => expr_eqb v' c1 end) eqn:E; [|discriminate].
    split.
    - intros v' ->. now apply expr_eqb_eq.
    - destruct f as [|s' [|s'' f]]; [|destruct (has_target_if s' (Some c1) (S n)) as [r|] eqn:R|].
      + injection H as <-. exists []; auto.
      + injection H as <-. exists r. split; [reflexivity|].
        destruct r; [left|right; exists s'; repeat split; auto; discriminate].
        split; [reflexivity|]. destruct s'; try reflexivity.
        cbn in R. destruct c; try discriminate. destruct op; try discriminate.
        destruct c3; try discriminate. destruct (expr_eqb _ _); [|discriminate].
        destruct f as [|x [|y f]]; try discriminate. destruct (has_target_if x _ _); discriminate.
      + discriminate.
      + discriminate.
  Qed.

  Fixpoint chain_exec (l : expr) (ifs : list (Z * list stmt * list stmt)) (st : pstate) : pstate :=
    match ifs with
    | [] => st
    | (k, t, f) :: r =>
        if ev G (st_cur st) l =? enc (ewidth G l) k then run G t st
        else match r with [] => run G f st | _ => chain_exec l r st end
    end.

  Lemma chain_correct s : forall v n ifs l c0 t0 f0 c1,
    s = SIf (EBin Eq l c1) t0 f0 -> c0 = c1 ->
    has_target_if s v n = Some ifs ->
    (forall x, inside x [s] -> eq_typed G x) ->
    forall st, exec G s st = chain_exec l ifs st.
  Proof.
    induction s as [| c t f Ht Hf | | | | | |] using stmt_ind'; try discriminate.
    intros v n ifs l c0 t0 f0 c1 Hs Hc H Ty st.
    injection Hs as -> -> ->. clear c0 Hc.
    pose proof (has_target_if_inv _ _ _ _ H) as K. cbn in K.
    destruct c1 as [|k w b| | | | | |]; try contradiction.
    destruct K as (_ & r & -> & K).
    rewrite exec_if, truth_eq_const.
    assert (w = ewidth G l) as ->.
    { eapply (Ty _ (inside_self _)); reflexivity. }
    cbn [chain_exec]. destruct (ev G (st_cur st) l =? _); [reflexivity|].
    destruct K as [[-> K]|(s' & -> & K & Hr)]; [reflexivity|].
    destruct r as [|x r]; [congruence|]. rewrite run_single.
    pose proof (has_target_if_inv _ _ _ _ K) as K2.
    destruct s'; try discriminate. destruct c; try contradiction.
    destruct op; try contradiction. destruct c2; try contradiction.
    destruct K2 as (E & _). specialize (E _ eq_refl). subst c1.
    inversion Hf as [|? ? Hs' _]; subst.
    eapply Hs'; try reflexivity; try exact K.
    intros y Hy. apply Ty. eapply in_else; [left; reflexivity|exact Hy].
  Qed.

  (* the tests of the chain are the collected constants, in order *)
  Lemma chain_tests s : forall v n ifs l c1 t0 f0,
    s = SIf (EBin Eq l c1) t0 f0 ->
    has_target_if s v n = Some ifs ->
    (forall x, inside x [s] -> eq_typed G x) ->
    Forall2 (fun e (i : Z * list stmt * list stmt) =>
               exists b, e = EBin Eq l (EConst (fst (fst i)) (ewidth G l) b)) (elif_tests s) ifs.
  Proof.
    induction s as [| c t f Ht Hf | | | | | |] using stmt_ind'; try discriminate.
    intros v n ifs l c1 t0 f0 Hs H Ty. injection Hs as -> -> ->.
    pose proof (has_target_if_inv _ _ _ _ H) as K. cbn in K.
    destruct c1 as [|k w b| | | | | |]; try contradiction.
    destruct K as (_ & r & -> & K).
    assert (w = ewidth G l) as ->.
    { eapply (Ty _ (inside_self _)); reflexivity. }
    destruct K as [[-> K]|(s' & -> & K & Hr)].
    - destruct f0 as [|s' [|? ?]]; cbn.
      + constructor; [eauto|constructor].
      + rewrite K. constructor; [eauto|constructor].
      + contradiction.
    - cbn. constructor; [eauto|].
      pose proof (has_target_if_inv _ _ _ _ K) as K2.
      destruct s'; cbn in K2; try (subst r; congruence). destruct c; try contradiction.
      destruct op; try contradiction. destruct c2; try contradiction.
      destruct K2 as (E & _). specialize (E _ eq_refl). subst c1.
      inversion Hf as [|? ? Hs' _]; subst.
      eapply Hs'; try reflexivity; try exact K.
      intros y Hy. apply Ty. eapply in_else; [left; reflexivity|exact Hy].
  Qed.

  Definition key (i : Z * list stmt * list stmt) : Z := fst (fst i).

  Lemma add_case_fresh cs k b : ~ In k (map fst cs) -> add_case cs k b = cs ++ [(k, b)].
  Proof.
    induction cs as [|[k0 b0] r IH]; intros H; [reflexivity|]. cbn in H |- *.
    destruct (Z.eqb_spec k0 k); [exfalso; auto|]. rewrite IH; auto.
  Qed.

  Lemma pick_skip v w cs cs2 d st :
    (forall k, In k (map fst cs) -> v <> enc w k) ->
    pick G v w (cs ++ cs2) d st = pick G v w cs2 d st.
  Proof.
    induction cs as [|[k b] r IH]; intros H; [reflexivity|]. cbn in H |- *.
    destruct (Z.eqb_spec v (enc w k)); [exfalso; eapply H; eauto|]. apply IH; auto.
  Qed.

  Lemma pick_take v w cs k b cs2 d st :
    (forall k0, In k0 (map fst cs) -> v <> enc w k0) -> v = enc w k ->
    pick G v w (cs ++ (k, b) :: cs2) d st = run G b st.
  Proof. intros H E. rewrite pick_skip by auto. cbn. rewrite E, Z.eqb_refl. reflexivity. Qed.

  Lemma change_prefix ifs : forall cs,
    NoDup (map fst cs ++ map key ifs) ->
    exists tl, fst (change_if_to_switch ifs cs) = cs ++ tl.
  Proof.
    induction ifs as [|[[k t] f] r IH]; intros cs N; [exists []; cbn; now rewrite app_nil_r|].
    assert (~ In k (map fst cs)) as Hk.
    { intros Hk. apply NoDup_remove_2 in N. apply N, in_or_app. now left. }
    cbn [change_if_to_switch]. destruct r as [|i r].
    - cbn. rewrite add_case_fresh by auto. eauto.
    - rewrite add_case_fresh by auto.
      destruct (IH (cs ++ [(k, t)])) as [tl Htl].
      + rewrite map_app. cbn. rewrite <- app_assoc. exact N.
      + rewrite Htl. rewrite <- app_assoc. eauto.
  Qed.

  Lemma switch_correct l st : forall ifs cs,
    let v := ev G (st_cur st) l in
    let w := ewidth G l in
    ifs <> [] ->
    NoDup (map fst cs ++ map key ifs) ->
    (forall k, In k (map fst cs) -> v <> enc w k) ->
    pick G v w (fst (change_if_to_switch ifs cs)) (snd (change_if_to_switch ifs cs)) st
    = chain_exec l ifs st.
  Proof.
    intros ifs cs v w. revert cs.
    induction ifs as [|[[k t] f] r IH]; intros cs Hne N Hmiss; [congruence|].
    assert (~ In k (map fst cs)) as Hk.
    { intros Hk. apply NoDup_remove_2 in N. apply N, in_or_app. now left. }
    cbn [chain_exec]. fold v w. destruct r as [|i r].
    - cbn [change_if_to_switch fst snd]. rewrite add_case_fresh by auto.
      destruct (Z.eqb_spec v (enc w k)) as [E|E].
      + now apply pick_take.
      + rewrite pick_skip by auto. cbn. destruct (Z.eqb_spec v (enc w k)); [contradiction|].
        destruct f; reflexivity.
    - change (change_if_to_switch ((k, t, f) :: i :: r) cs)
        with (change_if_to_switch (i :: r) (add_case cs k t)).
      rewrite add_case_fresh by auto.
      assert (NoDup (map fst (cs ++ [(k, t)]) ++ map key (i :: r))) as N'.
      { rewrite map_app. cbn. rewrite <- app_assoc. exact N. }
      destruct (Z.eqb_spec v (enc w k)) as [E|E].
      + destruct (change_prefix (i :: r) (cs ++ [(k, t)]) N') as [tl Htl].
        rewrite Htl, <- app_assoc. cbn [app]. now apply pick_take.
      + apply IH; [discriminate|exact N'|].
        intros k0 H0. rewrite map_app in H0. apply in_app_or in H0 as [H0|[<-|[]]]; auto.
  Qed.

  Lemma NoDup_of_tests l tests ifs :
    Forall2 (fun e (i : Z * list stmt * list stmt) =>
               exists b, e = EBin Eq l (EConst (key i) (ewidth G l) b)) tests ifs ->
    (forall i j e v w b v' w' b', i <> j ->
        nth_error tests i = Some (EBin Eq e (EConst v w b)) ->
        nth_error tests j = Some (EBin Eq e (EConst v' w' b')) -> enc w v <> enc w' v') ->
    NoDup (map key ifs).
  Proof.
    intros F H. apply NoDup_nth_error. intros i j Hi E.
    destruct (Nat.eq_dec i j) as [|Hij]; [assumption|exfalso].
    rewrite !nth_error_map in E. rewrite map_length in Hi.
    destruct (nth_error ifs i) as [a|] eqn:Ea.
    2:{ apply nth_error_None in Ea. lia. }
    destruct (nth_error ifs j) as [c|] eqn:Ec; [|discriminate]. injection E as E.
    assert (forall n x, nth_error ifs n = Some x ->
              exists b, nth_error tests n = Some (EBin Eq l (EConst (key x) (ewidth G l) b))) as Q.
    { clear - F. induction F as [|? ? ? ? H0 F IH]; intros [|n] z Hx; try discriminate; cbn in *.
      - injection Hx as <-. destruct H0 as [b ->]. eauto.
      - eauto. }
    destruct (Q _ _ Ea) as [b Hb]. destruct (Q _ _ Ec) as [b' Hb'].
    apply (H i j l _ _ b _ _ b' Hij Hb Hb'). now rewrite E.
  Qed.

  Definition good (l : list stmt) : Prop :=
    forall x, inside x l -> eq_typed G x /\ no_repeated_test x.

  Lemma transform_correct s s' :
    good [s] -> transform_stmt G s = Ok s' -> stmt_eq G s s'.
  Proof.
    intros Hg H st. unfold transform_stmt in H.
    destruct (has_target_if s None 0) as [ifs|] eqn:E; [|apply Ok_inj in H; now subst].
    destruct s; try (apply Ok_inj in H; now subst).
    destruct c; try (apply Ok_inj in H; now subst).
    destruct op; try (apply Ok_inj in H; now subst).
    destruct ((ewidth G c1 <? 0) || (32 <=? ewidth G c1)); [discriminate|].
    destruct ((1 <? 2 ^ ewidth G c1) && _) eqn:B; [|apply Ok_inj in H; now subst].
    rewrite (chain_correct _ _ _ _ _ c2 _ _ c2 eq_refl eq_refl E) by (intros; now apply Hg).
    assert (ifs <> []) as Hne.
    { pose proof (has_target_if_inv _ _ _ _ E) as K. cbn in K. destruct c2; try contradiction.
      destruct K as (_ & r & -> & _). discriminate. }
    assert (NoDup (map fst (@nil (Z * list stmt)) ++ map key ifs)) as N.
    { cbn. eapply NoDup_of_tests.
      - eapply (chain_tests _ _ _ _ _ _ _ _ eq_refl E). intros; now apply Hg.
      - apply (Hg _ (inside_self _)). }
    pose proof (switch_correct c1 st ifs [] Hne N (fun k (F : In k []) => match F with end)) as Q.
    destruct (change_if_to_switch ifs []) as [cs d] eqn:Ecs. cbn [fst snd] in Q.
    assert (s' = SSwitch c1 cs d) as ->.
    { destruct c1; try discriminate; apply Ok_inj in H; auto. }
    rewrite exec_switch. now rewrite <- Q.
  Qed.

  (* statements of the new switch come from the old chain *)
  Lemma add_case_in cs k b k0 b0 x :
    In (k0, b0) (add_case cs k b) -> In x b0 -> In x b \/ exists b1, In (k0, b1) cs /\ In x b1.
  Proof.
    induction cs as [|[k1 b1] r IH]; cbn; intros H Hx.
    - destruct H as [H|[]]. injection H as -> ->. auto.
    - destruct (k1 =? k).
      + destruct H as [H|H].
        * injection H as -> <-. apply in_app_or in Hx as [Hx|Hx]; [right|left]; eauto.
        * right; eauto.
      + destruct H as [H|H].
        * injection H as -> ->. right; eauto.
        * destruct (IH H Hx) as [|(b2 & ? & ?)]; [auto|right; eauto].
  Qed.
  Lemma change_in ifs : forall cs k b x,
    (In (k, b) (fst (change_if_to_switch ifs cs)) ->
     In x b -> (exists i, In i ifs /\ In x (snd (fst i))) \/ exists k1 b1, In (k1, b1) cs /\ In x b1)
    /\ (snd (change_if_to_switch ifs cs) = Some b -> exists k t, In (k, t, b) ifs).
  Proof.
    induction ifs as [|[[k0 t] f] r IH]; intros cs k b x.
    - cbn. split; [intros; right; eauto|discriminate].
    - destruct r as [|i r].
      + cbn. split.
        * intros H Hx. destruct (add_case_in _ _ _ _ _ _ H Hx) as [Hb|(b1 & Hb & Hx1)].
          -- left. eexists; split; [left; reflexivity|exact Hb].
          -- right; eauto.
        * destruct f; [discriminate|]. intros E; injection E as <-. eauto.
      + change (change_if_to_switch ((k0, t, f) :: i :: r) cs)
          with (change_if_to_switch (i :: r) (add_case cs k0 t)).
        destruct (IH (add_case cs k0 t) k b x) as [IH1 IH2]. split.
        * intros H Hx. destruct (IH1 H Hx) as [(j & Hj & Hx1)|(k1 & b1 & Hb1 & Hx1)].
          -- left. exists j. split; [now right|exact Hx1].
          -- destruct (add_case_in _ _ _ _ _ _ Hb1 Hx1) as [Hb|(b2 & Hb & Hx2)].
             ++ left. eexists; split; [left; reflexivity|exact Hb].
             ++ right; eauto.
        * intros H. destruct (IH2 H) as (k1 & t1 & Hin). exists k1, t1. now right.
  Qed.
  Lemma chain_in s : forall v n ifs i,
    has_target_if s v n = Some ifs -> In i ifs ->
    forall y, inside y (snd (fst i)) \/ inside y (snd i) -> inside y [s].
  Proof.
    induction s as [| c t f Ht Hf | | | | | |] using stmt_ind'; intros v n ifs i0 Hh Hi y Hy;
      pose proof (has_target_if_inv _ _ _ _ Hh) as K; cbn in K;
      try (subst ifs; contradiction).
    destruct c; try contradiction. destruct op; try contradiction. destruct c2; try contradiction.
    destruct K as (_ & r & -> & K). destruct Hi as [<-|Hi].
    - destruct Hy; cbn in *; [eapply in_then|eapply in_else]; eauto; now left.
    - destruct K as [[-> _]|(s' & -> & K & Hr)]; [contradiction|].
      inversion Hf as [|? ? Hs' _]; subst.
      eapply in_else; [now left|]. eapply Hs'; eauto.
  Qed.

  (* the pieces the visitor descends into *)
  Inductive child : stmt -> stmt -> Prop :=
  | ch_then c t f x : In x t -> child x (SIf c t f)
  | ch_else c t f x : In x f -> child x (SIf c t f)
  | ch_case e cs d k b x : In (k, b) cs -> In x b -> child x (SSwitch e cs d)
  | ch_default e cs b x : In x b -> child x (SSwitch e cs (Some b))
  | ch_for i a b st body x : In x body -> child x (SFor i a b st body)
  | ch_block body x : In x body -> child x (SBlock body).

  Lemma inside_mono y : forall l l', inside y l -> incl l l' -> inside y l'.
  Proof.
    intros l l' H. revert l'. induction H; intros l' I.
    - apply in_here; auto.
    - eapply in_then; [apply I; eassumption|assumption].
    - eapply in_else; [apply I; eassumption|assumption].
    - eapply in_case; [apply I; eassumption|eassumption|assumption].
    - eapply in_default; [apply I; eassumption|assumption].
    - eapply in_for; [apply I; eassumption|assumption].
    - eapply in_block; [apply I; eassumption|assumption].
  Qed.
  Lemma inside_elem y x l : In x l -> inside y [x] -> inside y l.
  Proof. intros H K. eapply inside_mono; eauto. intros z [<-|[]]; auto. Qed.
  Lemma child_inside x s : child x s -> forall y, inside y [x] -> inside y [s].
  Proof.
    intros H y Hy. destruct H;
      [eapply in_then|eapply in_else|eapply in_case|eapply in_default|eapply in_for|eapply in_block];
      try (left; reflexivity); try eassumption; eapply inside_elem; eauto.
  Qed.

  Lemma transform_inside s s' x y :
    transform_stmt G s = Ok s' -> child x s' -> inside y [x] -> inside y [s].
  Proof.
    intros H Hc Hy. unfold transform_stmt in H.
    assert (s' = s -> inside y [s]) as Same.
    { intros ->. eapply child_inside; eauto. }
    destruct (has_target_if s None 0) as [ifs|] eqn:E;
      [|apply Ok_inj in H; symmetry in H; auto].
    destruct s; try (apply Ok_inj in H; symmetry in H; now auto).
    destruct c; try (apply Ok_inj in H; symmetry in H; now auto).
    destruct op; try (apply Ok_inj in H; symmetry in H; now auto).
    destruct ((ewidth G c1 <? 0) || (32 <=? ewidth G c1)); [discriminate|].
    destruct ((1 <? 2 ^ ewidth G c1) && _) eqn:B; [|apply Ok_inj in H; symmetry in H; now auto].
    pose proof (change_in ifs []) as Q.
    destruct (change_if_to_switch ifs []) as [cs d] eqn:Ecs. cbn [fst snd] in Q.
    assert (s' = SSwitch c1 cs d) as ->.
    { destruct c1; try discriminate; apply Ok_inj in H; auto. }
    inversion Hc; subst.
    - destruct (Q k b x) as [Q1 _]. destruct Q1 as [(i & Hi & Hx)|(? & ? & [] & _)]; auto.
      eapply chain_in; eauto. left. eapply inside_elem; eauto.
    - destruct (Q 0 b x) as [_ Q2]. destruct Q2 as (k & t' & Hi); auto.
      eapply chain_in; eauto. right. cbn. eapply inside_elem; eauto.
  Qed.

  Lemma good_child s s' x :
    good [s] -> transform_stmt G s = Ok s' -> child x s' -> good [x].
  Proof. intros Hg H Hc y Hy. apply Hg. eapply transform_inside; eauto. Qed.

  Lemma omapM_body_eq m l l' :
    (forall x, In x l -> forall x', visit_s G m x = Ok x' -> stmt_eq G x x') ->
    omapM (visit_s G m) l = Ok l' -> body_eq G l l'.
  Proof.
    intros H K. apply omapM_Forall2 in K. apply body_eq_Forall2.
    induction K; constructor; [apply H; auto; now left|].
    apply IHK. intros; apply H; auto; now right.
  Qed.

  Lemma visit_correct n : forall s s',
    good [s] -> visit_s G n s = Ok s' -> stmt_eq G s s'.
  Proof.
    induction n as [|m IH]; intros s s' Hg H; [discriminate|].
    cbn [visit_s] in H. apply obind_Ok in H as (s1 & H1 & H).
    assert (forall x, child x s1 -> forall x', visit_s G m x = Ok x' -> stmt_eq G x x') as IHc.
    { intros x Hx x' Hx'. apply IH; [eapply good_child; eauto|exact Hx']. }
    intros st. rewrite (transform_correct _ _ Hg H1 st). revert st.
    change (stmt_eq G s1 s').
    destruct s1; try (apply Ok_inj in H; subst; intros st; reflexivity).
    - apply obind_Ok in H as (t' & Ht & H). apply obind_Ok in H as (f' & Hf & H).
      apply Ok_inj in H; subst. apply stmt_eq_if; eapply omapM_body_eq; try eassumption;
        intros x Hx; apply IHc; solve [now apply ch_then|now apply ch_else].
    - apply obind_Ok in H as (cs' & Hcs & H). apply obind_Ok in H as (d' & Hd & H).
      apply Ok_inj in H; subst. apply stmt_eq_switch.
      + apply omapM_Forall2 in Hcs.
        assert (forall k b x, In (k, b) cs -> In x b ->
                  forall x', visit_s G m x = Ok x' -> stmt_eq G x x') as Q.
        { intros k b x Hk Hx. apply IHc. eapply ch_case; eauto. }
        clear - Hcs Q. induction Hcs as [|[k b] y ? ? H0 F IHF]; constructor.
        * cbn in H0. apply obind_Ok in H0 as (b' & Hb & H0). apply Ok_inj in H0; subst. cbn.
          split; [reflexivity|]. eapply omapM_body_eq; eauto.
          intros x1 Hx1. apply (Q k b x1); [now left|exact Hx1].
        * apply IHF. intros k1 b1 x1 Hk1 Hx1. apply (Q k1 b1 x1); [now right|exact Hx1].
      + destruct d; cbn in Hd.
        * apply obind_Ok in Hd as (b' & Hb & Hd). apply Ok_inj in Hd; subst.
          eapply omapM_body_eq; eauto. intros. eapply IHc; eauto. now apply ch_default.
        * apply Ok_inj in Hd; subst. exact I.
    - apply obind_Ok in H as (b' & Hb & H). apply Ok_inj in H; subst.
      apply stmt_eq_for. eapply omapM_body_eq; eauto. intros; eapply IHc; eauto. now apply ch_for.
    - apply obind_Ok in H as (b' & Hb & H). apply Ok_inj in H; subst.
      apply stmt_eq_block. eapply omapM_body_eq; eauto. intros; eapply IHc; eauto. now apply ch_block.
  Qed.

  Lemma if_to_case_correct body body' :
    good body -> if_to_case G body = Ok body' -> forall st, run G body st = run G body' st.
  Proof.
    intros Hg H. unfold if_to_case in H. apply omapM_Forall2 in H.
    apply body_eq_Forall2. induction H; constructor.
    - eapply visit_correct; eauto. intros z Hz. apply Hg. apply (inside_elem _ x); auto. now left.
    - apply IHForall2. intros z Hz. apply Hg. eapply inside_mono; eauto. intros z0; now right.
  Qed.

  (* the pass finishes when no tested expression is a constant or 32 bits or wider *)
  Definition convertible (s : stmt) : Prop :=
    forall e v w b t f, s = SIf (EBin Eq e (EConst v w b)) t f ->
      0 <= ewidth G e < 32 /\ forall v' w' b', e <> EConst v' w' b'.
  Lemma transform_ok s : convertible s -> exists s', transform_stmt G s = Ok s'.
  Proof.
    intros H. unfold transform_stmt.
    destruct (has_target_if s None 0) as [ifs|] eqn:E; [|eauto].
    destruct s; eauto. destruct c; eauto. destruct op; eauto.
    pose proof (has_target_if_inv _ _ _ _ E) as K. cbn in K. destruct c2; try contradiction.
    destruct (H _ _ _ _ _ _ eq_refl) as [W N].
    replace ((ewidth G c1 <? 0) || (32 <=? ewidth G c1)) with false by lia.
    destruct (_ && _); [|eauto]. destruct (change_if_to_switch ifs []).
    destruct c1; eauto. exfalso. eapply N; reflexivity.
  Qed.

  Lemma ssize_if c t f : ssize (SIf c t f) = S (bsize t + bsize f).
  Proof. cbn. now rewrite !bsize_eq. Qed.
  Definition csize (cs : list (Z * list stmt)) : nat := fold_right (fun cb n => bsize (snd cb) + n)%nat O cs.
  Lemma ssize_switch e cs d :
    ssize (SSwitch e cs d) = S (csize cs + match d with None => O | Some b => bsize b end).
  Proof.
    reflexivity.
  Qed.
  Lemma ssize_for i a b st body : ssize (SFor i a b st body) = S (bsize body).
  Proof. cbn. now rewrite bsize_eq. Qed.
  Lemma ssize_block body : ssize (SBlock body) = S (bsize body).
  Proof. cbn. now rewrite bsize_eq. Qed.
  Lemma bsize_app a b : bsize (a ++ b) = (bsize a + bsize b)%nat.
  Proof. induction a; cbn; lia. Qed.
  Lemma bsize_in x l : In x l -> (ssize x <= bsize l)%nat.
  Proof. induction l as [|y r IH]; [intros []|]. intros [<-|H]; cbn; [lia|]. specialize (IH H); lia. Qed.
  Lemma csize_in k b cs : In (k, b) cs -> (bsize b <= csize cs)%nat.
  Proof. induction cs as [|y r IH]; [intros []|]. intros [->|H]; cbn; [lia|]. specialize (IH H). unfold csize in IH. lia. Qed.
  Lemma csize_add cs k b : csize (add_case cs k b) = (csize cs + bsize b)%nat.
  Proof.
    unfold csize. induction cs as [|[k0 b0] r IH]; cbn; [lia|].
    destruct (k0 =? k); cbn; [rewrite bsize_app; lia|lia].
  Qed.
  Definition dsize (d : option (list stmt)) : nat := match d with None => O | Some b => bsize b end.
  Lemma chain_size s : forall v n ifs cs,
    has_target_if s v n = Some ifs -> ifs <> [] ->
    (csize (fst (change_if_to_switch ifs cs)) + dsize (snd (change_if_to_switch ifs cs))
     < csize cs + ssize s)%nat.
  Proof.
    induction s as [| c t f Ht Hf | | | | | |] using stmt_ind'; intros v n ifs cs' Hh Hne;
      pose proof (has_target_if_inv _ _ _ _ Hh) as K; cbn in K; try congruence.
    destruct c; try contradiction. destruct op; try contradiction. destruct c2; try contradiction.
    destruct K as (_ & r & -> & K). rewrite ssize_if.
    destruct K as [[-> K]|(s' & -> & K & Hr)].
    - cbn [change_if_to_switch fst snd]. rewrite csize_add.
      destruct f; unfold dsize; cbn; lia.
    - destruct r as [|i r]; [congruence|].
      change (change_if_to_switch ((v0, t, [s']) :: i :: r) cs')
        with (change_if_to_switch (i :: r) (add_case cs' v0 t)).
      inversion Hf as [|? ? Hs' _]; subst.
      pose proof (Hs' _ _ _ (add_case cs' v0 t) K Hr) as Q. rewrite csize_add in Q. cbn [bsize]. lia.
  Qed.

  Lemma transform_size s s' : transform_stmt G s = Ok s' -> (ssize s' <= ssize s)%nat.
  Proof.
    unfold transform_stmt. intros H.
    destruct (has_target_if s None 0) as [ifs|] eqn:E; [|apply Ok_inj in H; subst; lia].
    destruct s; try (apply Ok_inj in H; subst; lia).
    destruct c; try (apply Ok_inj in H; subst; lia).
    destruct op; try (apply Ok_inj in H; subst; lia).
    destruct ((ewidth G c1 <? 0) || (32 <=? ewidth G c1)); [discriminate|].
    destruct (_ && _); [|apply Ok_inj in H; subst; lia].
    assert (ifs <> []) as Hne.
    { pose proof (has_target_if_inv _ _ _ _ E) as K. cbn in K. destruct c2; try contradiction.
      destruct K as (_ & r & -> & _). discriminate. }
    pose proof (chain_size _ _ _ _ [] E Hne) as Q.
    destruct (change_if_to_switch ifs []) as [cs d]. cbn [fst snd] in Q.
    assert (s' = SSwitch c1 cs d) as ->.
    { destruct c1; try discriminate; apply Ok_inj in H; auto. }
    rewrite ssize_switch. change (csize []) with O in Q. unfold dsize in Q. lia.
  Qed.
  Lemma child_size x s : child x s -> (ssize x < ssize s)%nat.
  Proof.
    intros H; destruct H; rewrite ?ssize_if, ?ssize_switch, ?ssize_for, ?ssize_block;
      try (apply bsize_in in H; lia).
    apply bsize_in in H0. apply csize_in in H. lia.
  Qed.
  Lemma ssize_pos s : (0 < ssize s)%nat.
  Proof. destruct s; cbn; lia. Qed.

  Lemma visit_ok n : forall s, (ssize s <= n)%nat ->
    (forall x, inside x [s] -> convertible x) -> exists s', visit_s G n s = Ok s'.
  Proof.
    induction n as [|m IH]; intros s Hn Hg; [pose proof (ssize_pos s); lia|].
    cbn [visit_s]. destruct (transform_ok s) as [s1 H1].
    { apply Hg, in_here. now left. }
    rewrite H1. cbn [obind]. pose proof (transform_size _ _ H1) as Hs.
    assert (forall x, child x s1 -> exists x', visit_s G m x = Ok x') as Q.
    { intros x Hx. apply IH; [apply child_size in Hx; lia|].
      intros y Hy. apply Hg. eapply transform_inside; eauto. }
    destruct s1; eauto.
    - destruct (omapM_Ok (visit_s G m) t) as [t' ->]; [intros; apply Q; now apply ch_then|].
      destruct (omapM_Ok (visit_s G m) f) as [f' ->]; [intros; apply Q; now apply ch_else|].
      cbn; eauto.
    - destruct (omapM_Ok (fun cb : Z * list stmt =>
                  olet b := omapM (visit_s G m) (snd cb) in Ok (fst cb, b)) cs) as [cs' ->].
      { intros [k b] Hk. cbn. destruct (omapM_Ok (visit_s G m) b) as [b' ->];
          [intros; apply Q; eapply ch_case; eauto|cbn; eauto]. }
      cbn. destruct d as [b|]; cbn; [|eauto].
      destruct (omapM_Ok (visit_s G m) b) as [b' ->]; [intros; apply Q; now apply ch_default|].
      cbn; eauto.
    - destruct (omapM_Ok (visit_s G m) body) as [t' ->]; [intros; apply Q; now apply ch_for|].
      cbn; eauto.
    - destruct (omapM_Ok (visit_s G m) body) as [t' ->]; [intros; apply Q; now apply ch_block|].
      cbn; eauto.
  Qed.
  Lemma if_to_case_total body :
    (forall x, inside x body -> convertible x) -> exists body', if_to_case G body = Ok body'.
  Proof.
    intros H. apply omapM_Ok. intros s Hs. apply visit_ok; [lia|].
    intros x Hx. apply H. eapply inside_elem; eauto.
  Qed.
End P.
