From Verif Require Import Base SV_spec IR IRSem_spec IR_lemmas IfCase_proofs IR_frame.
From Coq Require Import Permutation.
From Verif Require Import MergeIf_spec MergeIf_model.
Local Open Scope Z_scope.

Lemma in_group_tests g s : in_group g s = true <-> tests g s.
Proof.
  unfold in_group, tests. split.
  - destruct s; cbn; try discriminate. destruct c; try discriminate. destruct op; try discriminate.
    destruct c2; try discriminate. intros H. apply expr_eqb_eq in H. subst. eauto 10.
  - intros (k & w & b & t & f & ->). cbn. apply expr_eqb_refl.
Qed.
Lemma in_group_false g s : in_group g s = false <-> ~ tests g s.
Proof. rewrite <- in_group_tests. destruct (in_group g s); split; congruence. Qed.

Lemma filter_all {A} (p : A -> bool) l : (forall x, In x l -> p x = true) -> filter p l = l.
Proof. induction l; cbn; intros H; auto. rewrite H by auto. f_equal; auto. Qed.
Lemma filter_none {A} (p : A -> bool) l : (forall x, In x l -> p x = false) -> filter p l = [].
Proof. induction l; cbn; intros H; auto. rewrite H by auto. auto. Qed.

Lemma filter_ready g pre grp post :
  (forall s, In s grp -> tests g s) -> (forall s, In s pre \/ In s post -> ~ tests g s) ->
  filter (in_group g) (pre ++ grp ++ post) = grp.
Proof.
  intros H K. rewrite !filter_app, (filter_none _ pre), (filter_none _ post), (filter_all _ grp).
  - now rewrite app_nil_r.
  - intros; now apply in_group_tests, H.
  - intros; apply in_group_false, K; auto.
  - intros; apply in_group_false, K; auto.
Qed.

Lemma place_app_none g top d a b :
  (forall s, In s a -> ~ tests g s) -> place g top d (a ++ b) = a ++ place g top d b.
Proof.
  induction a as [|s r IH]; intros H; cbn; auto.
  assert (in_group g s = false) as -> by (apply in_group_false, H; now left).
  rewrite IH; auto. intros; apply H; now right.
Qed.
Lemma place_done g top grp post :
  (forall s, In s grp -> tests g s) -> place g top true (grp ++ post) = place g top true post.
Proof.
  induction grp as [|s r IH]; intros H; cbn; auto.
  assert (in_group g s = true) as -> by (apply in_group_tests, H; now left).
  apply IH. intros; apply H; now right.
Qed.
Lemma place_none g top d a : (forall s, In s a -> ~ tests g s) -> place g top d a = a.
Proof. intros H. rewrite <- (app_nil_r a) at 1. rewrite place_app_none by auto. cbn. apply app_nil_r. Qed.
Lemma place_ready g top pre grp post :
  (forall s, In s grp -> tests g s) -> (forall s, In s pre \/ In s post -> ~ tests g s) ->
  grp <> [] ->
  place g top false (pre ++ grp ++ post) = pre ++ [top] ++ post.
Proof.
  intros H K Hne. rewrite place_app_none by auto. f_equal.
  destruct grp as [|s r]; [congruence|]. cbn.
  assert (in_group g s = true) as -> by (apply in_group_tests, H; now left).
  f_equal. rewrite place_done by (intros; apply H; now right). apply place_none. auto.
Qed.

Section Seg.
  Variables (G : tenv) (g : expr).
  Let w := ewidth G g.

  (* statements selected by value v *)
  Definition sel1 (v : Z) (s : stmt) : list stmt :=
    match s with
    | SIf (EBin Eq _ (EConst k _ _)) t f => if v =? enc w k then t else f
    | _ => []
    end.
  Definition sel (v : Z) (l : list stmt) : list stmt := flat_map (sel1 v) l.

  Definition quiet (l : list stmt) : Prop := forall s x, In s l -> In x (evars g) -> ~ changes_now x [s].
  Definition sized (l : list stmt) : Prop :=
    forall s, In s l -> exists k b t f, s = SIf (EBin Eq g (EConst k w b)) t f.

  Lemma exec_sel1 s st : sized [s] -> exec G s st = run G (sel1 (ev G (st_cur st) g) s) st.
  Proof.
    intros H. destruct (H s (or_introl eq_refl)) as (k & b & t & f & ->).
    rewrite exec_if, truth_eq_const. cbn. fold w. now destruct (_ =? _).
  Qed.
  Lemma run_sel l : sized l -> quiet l -> forall st, st_status st = Running ->
    run G l st = run G (sel (ev G (st_cur st) g) l) st.
  Proof.
    induction l as [|s r IH]; intros S Q st Hst; [reflexivity|].
    assert (sized [s]) as S1 by (intros y [<-|[]]; apply S; now left).
    rewrite run_cons. cbn [sel flat_map]. rewrite run_app_running by auto.
    rewrite <- exec_sel1 by auto.
    destruct (st_status (exec G s st)) eqn:E; auto.
    rewrite IH; auto.
    - f_equal. unfold sel. f_equal. f_equal. rewrite <- run_single.
      apply run_ev_frame. intros x Hx. apply Q; auto. now left.
    - intros y Hy. apply S. now right.
    - intros y x Hy. apply Q. now right.
  Qed.

  Lemma quiet_cons s r : quiet (s :: r) <-> quiet [s] /\ quiet r.
  Proof.
    split.
    - intros H. split; intros y x Hy Hx; apply H; auto; [destruct Hy as [<-|[]]; now left|now right].
    - intros [H K] y x [<-|Hy] Hx; [apply H; auto; now left|now apply K].
  Qed.
  Lemma changes_app x a b : changes_now x (a ++ b) -> changes_now x a \/ changes_now x b.
  Proof.
    assert (forall s, inside s (a ++ b) -> inside s a \/ inside s b) as H.
    { intros s H. inversion H; subst; match goal with K : In _ (_ ++ _) |- _ => apply in_app_or in K as [K|K] end;
      [left|right|left|right|left|right|left|right|left|right|left|right|left|right];
      first [eapply in_here; eassumption|eapply in_then; eassumption|eapply in_else; eassumption
            |eapply in_case; eassumption|eapply in_default; eassumption|eapply in_for; eassumption
            |eapply in_block; eassumption]. }
    intros [(k & l & e & Hi & K)|(s & t & u & bd & Hi)]; apply H in Hi as [Hi|Hi];
      [left; left|right; left|left; right|right; right]; eauto 8.
  Qed.
  Lemma changes_if x c t f : changes_now x [SIf c t f] <-> changes_now x t \/ changes_now x f.
  Proof.
    split.
    - intros [(k & l & e & Hi & K)|(s & u & v & bd & Hi)]; inversion Hi; subst;
        match goal with K : In _ [_] |- _ => destruct K as [K|[]]; try discriminate K; injection K; intros; subst end.
      + left; left; eauto 8.
      + right; left; eauto 8.
      + left; right; eauto 8.
      + right; right; eauto 8.
    - intros [C|C]; eapply changes_mono; eauto; intros s Hs;
        [eapply in_then|eapply in_else]; eauto; now left.
  Qed.

  (* first pass *)
  Lemma same_const_if k b t f k' b' t' f' w1 w2 :
    same_const (SIf (EBin Eq g (EConst k w1 b)) t f) (SIf (EBin Eq g (EConst k' w2 b')) t' f')
    = (k =? k').
  Proof. reflexivity. Qed.

  (* keys of a group *)
  Definition keyof (s : stmt) : Z := match if_target s with Some (_, k) => k | None => 0 end.
  Definition noelse (l : list stmt) : Prop := forall c t f, In (SIf c t f) l -> f = [].

  Lemma merge1_sized acc s : sized acc -> sized [s] -> sized (merge1 acc s).
  Proof.
    induction acc as [|a r IH]; intros S S1; [exact S1|]. cbn.
    assert (sized r) as Sr by (intros y Hy; apply S; now right).
    destruct (S a (or_introl eq_refl)) as (k & b & t & f & Ea).
    destruct (S1 s (or_introl eq_refl)) as (k' & b' & t' & f' & Es).
    destruct (same_const a s).
    - intros y [<-|Hy]; [|apply S; now right]. subst. cbn. eauto 8.
    - intros y [<-|Hy]; [subst; eauto 8|]. apply IH; auto.
  Qed.
  Lemma merge1_keys acc s : sized acc -> sized [s] ->
    map keyof (merge1 acc s) = if existsb (Z.eqb (keyof s)) (map keyof acc) then map keyof acc
                               else map keyof acc ++ [keyof s].
  Proof.
    induction acc as [|a r IH]; intros S S1; [reflexivity|]. cbn [merge1].
    assert (sized r) as Sr by (intros y Hy; apply S; now right).
    specialize (IH Sr S1).
    destruct (S a (or_introl eq_refl)) as (k & b & t & f & Ea).
    destruct (S1 s (or_introl eq_refl)) as (k' & b' & t' & f' & Es).
    assert (keyof a = k) as Ka by (subst; reflexivity).
    assert (keyof s = k') as Ks by (subst; reflexivity).
    assert (same_const a s = (k =? k')) as -> by (subst; reflexivity).
    cbn [map existsb]. rewrite Ka, Ks in *. rewrite (Z.eqb_sym k' k).
    destruct (Z.eqb_spec k k') as [E|E]; cbn [map orb].
    - subst. reflexivity.
    - rewrite IH, Ka. destruct (existsb _ _); reflexivity.
  Qed.
  Lemma merge1_noelse acc s : sized acc -> sized [s] -> noelse acc -> noelse [s] -> noelse (merge1 acc s).
  Proof.
    induction acc as [|a r IH]; intros S S1 N N1; [exact N1|]. cbn.
    assert (sized r) as Sr by (intros y Hy; apply S; now right).
    destruct (S a (or_introl eq_refl)) as (k & b & t & f & Ea).
    destruct (S1 s (or_introl eq_refl)) as (k' & b' & t' & f' & Es).
    assert (noelse r) as Nr by (intros c0 t0 f0 H; eapply N; right; eauto).
    destruct (same_const a s).
    - intros c0 t0 f0 [E|H]; [|eapply Nr; eauto]. subst. cbn in E. injection E as <- <- <-.
      rewrite (N _ _ _ (or_introl eq_refl)), (N1 _ _ _ (or_introl eq_refl)). reflexivity.
    - intros c0 t0 f0 [E|H]; [eapply N; left; eauto|]. eapply IH; eauto.
  Qed.
  Lemma merge1_quiet acc s : sized acc -> sized [s] -> quiet acc -> quiet [s] -> quiet (merge1 acc s).
  Proof.
    induction acc as [|a r IH]; intros S S1 Q Q1; [exact Q1|]. cbn.
    assert (sized r) as Sr by (intros y Hy; apply S; now right).
    apply quiet_cons in Q as [Qa Qr].
    destruct (S a (or_introl eq_refl)) as (k & b & t & f & Ea).
    destruct (S1 s (or_introl eq_refl)) as (k' & b' & t' & f' & Es).
    destruct (same_const a s); apply quiet_cons; split; auto.
    intros y x [<-|[]] Hx C. subst. cbn in C. apply changes_if in C.
    specialize (Qa _ x (or_introl eq_refl) Hx). specialize (Q1 _ x (or_introl eq_refl) Hx).
    rewrite changes_if in Qa, Q1.
    destruct C as [C|C]; apply changes_app in C; tauto.
  Qed.

  (* keys pairwise different as patterns *)
  Definition apart (ks : list Z) : Prop := NoDup (map (enc w) ks).

  Lemma sel_miss v l : sized l -> noelse l -> (forall s, In s l -> v <> enc w (keyof s)) -> sel v l = [].
  Proof.
    induction l as [|s r IH]; intros S N H; [reflexivity|]. cbn.
    destruct (S s (or_introl eq_refl)) as (k & b & t & f & ->). cbn.
    destruct (Z.eqb_spec v (enc w k)) as [E|E].
    - exfalso. apply (H _ (or_introl eq_refl)). exact E.
    - rewrite (N _ _ _ (or_introl eq_refl)). cbn. apply IH.
      + intros y Hy; apply S; now right.
      + intros c0 t0 f0 K; eapply N; right; eauto.
      + intros; apply H; now right.
  Qed.

  (* appending one if to a merged list *)
  Lemma merge1_sel v acc s :
    sized acc -> sized [s] -> noelse acc -> noelse [s] ->
    apart (map keyof acc) ->
    (forall a, In a acc -> enc w (keyof a) = enc w (keyof s) -> keyof a = keyof s) ->
    sel v (merge1 acc s) = sel v acc ++ sel1 v s.
  Proof.
    induction acc as [|a r IH]; intros S S1 N N1 AP K; [cbn; now rewrite app_nil_r|]. cbn [merge1].
    assert (sized r) as Sr by (intros y Hy; apply S; now right).
    assert (noelse r) as Nr by (intros c0 t0 f0 H; eapply N; right; eauto).
    unfold apart in AP. cbn in AP. inversion AP as [|? ? AP1 AP2]; subst.
    destruct (S a (or_introl eq_refl)) as (k & b & t & f & Ea).
    destruct (S1 s (or_introl eq_refl)) as (k' & b' & t' & f' & Es).
    assert (f = []) as -> by (subst; eapply N; now left).
    assert (f' = []) as -> by (subst; eapply N1; now left).
    assert (same_const a s = (k =? k')) as -> by (subst; reflexivity).
    assert (keyof a = k) as Ka by (subst; reflexivity).
    assert (keyof s = k') as Ks by (subst; reflexivity).
    destruct (Z.eqb_spec k k') as [E|E].
    - cbn [sel flat_map]. rewrite Ea, Es. cbn [fuse sel1]. rewrite E.
      destruct (Z.eqb_spec v (enc w k')) as [Ev|Ev].
      + fold (sel v r). rewrite (sel_miss v r); auto.
        * now rewrite !app_nil_r.
        * intros y Hy C. apply AP1. rewrite Ka, E, <- Ev, C. apply in_map, in_map, Hy.
      + cbn. now rewrite app_nil_r.
    - cbn [sel flat_map]. fold (sel v (merge1 r s)). fold (sel v r). rewrite IH; auto.
      + now rewrite app_assoc.
      + intros y Hy. apply K. now right.
  Qed.

  Lemma apart_merge acc s :
    sized acc -> sized [s] -> apart (map keyof acc) ->
    (forall a, In a acc -> enc w (keyof a) = enc w (keyof s) -> keyof a = keyof s) ->
    apart (map keyof (merge1 acc s)).
  Proof.
    intros S S1 AP K. rewrite merge1_keys by auto. destruct (existsb _ _) eqn:E; auto.
    unfold apart in *. rewrite map_app. cbn.
    apply NoDup_rev in AP. rewrite <- (rev_involutive (map (enc w) (map keyof acc) ++ _)).
    apply NoDup_rev. rewrite rev_app_distr. cbn. constructor; auto.
    rewrite <- in_rev. intros H. apply in_map_iff in H as (k & Hk & H).
    apply in_map_iff in H as (a & Ha & H). subst k. apply K in Hk; auto.
    enough (existsb (Z.eqb (keyof s)) (map keyof acc) = true) by congruence.
    apply existsb_exists. exists (keyof a). split; [now apply in_map|]. lia.
  Qed.

  (* keys of merge1 are among the keys of its inputs *)
  Lemma merge1_key_in acc s y : sized acc -> sized [s] ->
    In y (merge1 acc s) -> keyof y = keyof s \/ exists a, In a acc /\ keyof a = keyof y.
  Proof.
    intros S S1 H. apply (in_map keyof) in H. rewrite merge1_keys in H by auto.
    destruct (existsb _ _).
    - apply in_map_iff in H as (a & E & Ha). right; eauto.
    - apply in_app_or in H as [H|[H|[]]]; [|auto]. apply in_map_iff in H as (a & E & Ha). right; eauto.
  Qed.

  (* whole first pass on the later ifs, starting from the merged later ifs *)
  Lemma fold_top v rest : forall top mid,
    sized [top] -> sized mid -> sized rest -> noelse mid -> noelse rest ->
    quiet [top] -> quiet mid -> quiet rest ->
    apart (keyof top :: map keyof mid) ->
    (forall a b, In a (top :: mid ++ rest) -> In b (top :: mid ++ rest) ->
        enc w (keyof a) = enc w (keyof b) -> keyof a = keyof b) ->
    exists top' mid', fold_left merge1 rest (top :: mid) = top' :: mid'
      /\ (exists c t f xs, top = SIf c t f /\ top' = SIf c (t ++ xs) f
          /\ (v = enc w (keyof top) -> xs = sel v rest))
      /\ sized mid' /\ quiet mid' /\ noelse mid'
      /\ (v <> enc w (keyof top) -> sel v mid' = sel v mid ++ sel v rest).
  Proof.
    induction rest as [|s r IH]; intros top mid S1 S2 S3 N2 N3 Q1 Q2 Q3 AP K.
    - exists top, mid. cbn. destruct (S1 top (or_introl eq_refl)) as (k & b & t & f & E).
      repeat split; auto.
      + exists (EBin Eq g (EConst k w b)), t, f, []. rewrite app_nil_r. auto.
      + intros _. now rewrite app_nil_r.
    - assert (sized [s]) as Ss by (intros y [<-|[]]; apply S3; now left).
      assert (sized r) as Sr by (intros y Hy; apply S3; now right).
      assert (noelse [s]) as Ns by (intros c t f [E|[]]; eapply N3; left; eauto).
      assert (noelse r) as Nr by (intros c t f H; eapply N3; right; eauto).
      apply quiet_cons in Q3 as [Qs Qr].
      destruct (S1 top (or_introl eq_refl)) as (k & b & t & f & Et).
      destruct (Ss s (or_introl eq_refl)) as (k' & b' & t' & f' & Es).
      assert (f' = []) as -> by (subst; eapply Ns; now left).
      assert (keyof top = k) as Kt by (subst; reflexivity).
      assert (keyof s = k') as Ks by (subst; reflexivity).
      cbn [fold_left merge1].
      assert (same_const top s = (k =? k')) as -> by (subst; reflexivity).
      destruct (Z.eqb_spec k k') as [E|E].
      + (* same constant as the first: fused into it *)
        destruct (IH (fuse top s) mid) as (top' & mid' & HF & (c1 & t1 & f1 & xs & T1 & T2 & T3) & R1 & R2 & R3 & R4); auto.
        * intros y [<-|[]]. subst. cbn. eauto 8.
        * intros y x [<-|[]] Hx C. rewrite Et, Es in C. cbn in C. apply changes_if in C.
          specialize (Q1 _ x (or_introl eq_refl) Hx). specialize (Qs _ x (or_introl eq_refl) Hx).
          rewrite Et in Q1. rewrite Es in Qs. rewrite changes_if in Q1, Qs.
          destruct C as [C|C]; apply changes_app in C; tauto.
        * replace (keyof (fuse top s)) with (keyof top); [exact AP|]. subst; reflexivity.
        * assert (keyof (fuse top s) = keyof top) as KK by (subst; reflexivity).
          intros a c [<-|Ha] [<-|Hc]; rewrite ?KK; auto; intros Henc.
          -- symmetry. apply (K c top); auto; [|now left].
             right. apply in_app_or in Hc as [|]; apply in_or_app; [left|right; right]; auto.
          -- apply (K a top); auto; [|now left].
             right. apply in_app_or in Ha as [|]; apply in_or_app; [left|right; right]; auto.
          -- apply (K a c); auto; right.
             ++ apply in_app_or in Ha as [|]; apply in_or_app; [left|right; right]; auto.
             ++ apply in_app_or in Hc as [|]; apply in_or_app; [left|right; right]; auto.
        * exists top', mid'. split; [exact HF|].
          assert (keyof (fuse top s) = k) as KK by (subst; reflexivity).
          rewrite KK in T3, R4.
          split; [|repeat split; auto].
          -- rewrite Et, Es in T1. cbn in T1. injection T1 as <- <- <-.
             exists (EBin Eq g (EConst k w b)), t, f, (t' ++ xs). split; [auto|].
             rewrite app_nil_r in T2. rewrite app_assoc. split; [exact T2|].
             rewrite Kt. intros Hv. rewrite (T3 Hv). cbn [sel flat_map]. rewrite Es. cbn.
             rewrite <- E, Hv, Z.eqb_refl. reflexivity.
          -- rewrite Kt. intros Hv. rewrite (R4 Hv). f_equal. cbn [sel flat_map]. rewrite Es. cbn.
             rewrite <- E. destruct (Z.eqb_spec v (enc w k)); [contradiction|reflexivity].
      + (* goes to the others *)
        assert (forall a, In a mid -> enc w (keyof a) = enc w (keyof s) -> keyof a = keyof s) as K2.
        { intros a Ha. apply K; right; apply in_or_app; [now left|right; now left]. }
        unfold apart in AP. cbn in AP. inversion AP as [|? ? AP1 AP2]; subst x l.
        assert (enc w (keyof top) <> enc w (keyof s)) as D.
        { intros C. apply K in C; [congruence|now left|]. right. apply in_or_app. right. now left. }
        destruct (IH top (merge1 mid s)) as (top' & mid' & HF & (c1 & t1 & f1 & xs & T1 & T2 & T3) & R1 & R2 & R3 & R4); auto.
        * apply merge1_sized; auto.
        * apply merge1_noelse; auto.
        * apply merge1_quiet; auto.
        * unfold apart. cbn. constructor.
          -- intros H. apply in_map_iff in H as (k0 & Hk & H). apply in_map_iff in H as (y & Hy & H).
             subst k0. apply merge1_key_in in H as [H|(a & Ha & H)]; auto; [congruence|].
             apply AP1. rewrite <- Hk, <- H. apply in_map, in_map, Ha.
          -- apply apart_merge; auto.
        * assert (forall a, In a (top :: merge1 mid s ++ r) ->
                    exists a', In a' (top :: mid ++ s :: r) /\ keyof a' = keyof a) as KK.
          { intros a [<-|Ha]; [exists top; split; [now left|auto]|].
            apply in_app_or in Ha as [Ha|Ha].
            - apply merge1_key_in in Ha as [Ha|(a' & Ha & E')]; auto.
              + exists s. split; auto. right. apply in_or_app. right. now left.
              + exists a'. split; auto. right. apply in_or_app. now left.
            - exists a. split; auto. right. apply in_or_app. right. now right. }
          intros a c Ha Hc Henc. destruct (KK _ Ha) as (a' & Ha' & Ea). destruct (KK _ Hc) as (c' & Hc' & Ec).
          rewrite <- Ea, <- Ec in *. now apply K.
        * exists top', mid'. split; [exact HF|]. split; [|repeat split; auto].
          -- exists c1, t1, f1, xs. repeat split; auto. intros Hv. rewrite (T3 Hv).
             cbn [sel flat_map]. rewrite Es. cbn. rewrite Ks in D.
             destruct (Z.eqb_spec v (enc w k')); [congruence|reflexivity].
          -- intros Hv. rewrite (R4 Hv). rewrite merge1_sel; auto. rewrite <- app_assoc. reflexivity.
  Qed.

  Lemma segment_correct grp top :
    sized grp -> mergeable G g grp -> nest (fold_left merge1 grp []) = Some top ->
    forall st, st_status st = Running -> run G grp st = run G [top] st.
  Proof.
    intros S M H st Hst. destruct grp as [|s rest]; [discriminate|].
    destruct M as [M1 M2 M3 M4]. cbn in M3.
    assert (sized [s]) as Ss by (intros y [<-|[]]; apply S; now left).
    assert (sized rest) as Sr by (intros y Hy; apply S; now right).
    assert (quiet (s :: rest)) as Q by (intros y x; apply M4).
    apply quiet_cons in Q as [Qs Qr].
    set (v := ev G (st_cur st) g).
    destruct (fold_top v rest s []) as (top' & mid' & HF & (c1 & t1 & f1 & xs & T1 & T2 & T3) & R1 & R2 & R3 & R4); auto.
    - intros y [].
    - intros c t f [].
    - intros y x [].
    - unfold apart. cbn. repeat constructor. intros [].
    - intros a b Ha Hb Henc. cbn in Ha, Hb.
      assert (In a (s :: rest)) as Ia by exact Ha. assert (In b (s :: rest)) as Ib by exact Hb.
      destruct (S a Ia) as (k & bb & t & f & ->). destruct (S b Ib) as (k' & bb' & t' & f' & ->).
      cbn in *. eapply M2; [exact Ha|exact Hb|exact Henc].
    - cbn [fold_left merge1] in H. rewrite HF in H. rewrite T2 in H. cbn in H. injection H as <-.
      destruct (Ss s (or_introl eq_refl)) as (k & b & t & f & Es).
      rewrite Es in T1. injection T1 as <- <- <-.
      assert (keyof s = k) as Ks by (subst s; reflexivity). rewrite Ks in *.
      rewrite (run_sel (s :: rest)); auto.
      fold v. cbn [sel flat_map]. fold (sel v rest). rewrite Es. cbn [sel1].
      rewrite run_single, exec_if, truth_eq_const. fold v w.
      destruct (Z.eqb_spec v (enc w k)) as [E|E].
      + now rewrite T3.
      + rewrite !run_app_running by auto.
        destruct (st_status (run G f st)) eqn:Ef; auto.
        rewrite (run_sel mid') by auto.
        rewrite run_ev_frame; fold v.
        * rewrite R4; auto.
        * intros x Hx C. apply (Qs s x (or_introl eq_refl) Hx). rewrite Es. apply changes_if. now right.
  Qed.
End Seg.

Section Whole.
  Variable G : tenv.
  Lemma ready_sized g grp :
    (forall s, In s grp -> tests g s) -> mergeable G g grp -> sized G g grp.
  Proof.
    intros H M s Hs. destruct (H s Hs) as (k & w & b & t & f & ->).
    rewrite (mg_width _ _ _ M _ _ _ _ _ Hs). eauto 8.
  Qed.
  Lemma body_eqR_app a a' b b' :
    body_eqR G a a' -> body_eqR G b b' -> body_eqR G (a ++ b) (a' ++ b').
  Proof.
    intros H K st Hst. rewrite !run_app_running by auto. rewrite (H st Hst).
    destruct (st_status (run G a' st)) eqn:E; auto.
  Qed.
  Lemma body_eqR_refl a : body_eqR G a a.
  Proof. intros st _; reflexivity. Qed.
  Lemma body_eqR_trans a b c : body_eqR G a b -> body_eqR G b c -> body_eqR G a c.
  Proof. intros H K st Hst. rewrite H by auto. now apply K. Qed.

  Lemma merge_group_shape g l :
    merge_ready G g l -> body_eqR G l (merge_group l g)
    /\ forall g', g' <> g -> merge_ready G g' l -> merge_ready G g' (merge_group l g).
  Proof.
    intros (pre & grp & post & -> & H1 & H2 & M).
    unfold merge_group. rewrite filter_ready by auto.
    destruct (Nat.leb_spec (length grp) 1); [split; [apply body_eqR_refl|auto]|].
    destruct (nest _) as [top|] eqn:E; [|split; [apply body_eqR_refl|auto]].
    rewrite place_ready; auto; [|destruct grp; cbn in *; [lia|discriminate]].
    split.
    - apply body_eqR_app; [apply body_eqR_refl|]. apply body_eqR_app; [|apply body_eqR_refl].
      intros st Hst. eapply segment_correct; eauto. now apply ready_sized.
    - intros g' Hg (pre' & grp' & post' & EQ & H1' & H2' & M').
      (* the g' segment is untouched: filter characterises it *)
      assert (tests g top) as Ht.
      { destruct grp as [|s rest]; [discriminate|].
        destruct (H1 s (or_introl eq_refl)) as (k & w & b & t & f & ->).
        revert E. cbn [fold_left merge1].
        assert (forall rest acc t1 f1, acc = SIf (EBin Eq g (EConst k w b)) t1 f1 :: tl acc ->
                  (forall s, In s rest -> tests g s) ->
                  exists t2 f2, fold_left merge1 rest acc
                     = SIf (EBin Eq g (EConst k w b)) t2 f2 :: tl (fold_left merge1 rest acc)) as HH.
        { clear. induction rest as [|s r IH]; intros acc t1 f1 Ea Ht; [eauto|]. cbn [fold_left].
          destruct (Ht s (or_introl eq_refl)) as (k' & w' & b' & t' & f' & ->).
          rewrite Ea. cbn [merge1].
          destruct (same_const _ _); eapply IH; try (cbn; reflexivity); intros; apply Ht; now right. }
        intros E. destruct (HH rest [SIf (EBin Eq g (EConst k w b)) t f] t f eq_refl) as (t2 & f2 & Ef).
        - intros; apply H1; now right.
        - rewrite Ef in E. cbn in E. injection E as <-. unfold tests. eauto 8. }
      assert (forall s, In s grp -> ~ tests g' s) as D.
      { intros s Hs C. destruct (H1 s Hs) as (k & w & b & t & f & ->).
        destruct C as (? & ? & ? & ? & ? & C). injection C; intros; congruence. }
      assert (~ tests g' top) as D2.
      { intros C. destruct Ht as (k & w & b & t & f & ->).
        destruct C as (? & ? & ? & ? & ? & C). injection C; intros; congruence. }
      destruct grp as [|s0 rest0] eqn:Egrp; [cbn in *; lia|]. rewrite <- Egrp in *.
      (* compare the two splittings *)
      destruct grp' as [|s' rest'].
      + exists (pre ++ [top] ++ post), [], []. repeat split; try (intros; contradiction).
        * now rewrite !app_nil_r.
        * intros s [Hs|[]] C. cbn in EQ. 
          assert (forall s, In s (pre ++ grp ++ post) -> ~ tests g' s) as Hall.
          { intros y Hy. apply H2'. rewrite EQ in Hy. apply in_app_or in Hy. exact Hy. }
          apply in_app_or in Hs as [Hs|Hs]; [|apply in_app_or in Hs as [[<-|[]]|Hs]]; auto.
          -- eapply Hall; eauto. apply in_or_app; auto.
          -- eapply Hall; eauto. apply in_or_app; right. apply in_or_app; auto.
      + (* the segment lies entirely in pre or entirely in post *)
        assert (filter (in_group g') (pre ++ grp ++ post) = s' :: rest') as F.
        { rewrite EQ. now apply filter_ready. }
        rewrite !filter_app, (filter_none _ grp) in F.
        2:{ intros x Hx. apply in_group_false. auto. }
        cbn in F.
        assert ((exists a c, pre = a ++ (s' :: rest') ++ c
                   /\ (forall s, In s a \/ In s c -> ~ tests g' s) /\ (forall s, In s post -> ~ tests g' s))
                \/ (exists a c, post = a ++ (s' :: rest') ++ c
                   /\ (forall s, In s a \/ In s c -> ~ tests g' s) /\ (forall s, In s pre -> ~ tests g' s))) as [HA|HA].
        { set (seg := s' :: rest') in *.
          assert (seg <> []) as Hne by discriminate. clearbody seg. clear - EQ H1' H2' D F Hne Egrp.
          (* position of the foreign block grp relative to seg *)
          assert (exists y, In y grp) as [y Hy] by (rewrite Egrp; exists s0; now left).
          revert pre' EQ H2' F. induction pre as [|p pre IH]; intros pre' EQ H2' F.
          - right. cbn in EQ. clear F.
            (* grp ++ post = pre' ++ seg ++ post' *)
            assert (exists a, pre' = grp ++ a) as [a ->].
            { clear - EQ H1' D Hne. revert pre' EQ. induction grp as [|z grp IH]; intros pre' EQ; [now exists pre'|].
              destruct pre' as [|p' pre'].
              - cbn in EQ. destruct seg as [|q seg]; [congruence|]. cbn in EQ. injection EQ as -> _.
                exfalso. apply (D q); [now left|]. apply H1'. now left.
              - cbn in EQ. injection EQ as -> EQ. destruct (IH (fun s Hs => D s (or_intror Hs)) pre' EQ) as [a ->]. now exists a. }
            rewrite <- app_assoc in EQ. apply app_inv_head in EQ.
            exists a, post'. split; [exact EQ|]. split; [|intros s []].
            intros s [Hs|Hs]; apply H2'; auto. left. apply in_or_app. auto.
          - destruct pre' as [|p' pre'].
            + (* seg starts at p *)
              left. destruct seg as [|q seg]; [congruence|]. cbn in EQ. injection EQ as -> EQ.
              cbn in F. 
              assert (exists c, pre = seg ++ c /\ post' = c ++ grp ++ post) as (c & -> & ->).
              { clear - EQ H1' D Egrp. revert seg EQ H1'. induction pre as [|z pre IH]; intros seg EQ H1'.
                - cbn in EQ. destruct seg as [|x seg]; [exists []; auto|].
                  exfalso. rewrite Egrp in EQ. cbn in EQ. injection EQ as -> _.
                  apply (D x); [rewrite Egrp; now left|]. apply H1'. right; now left.
                - destruct seg as [|x seg]; [exists (z :: pre); auto|].
                  cbn in EQ. injection EQ as -> EQ.
                  destruct (IH seg EQ) as (c & -> & ->).
                  + intros s [<-|Hs]; apply H1'; [now left|right; now right].
                  + exists c; auto. }
              exists [], c. repeat split; auto.
              * intros s [[]|Hs]. apply H2'. right. apply in_or_app; auto.
              * intros s Hs. apply H2'. right. apply in_or_app; right. apply in_or_app; auto.
            + cbn in EQ. injection EQ as -> EQ.
              assert (in_group g' p' = false) as Hp.
              { apply in_group_false, H2'. left; now left. }
              cbn in F. rewrite Hp in F.
              destruct (IH pre' EQ) as [(a & c & -> & K1 & K2)|(a & c & -> & K1 & K2)]; auto.
              * intros s [Hs|Hs]; apply H2'; auto. left; now right.
              * left. exists (p' :: a), c. repeat split; auto.
                intros s [[<-|Hs]|Hs]; auto. apply in_group_false; auto.
              * right. exists a, c. repeat split; auto.
                intros s [<-|Hs]; auto. apply in_group_false; auto. }
        * destruct HA as (a & c & -> & K1 & K2).
          exists a, (s' :: rest'), (c ++ [top] ++ post).
          split; [now rewrite <- !app_assoc|]. split; [exact H1'|]. split; [|exact M'].
          intros s [Hs|Hs]; auto. apply in_app_or in Hs as [Hs|[<-|Hs]]; auto.
        * destruct HA as (a & c & -> & K1 & K2).
          exists (pre ++ [top] ++ a), (s' :: rest'), c.
          split; [now rewrite <- !app_assoc|]. split; [exact H1'|]. split; [|exact M'].
          intros s [Hs|Hs]; auto. apply in_app_or in Hs as [Hs|[<-|Hs]]; auto.
  Qed.

  Lemma merge_fold gs : NoDup gs -> forall l,
    (forall g, In g gs -> merge_ready G g l) -> body_eqR G l (fold_left merge_group gs l).
  Proof.
    induction 1 as [|g gs Hn ND IH]; intros l H; [apply body_eqR_refl|]. cbn [fold_left].
    destruct (merge_group_shape g l (H g (or_introl eq_refl))) as [E K].
    eapply body_eqR_trans; [exact E|]. apply IH.
    intros g' Hg'. apply K; [intros ->; contradiction|]. apply H. now right.
  Qed.
  Lemma merge_if_correct l gs :
    Permutation gs (targets l) ->
    (forall g, (exists s, In s l /\ tests g s) -> merge_ready G g l) ->
    forall st, st_status st = Running -> run G l st = run G (merge_if_block gs l) st.
  Proof.
    intros P H. apply merge_fold.
    - apply (Permutation_NoDup (Permutation_sym P)), NoDup_nodup.
    - intros g Hg. apply H. apply (Permutation_in _ P) in Hg.
      apply nodup_In in Hg. apply in_flat_map in Hg as (s & Hs & Hg).
      exists s. split; auto. destruct s; cbn in Hg; try contradiction.
      destruct c; try contradiction. destruct op; try contradiction. destruct c2; try contradiction.
      destruct Hg as [<-|[]]. unfold tests. eauto 8.
  Qed.
End Whole.
