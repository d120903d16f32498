From Verif Require Import Base SV_spec IR IRSem_spec IR_lemmas Design_spec Zero_spec Zero_model Dce_model Dce_proofs Check_spec Check_model.
Local Open Scope Z_scope.

Lemma rfind_app : forall m x y b, rfind (m ++ [(y, b)]) x = match rfind m x with Some h => Some h | None => if Nat.eqb y x then Some b else None end.
Proof. intros m x y b. unfold rfind. induction m as [|[z h] m IH]; cbn; [destruct (Nat.eqb y x); reflexivity|]. destruct (Nat.eqb z x); [reflexivity|exact IH]. Qed.

Section Reset.
  Variable kind : var -> sigkind.
  Variable active : var -> option bool.
  (* what is known of the map after the events seen so far *)
  Definition good_map (seen : list (bool * var)) (m : rmap) : Prop :=
    (forall x h, rfind m x = Some h -> kind x = Port TAsyncReset /\ In (h, x) seen) /\
    (forall x h, In (h, x) seen -> kind x = Port TAsyncReset -> rfind m x = Some h) /\
    (forall x h, In (h, x) seen -> kind x <> Port TReset) /\
    (forall x h a, In (h, x) seen -> kind x = Port TAsyncReset -> active x = Some a -> h = a).
  Lemma event_step : forall m e m' seen, good_map seen m -> reset_event kind active m e = Ok m' -> good_map (seen ++ [e]) m' /\ forall x h, rfind m x = Some h -> rfind m' x = Some h.
  Proof.
    intros m [b y] m' seen (A & B & C & D) E. unfold reset_event in E.
    assert (forall x h, In (h, x) (seen ++ [(b, y)]) -> In (h, x) seen \/ (h = b /\ x = y)) as I. { intros x h H. apply in_app_or in H as [H|[H|[]]]; auto. right. now inversion H. }
    assert (forall x h, In (h, x) seen -> In (h, x) (seen ++ [(b, y)])) as J by (intros; apply in_or_app; auto).
    assert (kind y <> Port TAsyncReset -> kind y <> Port TReset -> good_map (seen ++ [(b, y)]) m) as Other.
    { intros N1 N2. split; [|split; [|split]].
      - intros x h F. destruct (A x h F); auto.
      - intros x h H K. destruct (I x h H) as [H'|[-> ->]]; [now apply B|contradiction].
      - intros x h H. destruct (I x h H) as [H'|[-> ->]]; [now apply (C x h)|exact N2].
      - intros x h a H K F. destruct (I x h H) as [H'|[-> ->]]; [now apply (D x h a)|contradiction]. }
    destruct (kind y) as [t|t|] eqn:K; try (injection E as <-; split; [apply Other; discriminate|auto]). destruct t; try (injection E as <-; split; [apply Other; discriminate|auto]); [|discriminate E].
    destruct (match active y with Some a => negb (Bool.eqb b a) | None => false end) eqn:Ac; [discriminate E|].
    assert (forall a, active y = Some a -> b = a) as Ac'. { intros a F. rewrite F in Ac. apply negb_false_iff in Ac. now apply Bool.eqb_prop. }
    assert (forall m0, (forall x h, rfind m x = Some h -> rfind m0 x = Some h) -> rfind m0 y = Some b -> (forall x h, rfind m0 x = Some h -> rfind m x = Some h \/ (x = y /\ h = b)) -> good_map (seen ++ [(b, y)]) m0) as Now.
    { intros m0 M Y O. split; [|split; [|split]].
      - intros x h F. destruct (O x h F) as [F'|[-> ->]]; [destruct (A x h F'); auto|]. split; [exact K|]. apply in_or_app. right. now left.
      - intros x h H K'. destruct (I x h H) as [H'|[-> ->]]; [apply M; now apply B|exact Y].
      - intros x h H. destruct (I x h H) as [H'|[-> ->]]; [now apply (C x h)|congruence].
      - intros x h a H K' F. destruct (I x h H) as [H'|[-> ->]]; [now apply (D x h a)|now apply Ac']. }
    destruct (rfind m y) as [h|] eqn:F.
    - destruct (Bool.eqb h b) eqn:Q; [|discriminate E]. cbn [negb] in E. injection E as <-. apply Bool.eqb_prop in Q. subst h. split; [|auto]. apply Now; auto.
    - injection E as <-. assert (forall x h, rfind m x = Some h -> rfind (m ++ [(y, b)]) x = Some h) as M by (intros x h H; rewrite rfind_app, H; reflexivity). split; [|exact M]. apply Now; [exact M|rewrite rfind_app, F, Nat.eqb_refl; reflexivity|].
      intros x h H. rewrite rfind_app in H. destruct (rfind m x) as [h'|]; [auto|]. destruct (Nat.eqb_spec y x) as [Y|]; [|discriminate H]. subst x. injection H as <-. auto.
  Qed.
  Lemma events_step : forall evs m m' seen, good_map seen m -> ofold (reset_event kind active) evs m = Ok m' -> good_map (seen ++ evs) m' /\ forall x h, rfind m x = Some h -> rfind m' x = Some h.
  Proof.
    induction evs as [|e evs IH]; intros m m' seen Gm E; cbn [ofold] in E; [injection E as <-; rewrite app_nil_r; auto|].
    destruct (reset_event kind active m e) as [m1| |] eqn:E1; try discriminate E. cbn [obind] in E. destruct (event_step m e m1 seen Gm E1) as [G1 M1]. destruct (IH m1 m' _ G1 E) as [G2 M2]. rewrite <- app_assoc in G2. split; [exact G2|auto].
  Qed.
  (* a test that is right for a map *)
  Definition test_ok (m : rmap) (c : expr) : Prop := forall x b, level_test x b c -> kind x = Port TAsyncReset -> rfind m x = Some b.
  Lemma if_ok : forall m c, reset_if kind m c = true -> test_ok m c.
  Proof.
    intros m c E x b L K. destruct L; cbn [reset_if] in E; rewrite K in E; destruct (rfind m x) as [[|]|]; try discriminate E; reflexivity.
  Qed.
  Lemma conditions_in : forall c body, In c (conditions body) <-> exists t f, IRSem_spec.inside (SIf c t f) body.
  Proof.
    intros c body. unfold conditions. rewrite collect_in. split.
    - intros (s & I & J). destruct s; try contradiction J. destruct J as [-> |[]]. eauto.
    - intros (t & f & I). exists (SIf c t f). split; [exact I|now left].
  Qed.
  Definition events (d : design) : list (bool * var) := flat_map (fun it => events_of (i_proc it)) d.
  Definition tests_ok (d : design) (m : rmap) : Prop := forall c, tests d c -> test_ok m c.
  Lemma items_step : forall d m m' pre, good_map (events pre) m -> tests_ok pre m -> ofold (reset_item kind active) d m = Ok m' -> good_map (events (pre ++ d)) m' /\ tests_ok (pre ++ d) m'.
  Proof.
    induction d as [|it d IH]; intros m m' pre Gm Tm E; cbn [ofold] in E; [injection E as <-; rewrite app_nil_r; auto|].
    unfold reset_item in E at 1. destruct (ofold (reset_event kind active) (events_of (i_proc it)) m) as [m1| |] eqn:E1; try discriminate E. cbn [obind] in E.
    destruct (forallb (reset_if kind m1) (conditions (body_of (i_proc it)))) eqn:F; [|discriminate E]. cbn [obind] in E.
    destruct (events_step _ _ _ _ Gm E1) as [G1 M1]. replace (pre ++ it :: d) with ((pre ++ [it]) ++ d) by now rewrite <- app_assoc.
    apply (IH m1); [|intros c T|exact E].
    - unfold events in *. rewrite flat_map_app. cbn [flat_map]. now rewrite app_nil_r.
    - destruct T as (j & t & f & J & I). apply in_app_or in J as [J|[-> |[]]].
      + intros x b L K. apply M1. apply (Tm c); [exists j, t, f; auto|exact L|exact K].
      + apply if_ok. rewrite forallb_forall in F. apply F. apply conditions_in. eauto.
  Qed.
  Lemma check_map : forall d, check_active_high kind active d = Ok tt -> exists m, good_map (events d) m /\ tests_ok d m.
  Proof.
    intros d E. unfold check_active_high in E. destruct (ofold (reset_item kind active) d []) as [m| |] eqn:F; try discriminate E. exists m. apply (items_step d [] m []); [| |exact F].
    - cbn. repeat split; try contradiction; discriminate.
    - intros c (j & t & f & [] & _).
  Qed.
  Lemma on_edge_events : forall d x b, on_edge d x b <-> In (b, x) (events d).
  Proof. intros d x b. unfold on_edge, events. rewrite in_flat_map. reflexivity. Qed.

  (* designs that pass *)
  Lemma events_pass : forall evs m seen, good_map seen m ->
    (forall x b, In (b, x) evs -> kind x <> Port TReset) ->
    (forall x b c, In (b, x) evs -> In (c, x) (seen ++ evs) -> kind x = Port TAsyncReset -> b = c) ->
    (forall x b a, In (b, x) evs -> kind x = Port TAsyncReset -> active x = Some a -> b = a) ->
    exists m', ofold (reset_event kind active) evs m = Ok m' /\ good_map (seen ++ evs) m'.
  Proof.
    induction evs as [|[b y] evs IH]; intros m seen Gm NR Cons Act; [exists m; rewrite app_nil_r; auto|].
    assert (exists m1, reset_event kind active m (b, y) = Ok m1) as (m1 & E1).
    { unfold reset_event. destruct (kind y) as [t|t|] eqn:K; eauto. destruct t; eauto; [|exfalso; apply (NR y b); [now left|exact K]].
      assert (match active y with Some a => negb (Bool.eqb b a) | None => false end = false) as ->. { destruct (active y) as [a|] eqn:F; [|reflexivity]. rewrite (Act y b a); [now rewrite Bool.eqb_reflx|now left|exact K|exact F]. }
      destruct (rfind m y) as [h|] eqn:F; eauto. destruct Gm as (A & _). destruct (A y h F) as [_ I]. rewrite (Cons y b h); [rewrite Bool.eqb_reflx; cbn [negb]; eauto|now left|apply in_or_app; auto|exact K]. }
    destruct (event_step _ _ _ _ Gm E1) as [G1 _]. destruct (IH m1 (seen ++ [(b, y)]) G1) as (m' & E & Gm').
    - intros x c I. apply (NR x c). now right.
    - intros x c e I J K. apply (Cons x c e); [now right| |exact K]. rewrite <- app_assoc in J. exact J.
    - intros x c a I. apply Act. now right.
    - exists m'. cbn [ofold]. rewrite E1. cbn [obind]. rewrite <- app_assoc in Gm'. auto.
  Qed.
  Lemma if_pass : forall m c, (forall x b, level_test x b c -> kind x = Port TAsyncReset -> rfind m x = Some b) -> (forall x h, rfind m x = Some h -> kind x = Port TAsyncReset) -> reset_if kind m c = true.
  Proof.
    intros m c T A. assert (forall x, kind x = Port TReset -> rfind m x = None) as R. { intros x K. destruct (rfind m x) as [h|] eqn:F; [|reflexivity]. apply A in F. congruence. }
    destruct c as [x| |op e| | | | |]; try reflexivity.
    - cbn [reset_if]. destruct (kind x) as [[]| |] eqn:K; try reflexivity; [rewrite (T x true); [reflexivity|constructor|exact K]|now rewrite R].
    - destruct e; try reflexivity. cbn [reset_if]. destruct op; try reflexivity; destruct (kind x) as [[]| |] eqn:K; try reflexivity; try (rewrite (T x false); [reflexivity|constructor|exact K]); now rewrite R.
  Qed.
  Lemma items_pass : forall d pre m, good_map (events pre) m ->
    (forall x b, In (b, x) (events (pre ++ d)) -> kind x <> Port TReset) ->
    (forall x b c, In (b, x) (events (pre ++ d)) -> In (c, x) (events (pre ++ d)) -> kind x = Port TAsyncReset -> b = c) ->
    (forall x b a, In (b, x) (events (pre ++ d)) -> kind x = Port TAsyncReset -> active x = Some a -> b = a) ->
    (forall it c t f x b, In it d -> IRSem_spec.inside (SIf c t f) (body_of (i_proc it)) -> level_test x b c -> kind x = Port TAsyncReset -> In (b, x) (events_of (i_proc it))) ->
    exists m', ofold (reset_item kind active) d m = Ok m'.
  Proof.
    induction d as [|it d IH]; intros pre m Gm NR Cons Act Ts; [exists m; reflexivity|].
    assert (events (pre ++ it :: d) = (events pre ++ events_of (i_proc it)) ++ events d)%list as Ev. { unfold events. rewrite flat_map_app. cbn [flat_map]. now rewrite app_assoc. }
    assert (forall e, In e (events_of (i_proc it)) -> In e (events (pre ++ it :: d))) as In1. { intros e H. rewrite Ev. apply in_or_app. left. apply in_or_app. now right. }
    assert (forall e, In e (events pre ++ events_of (i_proc it))%list -> In e (events (pre ++ it :: d))) as In2. { intros e H. rewrite Ev. apply in_or_app. now left. }
    destruct (events_pass (events_of (i_proc it)) m (events pre) Gm) as (m1 & E1 & G1).
    - intros x b H. apply (NR x b). auto.
    - intros x b c H J. apply (Cons x b c); auto.
    - intros x b a H. apply Act; auto.
    - assert (forallb (reset_if kind m1) (conditions (body_of (i_proc it))) = true) as F.
      { apply forallb_forall. intros c H. apply conditions_in in H as (t & f & H). pose proof G1 as (A & B & _). apply if_pass.
        - intros x b L K. apply B; [|exact K]. apply in_or_app. right. apply (Ts it c t f x b); auto. now left.
        - intros x h Q. now destruct (A x h Q). }
      replace (pre ++ it :: d) with ((pre ++ [it]) ++ d) in * by now rewrite <- app_assoc.
      destruct (IH (pre ++ [it]) m1) as (m' & E); [unfold events in *; rewrite flat_map_app; cbn [flat_map]; now rewrite app_nil_r|exact NR|exact Cons|exact Act|intros j c t f x b J; apply Ts; now right|].
      exists m'. cbn [ofold]. unfold reset_item at 1. rewrite E1. cbn [obind]. rewrite F. exact E.
  Qed.
End Reset.

Lemma has_var_operand : forall x e, has_var e x = true <-> operand x e.
Proof.
  intros x. induction e; cbn [has_var]; rewrite ?orb_true_iff, ?Nat.eqb_eq; (split; [intros H|intros H; inversion H; subst; auto; try tauto]).
  - subst. constructor.
  - discriminate H.
  - apply o_un. tauto.
  - destruct H; [apply o_left|apply o_right]; tauto.
  - destruct H; [apply o_then|apply o_else]; tauto.
  - discriminate H.
  - destruct H; [apply o_cat_l|apply o_cat_r]; tauto.
  - apply o_ext. tauto.
Qed.
Lemma operand_evars : forall x e, operand x e -> In x (evars e).
Proof. intros x e H. induction H; cbn [evars]; rewrite ?in_app_iff; auto. now left. Qed.

Lemma range_in' : forall l h b, In b (range l h) <-> l <= b <= h.
Proof. intros l h b. unfold range. rewrite in_map_iff. split; [intros (i & <- & I); apply in_seq in I; lia|]. intros H. exists (Z.to_nat (b - l)). split; [lia|apply in_seq; lia]. Qed.
Lemma connected_in : forall w ds b, 0 <= b < w -> (In b (snd (connected w ds)) <-> exists dr, In dr ds /\ drives b dr = true).
Proof.
  intros w ds b B. induction ds as [|dr ds IH]; cbn [connected]; [cbn; split; [tauto|intros (? & [] & _)]|].
  assert ((exists d0, In d0 (dr :: ds) /\ drives b d0 = true) <-> drives b dr = true \/ exists d0, In d0 ds /\ drives b d0 = true) as X.
  { split; [intros (d0 & [-> |I] & D); eauto|intros [D|(d0 & I & D)]; [exists dr; split; [now left|exact D]|exists d0; split; [now right|exact D]]]. }
  rewrite X. destruct dr as [|l h|]; [cbn [snd drives]; rewrite range_in'; split; [auto|lia]|..]; destruct (connected w ds) as [c s]; cbn [snd] in *; rewrite in_app_iff, range_in', IH; cbn [drives].
  - rewrite andb_true_iff, !Z.leb_le. tauto.
  - split; [auto|left; lia].
Qed.
Lemma sources_in : forall d x k l w, In (k, l, w) (sources d x) <->
  lhs_var l = x /\ exists it e, In it d /\ IRSem_spec.inside (SAssign k l e) (body_of (i_proc it)) /\ w = match i_proc it with PWire _ _ => true | _ => false end.
Proof.
  intros d x k l w. unfold sources. rewrite in_flat_map. split.
  - intros (it & I & H). apply collect_in in H as (s & Is & H). destruct s; try contradiction H. destruct (Nat.eqb_spec (lhs_var l0) x) as [E|]; [|contradiction H]. destruct H as [H|[]]. injection H as -> -> <-. split; [exact E|]. exists it, e. auto.
  - intros (E & it & e & I & Is & ->). exists it. split; [exact I|]. apply collect_in. exists (SAssign k l e). split; [exact Is|]. rewrite <- E, Nat.eqb_refl. now left.
Qed.
Lemma drive_may : forall x i k l w, lhs_var l = x -> (drives i (drive_of (k, l, w)) = true <-> may_drive x i l).
Proof. intros x i k l w E. destruct l; cbn in *; rewrite ?andb_true_iff, ?Z.leb_le; tauto. Qed.
Lemma driven_sources : forall d x i, (exists dr, In dr (map drive_of (sources d x)) /\ drives i dr = true) <-> driven_in d x i.
Proof.
  intros d x i. split.
  - intros (dr & I & D). apply in_map_iff in I as (((k & l) & w) & <- & I). apply sources_in in I as (E & it & e & I & Is & _). exists it, k, l, e. split; [exact I|]. split; [exact Is|]. now apply (drive_may x i k l w E).
  - intros (it & k & l & e & I & Is & M). assert (lhs_var l = x) as E by (destruct l; cbn in M |- *; tauto).
    exists (drive_of (k, l, match i_proc it with PWire _ _ => true | _ => false end)). split; [|now apply (drive_may x i k l _ E)]. apply in_map. apply sources_in. split; [exact E|]. exists it, e. auto.
Qed.
Lemma connected_all : forall w ds, 0 <= w -> fst (connected w ds) = true -> forall b, 0 <= b < w -> In b (snd (connected w ds)).
Proof.
  intros w ds P E b B. apply connected_in; [exact B|]. induction ds as [|dr ds IH]; cbn [connected] in E; [discriminate E|]. destruct dr as [|l h|].
  - exists Whole. split; [now left|reflexivity].
  - destruct (connected w ds) as [c s]. cbn [fst] in *. destruct (IH E) as (d0 & I & D). exists d0. split; [now right|exact D].
  - exists Indexed. split; [now left|reflexivity].
Qed.
Lemma port_ok_iff : forall G d top p, 0 <= d_width (G (gp_var p)) ->
  (port_ok G d top p = true <-> (gp_dir p = DIn /\ top = true) \/ forall i, 0 <= i < d_width (G (gp_var p)) -> driven_in d (gp_var p) i).
Proof.
  intros G d top p P. unfold port_ok. set (w := d_width (G (gp_var p))) in *.
  assert ((let '(c, bits) := connected w (map drive_of (sources d (gp_var p))) in (c && (Z.of_nat (List.length (nodup Z.eq_dec bits)) =? w)) || forallb (fun i => existsb (Z.eqb i) bits) (range 0 (w - 1))) = true <->
          forall i, 0 <= i < w -> driven_in d (gp_var p) i) as X.
  { pose proof (connected_in w (map drive_of (sources d (gp_var p)))) as C. pose proof (connected_all w (map drive_of (sources d (gp_var p))) P) as A. destruct (connected w _) as [c bits]. cbn [fst snd] in *.
    split.
    - intros H i I. apply driven_sources. apply (C i I). apply orb_true_iff in H as [H|H].
      + apply andb_true_iff in H as [H _]. now apply A.
      + rewrite forallb_forall in H. specialize (H i). rewrite range_in' in H. specialize (H ltac:(lia)). apply existsb_exists in H as (j & J & E). apply Z.eqb_eq in E as <-. exact J.
    - intros H. apply orb_true_iff. right. apply forallb_forall. intros i I. apply range_in' in I. apply existsb_exists. exists i. split; [|apply Z.eqb_refl]. apply (C i ltac:(lia)). apply driven_sources. apply H. lia. }
  destruct (gp_dir p), top; rewrite ?X; (split; [intros H; auto; try (right; exact H)|intros H; try exact H; try reflexivity; destruct H as [[H1 H2]|H]; try discriminate; exact H]).
Qed.

Section Names.
  Variable N : names.
  Lemma eq_gen_eq : forall a b, eq_gen a b = true <-> a = b.
  Proof. intros [a|] [b|]; cbn; rewrite ?Nat.eqb_eq; split; congruence. Qed.
  (* the generator of an expression of visible signals *)
  Definition near (m : nat) (g : option nat) : Prop := g = None \/ g = Some m \/ exists h, g = Some h /\ n_parent N h = Some m.
  Hypothesis Up : forall h, n_parent N h <> Some h.
  Lemma join_near : forall m a b ga gb, near m ga -> near m gb -> near m (join N a b ga gb).
  Proof.
    intros m a b ga gb A B. destruct ga as [l|]; [|exact B]. destruct gb as [r|]; [|exact A]. cbn [join]. destruct (Nat.eqb_spec l r) as [|Ne]; [exact A|].
    destruct (eq_gen (Some l) (n_parent N r) && is_port N b); [exact A|]. destruct (eq_gen (n_parent N l) (n_parent N r) && is_port N a && is_port N b) eqn:E; [|exact B].
    apply andb_true_iff in E as [E _]. apply andb_true_iff in E as [E _]. apply eq_gen_eq in E.
    destruct A as [A|[A|(h & A & P)]]; [discriminate A|injection A as ->|injection A as ->; right; left; exact P].
    destruct B as [B|[B|(h & B & Q)]]; [discriminate B|congruence|injection B as ->]. exfalso. apply (Up m). congruence.
  Qed.
  Lemma gen_near : forall m e, (forall y, In y (evars e) -> visible N m y) -> near m (gen_of N e).
  Proof.
    intros m e V. induction e; cbn [gen_of evars] in *; try (apply IHe; exact V).
    - destruct (V x (or_introl eq_refl)) as [E|[E _]]; [right; left; congruence|right; right; eauto].
    - now left.
    - apply join_near; [apply IHe1|apply IHe2]; intros y I; apply V; apply in_or_app; auto.
    - apply join_near; [apply IHe2|apply IHe3]; intros y I; apply V; rewrite !in_app_iff; auto.
    - apply join_near; [apply IHe1|apply IHe2]; intros y I; apply V; apply in_or_app; auto.
  Qed.
  Lemma non_port_visible : forall m e, (forall y, In y (evars e) -> visible N m y) -> has_non_port N m e = false.
  Proof.
    intros m e V. induction e; cbn [has_non_port evars] in *; try (apply IHe; exact V); try reflexivity; rewrite ?orb_false_iff.
    - destruct (V x (or_introl eq_refl)) as [E|[_ E]]; [rewrite E, Nat.eqb_refl; reflexivity|]. apply andb_false_iff. right. cbn [is_port]. destruct (n_port N x); [reflexivity|contradiction].
    - split; [apply IHe1|apply IHe2]; intros y I; apply V; apply in_or_app; auto.
    - split; [apply IHe2|apply IHe3]; intros y I; apply V; rewrite !in_app_iff; auto.
    - split; [apply IHe1|apply IHe2]; intros y I; apply V; apply in_or_app; auto.
  Qed.
  Lemma parent_passes : forall m x e, home N x = Some m -> (forall y, In y (evars e) -> visible N m y) -> check_parent N x e = Ok tt.
  Proof.
    intros m x e H V. pose proof (gen_near m e V) as Nr. unfold check_parent. destruct (gen_of N e) as [h|]; [|reflexivity]. destruct (Nat.eqb (n_owner N x) h) eqn:O; [reflexivity|]. apply Nat.eqb_neq in O.
    assert (h = m \/ n_parent N h = Some m) as Hm by (destruct Nr as [Q|[Q|(k & Q & P)]]; [discriminate Q|injection Q as ->; auto|injection Q as ->; auto]).
    unfold home in H. assert (forall o, n_port N x = o -> o <> Some DIn -> Some (n_owner N x) = Some m -> (if negb (eq_gen (n_parent N h) (Some (n_owner N x))) && negb (eq_gen (n_parent N h) (n_parent N (n_owner N x))) || has_non_port N (n_owner N x) e then Throw else Ok tt) = Ok tt) as Main.
    { intros o _ _ E. injection E as E. rewrite E. rewrite (non_port_visible m e V), orb_false_r. destruct Hm as [Hm|Hm]; [congruence|]. assert (eq_gen (n_parent N h) (Some m) = true) as -> by now apply eq_gen_eq. reflexivity. }
    destruct (n_port N x) as [[]|] eqn:P; try (eapply Main; [reflexivity|discriminate|exact H]).
    assert (eq_gen (Some h) (n_parent N (n_owner N x)) || eq_gen (n_parent N h) (n_parent N (n_owner N x)) = true) as ->; [|reflexivity]. rewrite H. apply orb_true_iff. rewrite !eq_gen_eq. destruct Hm as [-> |Hm]; auto.
  Qed.
End Names.
