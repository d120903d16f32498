(* Basic facts about the statement semantics. *)
From Verif Require Import Base SV_spec IR IRSem_spec.
Local Open Scope Z_scope.

Section Lem.
  Variable G : tenv.

  Lemma exec_if c t f st :
    exec G (SIf c t f) st = if truth G (st_cur st) c then run G t st else run G f st.
  Proof. reflexivity. Qed.
  Lemma exec_block b st : exec G (SBlock b) st = run G b st.
  Proof. reflexivity. Qed.
  Lemma exec_switch e cs d st :
    exec G (SSwitch e cs d) st = pick G (ev G (st_cur st) e) (ewidth G e) cs d st.
  Proof. induction cs as [|cb r IH]; [destruct d; reflexivity|].
         cbn. cbn in IH. rewrite IH. reflexivity. Qed.
  Lemma exec_for i a b s body st :
    exec G (SFor i a b s body) st = loop G i body (for_values a b s) st.
  Proof.
    unfold exec at 1. fold (exec G). revert st.
    induction (for_values a b s) as [|v r IH]; intros st; [reflexivity|].
    cbn [loop]. rewrite <- IH. reflexivity.
  Qed.

  Lemma run_cons s r st :
    run G (s :: r) st =
    match st_status (exec G s st) with Running => run G r (exec G s st) | _ => exec G s st end.
  Proof. reflexivity. Qed.
  Lemma run_app a : forall b st,
    run G (a ++ b) st =
    match st_status (run G a st) with Running => run G b (run G a st) | _ => run G a st end
    \/ (a = [] /\ run G (a ++ b) st = run G b st).
  Proof.
    induction a as [|s r IH]; intros b st; [right; auto|left].
    cbn [app]. rewrite !run_cons. destruct (st_status (exec G s st)) eqn:E; try (rewrite E; reflexivity).
    destruct (IH b (exec G s st)) as [H|[-> H]]; [exact H|].
    cbn [app run]. now rewrite E.
  Qed.
  Lemma run_single s st : run G [s] st = exec G s st.
  Proof. cbn. now destruct (st_status (exec G s st)). Qed.
  Lemma run_app_running a b st :
    st_status st = Running ->
    run G (a ++ b) st =
    match st_status (run G a st) with Running => run G b (run G a st) | _ => run G a st end.
  Proof.
    intros Hs. destruct (run_app a b st) as [H|[-> H]]; [exact H|].
    cbn [app run]. now rewrite Hs.
  Qed.

  (* replacing statements by equivalent ones *)
  Definition stmt_eq (s t : stmt) : Prop := forall st, exec G s st = exec G t st.
  Definition body_eq (a b : list stmt) : Prop := forall st, run G a st = run G b st.

  Lemma body_eq_refl a : body_eq a a.
  Proof. intros st; reflexivity. Qed.
  Lemma body_eq_sym a b : body_eq a b -> body_eq b a.
  Proof. intros H st; symmetry; apply H. Qed.
  Lemma body_eq_trans a b c : body_eq a b -> body_eq b c -> body_eq a c.
  Proof. intros H K st; rewrite H; apply K. Qed.
  Lemma body_eq_cons s t a b : stmt_eq s t -> body_eq a b -> body_eq (s :: a) (t :: b).
  Proof. intros H K st. rewrite !run_cons, H. destruct (st_status _); auto. Qed.
  Lemma body_eq_Forall2 a b : Forall2 stmt_eq a b -> body_eq a b.
  Proof. induction 1; [apply body_eq_refl|now apply body_eq_cons]. Qed.
  Lemma body_eq_single s t : stmt_eq s t -> body_eq [s] [t].
  Proof. intros H. apply body_eq_cons; [exact H|apply body_eq_refl]. Qed.

  Lemma stmt_eq_if c t f t' f' :
    body_eq t t' -> body_eq f f' -> stmt_eq (SIf c t f) (SIf c t' f').
  Proof. intros H K st. rewrite !exec_if. destruct (truth _ _ _); auto. Qed.
  Lemma stmt_eq_block t t' : body_eq t t' -> stmt_eq (SBlock t) (SBlock t').
  Proof. intros H st. rewrite !exec_block. auto. Qed.
  Lemma pick_congr v w cs cs' d d' st :
    Forall2 (fun a b => fst a = fst b /\ body_eq (snd a) (snd b)) cs cs' ->
    match d, d' with
    | None, None => True | Some a, Some b => body_eq a b | _, _ => False end ->
    pick G v w cs d st = pick G v w cs' d' st.
  Proof.
    intros H K. induction H as [|x y l l' [E B] H IH]; cbn.
    - destruct d, d'; try contradiction; auto.
    - rewrite E, IH, (B st). reflexivity.
  Qed.
  Lemma stmt_eq_switch e cs cs' d d' :
    Forall2 (fun a b => fst a = fst b /\ body_eq (snd a) (snd b)) cs cs' ->
    match d, d' with
    | None, None => True | Some a, Some b => body_eq a b | _, _ => False end ->
    stmt_eq (SSwitch e cs d) (SSwitch e cs' d').
  Proof. intros H K st. rewrite !exec_switch. now apply pick_congr. Qed.
  Lemma loop_congr i b b' vs : body_eq b b' -> forall st, loop G i b vs st = loop G i b' vs st.
  Proof.
    intros H. induction vs as [|v r IH]; intros st; cbn; [reflexivity|].
    rewrite H. destruct (st_status _); auto.
  Qed.
  Lemma stmt_eq_for i a b s body body' :
    body_eq body body' -> stmt_eq (SFor i a b s body) (SFor i a b s body').
  Proof. intros H st. rewrite !exec_for. now apply loop_congr. Qed.

  (* the same for states in which execution has not been cut short *)
  Definition stmt_eqR (s t : stmt) : Prop :=
    forall st, st_status st = Running -> exec G s st = exec G t st.
  Definition body_eqR (a b : list stmt) : Prop :=
    forall st, st_status st = Running -> run G a st = run G b st.
  Lemma body_eqR_cons s t a b : stmt_eqR s t -> body_eqR a b -> body_eqR (s :: a) (t :: b).
  Proof.
    intros H K st Hs. rewrite !run_cons, (H st Hs).
    destruct (st_status (exec G t st)) eqn:E; auto.
  Qed.
  Lemma body_eqR_drop s a b :
    (forall st, st_status st = Running -> exec G s st = st) -> body_eqR a b -> body_eqR (s :: a) b.
  Proof. intros H K st Hs. rewrite run_cons, H, Hs by auto. auto. Qed.
  Lemma stmt_eqR_if c t f t' f' :
    body_eqR t t' -> body_eqR f f' -> stmt_eqR (SIf c t f) (SIf c t' f').
  Proof. intros H K st Hs. rewrite !exec_if. destruct (truth _ _ _); auto. Qed.
  Lemma stmt_eqR_block t t' : body_eqR t t' -> stmt_eqR (SBlock t) (SBlock t').
  Proof. intros H st Hs. rewrite !exec_block. auto. Qed.
  Lemma loop_congrR i b b' vs :
    body_eqR b b' -> forall st, st_status st = Running -> loop G i b vs st = loop G i b' vs st.
  Proof.
    intros H. induction vs as [|v r IH]; intros st Hs; cbn; [reflexivity|].
    rewrite H by auto. destruct (st_status (run _ _ _)) eqn:E; auto.
  Qed.

  Lemma truth_eq_const st e c w s :
    truth G st (EBin Eq e (EConst c w s)) = (ev G st e =? enc w c).
  Proof. unfold truth; cbn. now destruct (ev G st e =? enc w c). Qed.
End Lem.

Lemma bsize_eq l :
  (fix sum (l : list stmt) : nat := match l with [] => O | s :: r => (ssize s + sum r)%nat end) l
  = bsize l.
Proof. induction l; cbn; congruence. Qed.

(* every statement of a block, at any depth; used to discharge concrete examples *)
Fixpoint subs1 (s : stmt) : list stmt :=
  let fix go (l : list stmt) : list stmt :=
    match l with [] => [] | s :: r => subs1 s ++ go r end in
  s :: match s with
       | SIf _ t f => go t ++ go f
       | SSwitch _ cs d =>
           (fix goc (l : list (Z * list stmt)) : list stmt :=
              match l with [] => [] | cb :: r => go (snd cb) ++ goc r end) cs
           ++ match d with None => [] | Some b => go b end
       | SFor _ _ _ _ body => go body
       | SBlock body => go body
       | _ => []
       end.
Fixpoint subs (l : list stmt) : list stmt :=
  match l with [] => [] | s :: r => subs1 s ++ subs r end.

Lemma subs_in x s l : In s l -> In x (subs1 s) -> In x (subs l).
Proof.
  induction l as [|y r IH]; [intros []|]. intros [->|H] Hx; cbn; apply in_or_app; auto.
Qed.
Lemma subs1_self s : In s (subs1 s).
Proof. destruct s; cbn; auto. Qed.
Lemma subs1_if c t f : subs1 (SIf c t f) = SIf c t f :: subs t ++ subs f.
Proof. reflexivity. Qed.
Lemma subs1_for i a b st body : subs1 (SFor i a b st body) = SFor i a b st body :: subs body.
Proof. reflexivity. Qed.
Lemma subs1_block body : subs1 (SBlock body) = SBlock body :: subs body.
Proof. reflexivity. Qed.
Lemma subs1_case e cs d k b x :
  In (k, b) cs -> In x (subs b) -> In x (subs1 (SSwitch e cs d)).
Proof.
  intros H Hx. right. apply in_or_app. left.
  change (In x ((fix goc (l : list (Z * list stmt)) : list stmt :=
     match l with [] => [] | cb :: r => subs (snd cb) ++ goc r end) cs)).
  induction cs as [|y r IH]; [destruct H|]. destruct H as [->|H]; cbn; apply in_or_app; auto.
Qed.
Lemma subs1_default e cs b x : In x (subs b) -> In x (subs1 (SSwitch e cs (Some b))).
Proof. intros H. right. apply in_or_app. right. exact H. Qed.

Lemma inside_subs x l : inside x l -> In x (subs l).
Proof.
  induction 1.
  - eapply subs_in; eauto using subs1_self.
  - eapply subs_in; eauto. rewrite subs1_if. right. apply in_or_app; auto.
  - eapply subs_in; eauto. rewrite subs1_if. right. apply in_or_app; auto.
  - eapply subs_in; eauto. eapply subs1_case; eauto.
  - eapply subs_in; eauto. eapply subs1_default; eauto.
  - eapply subs_in; eauto. rewrite subs1_for. now right.
  - eapply subs_in; eauto. rewrite subs1_block. now right.
Qed.
Lemma inside_Forall (P : stmt -> Prop) l : Forall P (subs l) -> forall x, inside x l -> P x.
Proof. intros H x Hx. apply inside_subs in Hx. rewrite Forall_forall in H. auto. Qed.

(* values of well-typed expressions fit their width *)
Section Fits.
  Variable G : tenv.
  Lemma ewidth_pos e : wt G e -> 0 < ewidth G e.
  Proof.
    induction e; cbn; intros H; try tauto.
    - destruct (is_red op); [lia|auto].
    - destruct (is_rel op); [lia|tauto].
    - lia.
    - destruct H as [H1 H2]. specialize (IHe1 H1). specialize (IHe2 H2). lia.
    - destruct H as [H1 H2]. specialize (IHe H1). lia.
  Qed.
  Lemma enc_range w z : 0 <= w -> 0 <= enc w z < 2 ^ w.
  Proof. intros H. unfold enc. apply Z.mod_pos_bound. lia. Qed.
  Lemma bz_range b : 0 <= bz b < 2.
  Proof. destruct b; cbn; lia. Qed.
  Lemma land_range w a b : 0 <= w -> 0 <= a < 2 ^ w -> 0 <= b < 2 ^ w -> 0 <= Z.land a b < 2 ^ w.
  Proof.
    intros Hw Ha Hb. rewrite <- (Z.mod_small a (2 ^ w)), <- Z.land_ones by lia.
    split; [apply Z.land_nonneg; right; lia|].
    rewrite <- Z.land_assoc, (Z.land_comm _ b), Z.land_assoc, Z.land_ones by lia.
    apply Z.mod_pos_bound; lia.
  Qed.
  Lemma bits_range w a : 0 <= w -> 0 <= a -> (forall i, w <= i -> Z.testbit a i = false) -> a < 2 ^ w.
  Proof.
    intros Hw Ha H. destruct (Z_lt_ge_dec a (2 ^ w)) as [|Hge]; [assumption|exfalso].
    assert (0 < a) by lia.
    assert (w <= Z.log2 a) by (apply Z.log2_le_pow2; lia).
    pose proof (Z.bit_log2 a ltac:(lia)) as B. rewrite H in B by lia. discriminate.
  Qed.
  Lemma testbit_high w a i : 0 <= a < 2 ^ w -> w <= i -> Z.testbit a i = false.
  Proof.
    intros Ha Hi. destruct (Z.eq_dec a 0) as [->|]; [apply Z.bits_0|].
    apply Z.bits_above_log2; [lia|].
    enough (Z.log2 a < w) by lia. apply Z.log2_lt_pow2; lia.
  Qed.
  Lemma lor_range w a b : 0 <= w -> 0 <= a < 2 ^ w -> 0 <= b < 2 ^ w -> 0 <= Z.lor a b < 2 ^ w.
  Proof.
    intros Hw Ha Hb. split; [apply Z.lor_nonneg; lia|].
    apply bits_range; [lia|apply Z.lor_nonneg; lia|].
    intros i Hi. rewrite Z.lor_spec, (testbit_high w a), (testbit_high w b) by lia. reflexivity.
  Qed.
  Lemma lxor_range w a b : 0 <= w -> 0 <= a < 2 ^ w -> 0 <= b < 2 ^ w -> 0 <= Z.lxor a b < 2 ^ w.
  Proof.
    intros Hw Ha Hb. split; [apply Z.lxor_nonneg; lia|].
    apply bits_range; [lia|apply Z.lxor_nonneg; lia|].
    intros i Hi. rewrite Z.lxor_spec, (testbit_high w a), (testbit_high w b) by lia. reflexivity.
  Qed.
  Lemma ev_fits r e : wt G e -> 0 <= ev G r e < 2 ^ ewidth G e.
  Proof.
    induction e; cbn [wt ev ewidth]; intros H.
    - apply enc_range; lia.
    - apply enc_range; lia.
    - specialize (IHe H). pose proof (ewidth_pos _ H).
      destruct op; cbn [is_red sv_un]; try exact IHe; try (apply enc_range; lia);
        change (2 ^ 1) with 2; apply bz_range.
    - destruct H as (Ha & Hb & Hop). specialize (IHe1 Ha). specialize (IHe2 Hb).
      pose proof (ewidth_pos _ Ha). pose proof (ewidth_pos _ Hb).
      destruct op; cbn [is_rel sv_bin is_shift] in *; cbv zeta;
        try (apply enc_range; lia); try (change (2 ^ 1) with 2; apply bz_range);
        try (split; [lia|apply Z.pow_pos_nonneg; lia]);
        try (destruct Hop as [Hop|Hop]; [discriminate|]; rewrite <- Hop in IHe2).
      + assert (0 < 2 ^ ev G r e2) by (apply Z.pow_pos_nonneg; lia).
        split; [apply Z.div_pos; lia|].
        apply Z.le_lt_trans with (ev G r e1); [|lia].
        apply Z.div_le_upper_bound; nia.
      + apply lor_range; lia.
      + apply land_range; lia.
      + apply lxor_range; lia.
    - destruct H as (Hc & Ha & Hb & Hw & Hab). specialize (IHe2 Ha). specialize (IHe3 Hb).
      destruct (ev G r e1 =? 0); [rewrite Hab|]; assumption.
    - apply Z.mod_pos_bound. apply Z.pow_pos_nonneg; lia.
    - destruct H as (Ha & Hb). specialize (IHe1 Ha). specialize (IHe2 Hb).
      pose proof (ewidth_pos _ Ha). pose proof (ewidth_pos _ Hb).
      rewrite Z.pow_add_r by lia. nia.
    - destruct H as (Ha & Hw). pose proof (ewidth_pos _ Ha). apply enc_range; lia.
  Qed.

  (* a one-bit predicate is negated by complementing it *)
  Lemma truth_invert r c :
    wt G c -> ewidth G c = 1 -> truth G r (EUn UInvert c) = negb (truth G r c).
  Proof.
    intros H W. pose proof (ev_fits r c H) as F. rewrite W in F. change (2 ^ 1) with 2 in F.
    unfold truth. cbn [ev sv_un]. rewrite W. unfold enc. change (2 ^ 1) with 2.
    destruct (Z.eq_dec (ev G r c) 0) as [->|]; [reflexivity|].
    replace (ev G r c) with 1 by lia. reflexivity.
  Qed.
End Fits.
Ltac each := repeat (first [apply Forall_nil | apply Forall_cons]).
