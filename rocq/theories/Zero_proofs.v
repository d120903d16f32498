From Coq Require Import FinFun.
From Verif Require Import Base Slice_spec Slice_model Const_model Const_spec Const_proofs Zero_spec Zero_model.
Local Open Scope Z_scope.

Lemma range_in : forall l h b, In b (range l h) <-> l <= b <= h.
Proof.
  intros l h b. unfold range. rewrite in_map_iff. split.
  - intros (i & <- & H). apply in_seq in H. lia.
  - intros H. exists (Z.to_nat (b - l)). rewrite in_seq. lia.
Qed.
Lemma connected_bits : forall w ds b, Forall (inside w) ds -> 0 <= b < w -> (In b (snd (connected w ds)) <-> driven ds b = true).
Proof.
  intros w ds b F B. induction F as [|d ds D F IH]; [cbn; split; [tauto|discriminate]|]. destruct d as [|l h|]; cbn [connected driven existsb drives].
  - cbn [snd]. rewrite range_in. split; [reflexivity|lia].
  - destruct (connected w ds) as [c s]. cbn [snd] in *. rewrite in_app_iff, range_in, IH. unfold driven.
    destruct (Z.leb_spec l b); destruct (Z.leb_spec b h); cbn; intuition (try lia; try discriminate).
  - destruct (connected w ds) as [c s]. cbn [snd] in *. rewrite in_app_iff, range_in. split; [reflexivity|lia].
Qed.
Lemma connected_whole : forall w ds, fst (connected w ds) = true -> forall b, driven ds b = true.
Proof.
  intros w ds. induction ds as [|d ds IH]; cbn; [discriminate|]. destruct d as [|l h|]; auto. destruct (connected w ds) as [c s]. cbn in *. intros H b. fold (driven ds b). rewrite (IH H). apply orb_true_r.
Qed.

(* strictly increasing lists *)
Fixpoint incr (lo : Z) (l : list Z) : Prop := match l with [] => True | a :: r => lo < a /\ incr a r end.
Lemma incr_weak : forall l a b, a <= b -> incr b l -> incr a l.
Proof. destruct l; cbn; intuition lia. Qed.
Lemma incr_in : forall l a b, incr a l -> In b l -> a < b.
Proof. induction l as [|c l IH]; cbn; [tauto|]. intros a b [H I] [->|J]; [exact H|]. specialize (IH c b I J). lia. Qed.
Lemma incr_filter : forall f l a, incr a l -> incr a (filter f l).
Proof. induction l as [|c l IH]; cbn; auto. intros a [H I]. destruct (f c); cbn; [split; auto|]. apply (incr_weak _ a c); [lia|auto]. Qed.
Lemma incr_seq : forall n k l, incr (l + Z.of_nat k - 1) (map (fun i => l + Z.of_nat i) (seq k n)).
Proof. induction n as [|n IH]; intros k l; [exact I|]. cbn [seq map incr]. split; [lia|]. specialize (IH (S k) l). replace (l + Z.of_nat (S k) - 1) with (l + Z.of_nat k) in IH by lia. exact IH. Qed.
Lemma incr_range : forall l h, incr (l - 1) (range l h).
Proof. intros l h. unfold range. pose proof (incr_seq (Z.to_nat (h - l + 1)) 0 l) as H. now rewrite Z.add_0_r in H. Qed.

(* what the loop over the missing bits produces *)
Definition covers (b : Z) (hl : Z * Z) : bool := (snd hl <=? b) && (b <=? fst hl).
Definition hits (b : Z) (l : list (Z * Z)) : nat := length (filter (covers b) l).
Definition inb (b : Z) (l : list Z) : nat := if existsb (Z.eqb b) l then 1 else 0.
Lemma notin_low : forall l a b, incr a l -> b <= a -> existsb (Z.eqb b) l = false.
Proof.
  intros l a b I B. destruct (existsb (Z.eqb b) l) eqn:E; auto. apply existsb_exists in E as (c & J & E). apply Z.eqb_eq in E as <-. pose proof (incr_in _ _ _ I J). lia.
Qed.
Lemma runs_hits : forall l low pre b, low <= pre -> incr pre l ->
  hits b (runs low pre pre l) = (if (low <=? b) && (b <=? pre) then 1%nat else inb b l).
Proof.
  induction l as [|c l IH]; intros low pre b L I; cbn [runs].
  - unfold hits, covers, inb. cbn. destruct (_ && _); reflexivity.
  - destruct I as [C I]. unfold inb. cbn [existsb]. destruct (c - pre >? 1) eqn:G.
    + unfold hits. cbn [filter]. unfold covers at 1. cbn [fst snd]. fold (hits b (runs c c c l)).
      assert (hits b (runs c c c l) = if (c <=? b) && (b <=? c) then 1%nat else inb b l) as H by (apply IH; [lia|exact I]).
      destruct ((low <=? b) && (b <=? pre)) eqn:E.
      * cbn [length]. fold (hits b (runs c c c l)). rewrite H. replace ((c <=? b) && (b <=? c)) with false by lia. unfold inb. rewrite (notin_low l c b I) by lia. reflexivity.
      * fold (hits b (runs c c c l)). rewrite H. unfold inb. destruct (Z.eqb_spec b c) as [->|N]; [now rewrite Z.leb_refl|]. replace ((c <=? b) && (b <=? c)) with false by lia. reflexivity.
    + assert (c = pre + 1) as -> by lia. rewrite IH by (try lia; exact I). unfold inb.
      destruct ((low <=? b) && (b <=? pre)) eqn:E.
      * replace ((low <=? b) && (b <=? pre + 1)) with true by lia. reflexivity.
      * destruct (Z.eqb_spec b (pre + 1)) as [->|N]; [replace ((low <=? pre + 1) && (pre + 1 <=? pre + 1)) with true by lia; reflexivity|].
        replace ((low <=? b) && (b <=? pre + 1)) with false by lia. reflexivity.
Qed.
Lemma runs_first : forall d l b, incr (d - 1) (d :: l) -> hits b (runs d d d (d :: l)) = inb b (d :: l).
Proof.
  intros d l b I. cbn [runs]. rewrite Z.sub_diag. change (0 >? 1) with false. cbn iota. destruct I as [_ I]. rewrite runs_hits by (try lia; exact I). unfold inb. cbn [existsb].
  destruct (Z.eqb_spec b d) as [->|N]; [now rewrite Z.leb_refl|]. replace ((d <=? b) && (b <=? d)) with false by lia. reflexivity.
Qed.
(* every run starts and ends at a missing bit, and the bits next to it are not missing *)
Lemma runs_ends : forall l low pre h k, low <= pre -> incr pre l -> In (h, k) (runs low pre pre l) ->
  (k = low \/ In k l) /\ (h = pre \/ In h l) /\ k <= h /\ (h = pre -> ~ In (pre + 1) l) /\ (In h l -> ~ In (h + 1) l) /\ (In k l -> k - 1 <> pre /\ ~ In (k - 1) l).
Proof.
  induction l as [|c l IH]; intros low pre h k L I H; cbn [runs] in H.
  - destruct H as [H|[]]. injection H as <- <-. cbn. intuition.
  - destruct I as [C I]. assert (forall x, In x l -> c < x) as Up by (intros x; apply incr_in; exact I). destruct (c - pre >? 1) eqn:G.
    + destruct H as [H|H].
      * injection H as <- <-. cbn. split; [tauto|]. split; [tauto|]. split; [exact L|]. split; [intros _ [E|E]; [lia|apply Up in E; lia]|]. split; [intros [E|E]; [lia|apply Up in E; lia]|].
        intros [E|E]; [lia|]. apply Up in E. lia.
      * apply IH in H; [|lia|exact I]. destruct H as (A & B & D & E & F & K). cbn.
        assert (c <= h /\ c <= k) as [Hc Kc] by (split; [destruct B as [->|B]; [lia|apply Up in B; lia]|destruct A as [->|A]; [lia|apply Up in A; lia]]).
        split; [intuition|]. split; [intuition|]. split; [exact D|]. split; [lia|]. split.
        { intros _ [X|X]; [lia|]. destruct B as [->|B]; [now apply E in X|now apply F in B]. }
        intros _. split; [lia|]. intros [X|X]; [|].
        { destruct A as [->|A]; [lia|]. destruct (K A). lia. }
        { destruct A as [->|A]; [apply Up in X; lia|]. destruct (K A). tauto. }
    + assert (c = pre + 1) as -> by lia. apply IH in H; [|lia|exact I]. destruct H as (A & B & D & E & F & K). cbn.
      split; [intuition|]. split; [intuition|]. split; [exact D|].
      assert (pre + 1 <= h) as Hp by (destruct B as [->|B]; [lia|apply Up in B; lia]).
      split; [lia|]. split.
      { intros _ [X|X]; [lia|]. destruct B as [->|B]; [now apply E in X|now apply F in B]. }
      intros X. assert (In k l) as Kl by (destruct A as [->|A]; [destruct X as [X|X]; [lia|apply Up in X; lia]|exact A]).
      destruct (K Kl) as [K1 K2]. pose proof (Up _ Kl). split; [lia|]. intros [Y|Y]; [congruence|tauto].
Qed.

Lemma is_legal_0 : forall w s, 1 <= w <= 64 -> is_legal 0 w s = Ok Legal.
Proof.
  intros w s W. destruct (is_legal_iff 0 w s) as (k & E & K); [unfold int64; lia|exact W|]. rewrite E. f_equal. apply K.
  assert (0 < 2 ^ (w - 1)) by (apply Z.pow_pos_nonneg; lia). assert (0 < 2 ^ w) by (apply Z.pow_pos_nonneg; lia). destruct s; cbn [meant representable]; [lia|]. rewrite Z.mod_0_l; lia.
Qed.

(* one zero for a port with one dimension *)
Lemma wire_zero_exact : forall n vw s h l z, 0 < n -> 0 < vw -> 0 <= l <= h -> h < n * vw ->
  wire_zero (declare [n] vw false) s h l = Ok z -> z_high z = h /\ z_low z = l /\ z_owner z = Child.
Proof.
  intros n vw s h l z N V L H E. unfold wire_zero in E.
  assert (v_width (declare [n] vw false) = n * vw) as Wd by (unfold v_width; cbn; lia). rewrite Wd in E.
  destruct (Z.eqb_spec n 1) as [->|N1].
  - change (scalar (declare [1] vw false)) with true in E. cbn [obind] in E.
    destruct ((l =? 0) && (h =? 1 * vw - 1)) eqn:X.
    + destruct (is_legal 0 (1 * vw) s); try discriminate. cbn in E. injection E as <-. cbn [z_high z_low z_owner v_high v_low declare prod_z]. repeat split; lia.
    + unfold select in E. change (scalar (declare [1] vw false)) with true in E. rewrite Wd in E. replace (l >? h) with false in E by lia. replace (h >=? 1 * vw) with false in E by lia.
      unfold make_slice in E. assert (dropped_dim (declare [1] vw false) h l = false) as D by (unfold dropped_dim; cbn; now rewrite !andb_false_r). rewrite D in E. cbn in E.
      match type of E with context [is_legal 0 ?q s] => destruct (is_legal 0 q s) end; try discriminate. cbn in E. injection E as <-. cbn [z_high z_low z_owner v_high v_low declare prod_z]. repeat split; lia.
  - assert (scalar (declare [n] vw false) = false) as Sc by (unfold scalar; cbn; lia). rewrite Sc in E. cbn [v_vw declare] in E.
    destruct (negb (l mod vw =? 0) || negb ((h + 1) mod vw =? 0)) eqn:M; [discriminate|]. cbn [obind] in E.
    assert (l mod vw = 0 /\ (h + 1) mod vw = 0) as [M1 M2] by lia.
    assert (l = l / vw * vw) as Q1 by (pose proof (Z.div_mod l vw); lia).
    assert ((h + 1) / vw * vw = h + 1) as Q2 by (pose proof (Z.div_mod (h + 1) vw); lia).
    assert (h / vw = (h + 1) / vw - 1) as Q3.
    { assert (h = ((h + 1) / vw - 1) * vw + (vw - 1)) as Y by lia. rewrite Y at 1. rewrite Z.div_add_l by lia. rewrite (Z.div_small (vw - 1)) by lia. lia. }
    assert (h / vw < n) by (apply Z.div_lt_upper_bound; lia). assert (l / vw <= h / vw) by (apply Z.div_le_mono; lia).
    destruct ((l / vw =? 0) && (h / vw =? n * vw - 1)) eqn:X.
    + destruct (is_legal 0 (n * vw) s); try discriminate. cbn in E. injection E as <-. cbn [z_high z_low z_owner v_high v_low declare prod_z]. assert (n * vw <= n) by lia. assert (vw = 1) by nia. subst vw. rewrite Z.div_1_r in *. cbn [prod_z]. repeat split; lia.
    + unfold select in E. fold (declare [n] vw false) in E. rewrite Sc in E. cbn [declare v_size front] in E. replace (l / vw >? h / vw) with false in E by lia. replace (h / vw >=? n) with false in E by lia.
      fold (declare [n] vw false) in E. unfold make_slice in E. rewrite Sc in E. cbn [andb negb] in E.
      assert (forall sw : list Z * Z, (let '(size, vw') := sw in True) = True) as _ by (intros []; reflexivity).
      cbn [declare v_slice v_size v_vw tl prod_z v_explicit] in E.
      destruct (h / vw =? l / vw); cbv beta iota zeta delta [obind negb] in E; match type of E with context [is_legal 0 ?q s] => destruct (is_legal 0 q s) end; try discriminate; injection E as <-; cbn [z_high z_low z_owner v_high v_low]; repeat split; nia.
Qed.
Lemma wire_zero_total : forall n vw s h l, 0 < n -> 0 < vw -> n * vw <= 64 -> 0 <= l <= h -> h < n * vw -> n = 1 \/ (l mod vw = 0 /\ (h + 1) mod vw = 0) ->
  exists z, wire_zero (declare [n] vw false) s h l = Ok z.
Proof.
  intros n vw s h l N V W L H A. unfold wire_zero.
  assert (v_width (declare [n] vw false) = n * vw) as Wd by (unfold v_width; cbn; lia). rewrite Wd.
  destruct (Z.eqb_spec n 1) as [->|N1].
  - change (scalar (declare [1] vw false)) with true. cbn [obind].
    destruct ((l =? 0) && (h =? 1 * vw - 1)); [rewrite is_legal_0 by lia; cbn; eauto|].
    unfold select. change (scalar (declare [1] vw false)) with true. rewrite Wd. replace (l >? h) with false by lia. replace (h >=? 1 * vw) with false by lia.
    unfold make_slice. assert (dropped_dim (declare [1] vw false) h l = false) as D by (unfold dropped_dim; cbn; now rewrite !andb_false_r). rewrite D. cbn.
    rewrite is_legal_0 by (unfold v_width; cbn; lia). cbn. eauto.
  - destruct A as [A|[M1 M2]]; [lia|]. assert (scalar (declare [n] vw false) = false) as Sc by (unfold scalar; cbn; lia). rewrite Sc. cbn [v_vw declare]. rewrite M1, M2. cbn [Z.eqb negb orb obind].
    assert (h / vw < n) by (apply Z.div_lt_upper_bound; lia). assert (l / vw <= h / vw) by (apply Z.div_le_mono; lia). assert (0 <= l / vw) by (apply Z.div_pos; lia).
    destruct (_ && _); [rewrite is_legal_0 by lia; cbn; eauto|].
    unfold select. fold (declare [n] vw false). rewrite Sc. cbn [declare v_size front]. replace (l / vw >? h / vw) with false by lia. replace (h / vw >=? n) with false by lia.
    fold (declare [n] vw false). unfold make_slice. rewrite Sc. cbn [andb negb declare v_slice v_size v_vw tl prod_z v_explicit].
    destruct (h / vw =? l / vw); cbn [obind]; rewrite is_legal_0 by (unfold v_width; cbn; nia); cbn; eauto.
Qed.

Lemma run_step : forall d l, runs d d d (d :: l) = runs d d d l.
Proof. intros d l. cbn [runs]. rewrite Z.sub_diag. reflexivity. Qed.
Lemma times_hits : forall l zs b, Forall2 (fun hl z => z_high z = fst hl /\ z_low z = snd hl) l zs -> times_zeroed zs b = hits b l.
Proof.
  intros l zs b F. unfold times_zeroed, hits. induction F as [|hl z l zs [H L] F IH]; [reflexivity|]. cbn [filter]. unfold covers at 1. rewrite H, L. destruct (_ && _); cbn; now rewrite IH.
Qed.
Definition missing (w : Z) (ds : list drive) : list Z := filter (fun i => negb (existsb (Z.eqb i) (snd (connected w ds)))) (range 0 (w - 1)).
Lemma missing_in : forall w ds b, Forall (inside w) ds -> (In b (missing w ds) <-> 0 <= b < w /\ driven ds b = false).
Proof.
  intros w ds b F. unfold missing. rewrite filter_In, range_in. split; intros [B D]; (split; [lia|]).
  - destruct (driven ds b) eqn:E; auto. apply connected_bits with (w := w) in E; [|exact F|lia]. apply negb_true_iff in D. rewrite <- not_true_iff_false in D. exfalso. apply D. apply existsb_exists. exists b. split; [exact E|apply Z.eqb_refl].
  - apply negb_true_iff. apply not_true_iff_false. intros X. apply existsb_exists in X as (c & I & X). apply Z.eqb_eq in X as <-. apply connected_bits in I; [congruence|exact F|lia].
Qed.
Lemma missing_incr : forall w ds, incr (-1) (missing w ds).
Proof. intros w ds. apply incr_filter. apply (incr_range 0). Qed.
Lemma runs_of_missing : forall w ds d l h k, Forall (inside w) ds -> missing w ds = d :: l -> In (h, k) (runs d d d (d :: l)) ->
  0 <= k <= h /\ h < w /\ driven ds k = false /\ driven ds h = false /\ (0 <= k - 1 -> driven ds (k - 1) = true) /\ (h + 1 < w -> driven ds (h + 1) = true).
Proof.
  intros w ds d l h k F E I. rewrite run_step in I. pose proof (missing_incr w ds) as M. rewrite E in M. destruct M as [M1 M].
  apply runs_ends in I; [|lia|exact M]. destruct I as (A & B & C & D & G & K).
  assert (In k (missing w ds)) as Ik by (rewrite E; cbn; intuition). assert (In h (missing w ds)) as Ih by (rewrite E; cbn; intuition).
  apply missing_in in Ik as [Bk Dk]; [|exact F]. apply missing_in in Ih as [Bh Dh]; [|exact F].
  split; [lia|]. split; [lia|]. split; [exact Dk|]. split; [exact Dh|]. split; intros X.
  - destruct (driven ds (k - 1)) eqn:Y; auto. assert (In (k - 1) (missing w ds)) as J by (apply missing_in; [exact F|split; [lia|exact Y]]). rewrite E in J. destruct A as [->|A].
    + destruct J as [J|J]; [lia|]. apply (incr_in l d) in J; [lia|exact M].
    + destruct (K A) as [K1 K2]. destruct J as [J|J]; [congruence|tauto].
  - destruct (driven ds (h + 1)) eqn:Y; auto. assert (In (h + 1) (missing w ds)) as J by (apply missing_in; [exact F|split; [lia|exact Y]]). rewrite E in J. destruct J as [J|J].
    + destruct B as [->|B]; [lia|]. apply (incr_in l d) in B; [lia|exact M].
    + destruct B as [->|B]; [now apply D in J|now apply G in B].
Qed.
Lemma range_nodup : forall l h, NoDup (range l h).
Proof.
  intros l h. unfold range. apply Injective_map_NoDup; [intros a b; lia|apply seq_NoDup].
Qed.
Lemma connected_inside : forall w ds b, Forall (inside w) ds -> In b (snd (connected w ds)) -> 0 <= b < w.
Proof.
  intros w ds b F. induction F as [|d ds D F IH]; [intros []|]. destruct d as [|l h|]; cbn [connected].
  - cbn [snd]. rewrite range_in. lia.
  - destruct (connected w ds). cbn [snd] in *. cbn in D. rewrite in_app_iff, range_in. intros [H|H]; [lia|auto].
  - destruct (connected w ds). cbn [snd] in *. rewrite in_app_iff, range_in. intros [H|H]; [lia|auto].
Qed.
Lemma whole_count : forall w ds, 0 < w -> Forall (inside w) ds -> fst (connected w ds) = true -> Z.of_nat (length (nodup Z.eq_dec (snd (connected w ds)))) = w.
Proof.
  intros w ds W F C. pose proof (connected_whole w ds C) as D.
  assert (length (nodup Z.eq_dec (snd (connected w ds))) = length (range 0 (w - 1))) as ->.
  { apply Nat.le_antisymm.
    - apply NoDup_incl_length; [apply NoDup_nodup|]. intros b H. apply nodup_In in H. apply connected_inside in H; [|exact F]. apply range_in. lia.
    - apply NoDup_incl_length; [apply range_nodup|]. intros b H. apply range_in in H. apply nodup_In. apply connected_bits; [exact F|lia|apply D]. }
  unfold range. rewrite map_length, seq_length. lia.
Qed.
(* in an aligned list of ranges, neighbours with different state stand at an element boundary *)
Lemma boundary : forall k ds b, 0 < k -> Forall (aligned k) ds -> driven ds b <> driven ds (b + 1) -> (b + 1) mod k = 0.
Proof.
  intros k ds b K F N. induction F as [|d ds D F IH]; [now cbn in N|]. unfold driven in *. cbn [existsb] in N.
  destruct d as [|l h|]; cbn [drives] in N; [cbn in N; congruence| |cbn in N; congruence].
  destruct ((l <=? b) && (b <=? h)) eqn:X; destruct ((l <=? b + 1) && (b + 1 <=? h)) eqn:Y; cbn in N; auto; try congruence; destruct D as [D1 D2].
  - assert (h = b) as -> by lia. exact D2.
  - assert (l = b + 1) as -> by lia. exact D1.
Qed.
