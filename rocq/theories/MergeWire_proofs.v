From Verif Require Import Base IR MergeWire_model MergeWire_spec.
Local Open Scope Z_scope.

Lemma in_pair_inv S p s : in_pair S p s = true ->
  exists lhi llo rhi rlo, s = WSlice (fst p) lhi llo (snd p) rhi rlo
                          /\ same_shape S (fst p) (snd p) = true.
Proof.
  unfold in_pair, pair_of. destruct s; try discriminate.
  destruct (same_shape S l r) eqn:E; [|discriminate].
  destruct (pair_eq_dec (l, r) p) as [<-|]; [|discriminate]. intros _. cbn. eauto 10.
Qed.
Lemma pairs_in S l p : In p (pairs S l) <-> exists s, In s l /\ in_pair S p s = true.
Proof.
  unfold pairs. rewrite nodup_In, in_flat_map. split; intros (s & Hs & H); exists s; split; auto;
    unfold in_pair in *; destruct (pair_of S s) as [q|]; cbn in *; try contradiction; try discriminate.
  - destruct H as [->|[]]. destruct (pair_eq_dec p p); congruence.
  - destruct (pair_eq_dec q p); [now left|discriminate].
Qed.

(* positions of a filtered list *)
Lemma filter_nth {A} (p : A -> bool) l n x : nth_error (filter p l) n = Some x ->
  exists m, nth_error l m = Some x /\ forall n' x', nth_error (filter p l) n' = Some x' ->
    n' <> n -> exists m', nth_error l m' = Some x' /\ m' <> m.
Proof.
  revert n. induction l as [|a r IH]; intros n H; [destruct n; discriminate|].
  cbn in H |- *. destruct (p a).
  - destruct n as [|n].
    + cbn in H. injection H as ->. exists O. split; [reflexivity|].
      intros [|n'] x' H' D; [congruence|]. cbn in H'.
      apply nth_error_In, filter_In in H' as [H' _]. apply In_nth_error in H' as [m' H'].
      exists (S m'). split; auto.
    + cbn in H. destruct (IH _ H) as (m & Hm & K). exists (S m). split; auto.
      intros [|n'] x' H' D.
      * cbn in H'. injection H' as ->. exists O. split; auto.
      * cbn in H'. destruct (K n' x' H') as (m' & Hm' & D'); [congruence|].
        exists (S m'). split; auto.
  - destruct (IH _ H) as (m & Hm & K). exists (S m). split; auto.
    intros n' x' H' D. destruct (K n' x' H' D) as (m' & Hm' & D'). exists (S m'). split; auto.
Qed.

Definition llo_of (s : wire) : Z := match s with WSlice _ _ llo _ _ _ => llo | _ => 0 end.

Lemma zrange_in n i : In i (map Z.of_nat (seq 0 n)) <-> 0 <= i < Z.of_nat n.
Proof.
  rewrite in_map_iff. split.
  - intros (k & <- & H). apply in_seq in H. lia.
  - intros H. exists (Z.to_nat i). split; [lia|]. apply in_seq. lia.
Qed.

Section P.
  Variable S : shapes.
  Let W := s_width S.

  Lemma group_covers l p :
    single_driver W l -> (forall s, In s l -> wire_wf W s) ->
    full S l p = true ->
    forall i, 0 <= i < W (fst p) ->
    exists s, In s l /\ in_pair S p s = true /\ drives W s (fst p) i.
  Proof.
    intros SD WF F i Hi. unfold full in F. apply Z.eqb_eq in F.
    set (grp := filter (in_pair S p) l) in *.
    destruct (existsb (fun s => match s with WSlice _ lhi llo _ _ _ => (llo <=? i) && (i <=? lhi) | _ => false end) grp) eqn:E.
    - apply existsb_exists in E as (s & Hs & E). apply filter_In in Hs as [Hs Hp].
      exists s. split; auto. split; auto. apply in_pair_inv in Hp as (lhi & llo & rhi & rlo & -> & _).
      exists (snd p), (i - llo + rlo). cbn. repeat split; auto; lia.
    - exfalso.
      assert (forall s, In s grp -> exists lhi rhi rlo, s = WSlice (fst p) lhi (llo_of s) (snd p) rhi rlo
                /\ 0 <= llo_of s <= lhi /\ lhi < W (fst p) /\ ~ (llo_of s <= i <= lhi)) as H.
      { intros s Hs. pose proof Hs as Hg. apply filter_In in Hs as [Hs Hp].
        apply in_pair_inv in Hp as (lhi & llo & rhi & rlo & -> & _). cbn.
        pose proof (WF _ Hs) as K. cbn in K.
        exists lhi, rhi, rlo. repeat split; try lia. intros C.
        enough (existsb (fun s => match s with WSlice _ lhi llo _ _ _ => (llo <=? i) && (i <=? lhi) | _ => false end) grp = true) by congruence.
        apply existsb_exists. eexists. split; [exact Hg|]. cbn. lia. }
      assert (NoDup (map llo_of grp)) as ND.
      { apply NoDup_nth_error. intros n m Hn En. rewrite map_length in Hn.
        rewrite !nth_error_map in En.
        destruct (nth_error grp n) as [a|] eqn:Ea; [|apply nth_error_None in Ea; lia].
        destruct (nth_error grp m) as [b|] eqn:Eb; [|discriminate]. cbn in En. injection En as En.
        destruct (Nat.eq_dec m n) as [|D]; [auto|exfalso].
        destruct (filter_nth _ _ _ _ Ea) as (n0 & Hn0 & K).
        destruct (K m b Eb D) as (m0 & Hm0 & D0). apply D0. symmetry.
        destruct (H a (nth_error_In _ _ Ea)) as (h1 & h2 & h3 & Ea' & B1 & _).
        destruct (H b (nth_error_In _ _ Eb)) as (k1 & k2 & k3 & Eb' & B2 & _).
        apply (SD n0 m0 a b (fst p) (llo_of a)); auto.
        - rewrite Ea' at 1. exists (snd p), (llo_of a - llo_of a + h3). cbn. repeat split; auto; lia.
        - rewrite Eb' at 1. exists (snd p), (llo_of a - llo_of b + k3). cbn. repeat split; auto; lia. }
      assert (incl (map llo_of grp) (remove Z.eq_dec i (map Z.of_nat (seq 0 (Z.to_nat (W (fst p))))))) as I.
      { intros z Hz. apply in_map_iff in Hz as (s & <- & Hs).
        destruct (H s Hs) as (h1 & h2 & h3 & _ & B1 & B2 & B3).
        apply in_in_remove; [lia|]. apply zrange_in. lia. }
      pose proof (NoDup_incl_length ND I) as L. rewrite map_length in L.
      assert (length (remove Z.eq_dec i (map Z.of_nat (seq 0 (Z.to_nat (W (fst p))))))
              < length (map Z.of_nat (seq 0 (Z.to_nat (W (fst p))))))%nat as L2.
      { apply remove_length_lt. apply zrange_in. lia. }
      rewrite map_length, seq_length in L2. unfold W in *. lia.
  Qed.

  Lemma merge_wires_connects l :
    single_driver W l -> (forall s, In s l -> wire_wf W s /\ straight s) ->
    forall y i x j, connects W l y i x j <-> connects W (merge_wires S l) y i x j.
  Proof.
    intros SD WF y i x j. unfold merge_wires. set (ps := filter (full S l) (pairs S l)).
    split.
    - intros (s & Hs & C).
      destruct (existsb (fun p => in_pair S p s) ps) eqn:E.
      + apply existsb_exists in E as (p & Hp & E).
        exists (WWhole (fst p) (snd p)). split.
        * apply in_or_app. right. apply in_map_iff. eauto.
        * apply in_pair_inv in E as (lhi & llo & rhi & rlo & -> & _).
          destruct (WF _ Hs) as [K1 K2]. cbn in *. intuition; try lia; subst; lia.
      + exists s. split; auto. apply in_or_app. left. apply filter_In. rewrite E. auto.
    - intros (s & Hs & C). apply in_app_or in Hs as [Hs|Hs].
      + apply filter_In in Hs as [Hs _]. exists s; auto.
      + apply in_map_iff in Hs as (p & <- & Hp). apply filter_In in Hp as [Hp F].
        cbn in C. destruct C as (Ey & Ex & Hi & ->).
        destruct (group_covers l p SD (fun s Hs => proj1 (WF s Hs)) F i Hi) as (s & Hs & Hin & D).
        exists s. split; auto. apply in_pair_inv in Hin as (lhi & llo & rhi & rlo & -> & _).
        destruct D as (x0 & j0 & D). destruct (WF _ Hs) as [K1 K2]. cbn in *.
        intuition; try lia; congruence.
  Qed.
  Lemma merge_wires_others l s :
    (forall a b c d e f, s <> WSlice a b c d e f) ->
    In s l -> In s (merge_wires S l).
  Proof.
    intros H Hs. apply in_or_app. left. apply filter_In. split; auto.
    destruct (existsb _ _) eqn:E; auto. exfalso.
    apply existsb_exists in E as (p & _ & E). apply in_pair_inv in E as (? & ? & ? & ? & -> & _).
    eapply H; reflexivity.
  Qed.
  Lemma merge_wires_others_back l id : In (WOther id) (merge_wires S l) -> In (WOther id) l.
  Proof.
    intros H. apply in_app_or in H as [H|H].
    - now apply filter_In in H.
    - apply in_map_iff in H as (p & E & _). discriminate.
  Qed.
  (* a completely connected pair is merged *)
  Lemma merge_wires_merges l p :
    In p (pairs S l) -> full S l p = true ->
    In (WWhole (fst p) (snd p)) (merge_wires S l)
    /\ forall s, In s (merge_wires S l) -> in_pair S p s = false.
  Proof.
    intros Hp F. split.
    - apply in_or_app. right. apply in_map_iff. exists p. split; auto. apply filter_In; auto.
    - intros s Hs. apply in_app_or in Hs as [Hs|Hs].
      + apply filter_In in Hs as [Hs E]. destruct (in_pair S p s) eqn:I; auto.
        apply negb_true_iff in E. rewrite <- E. symmetry. apply existsb_exists. exists p.
        split; auto. apply filter_In; auto.
      + apply in_map_iff in Hs as (q & <- & _). reflexivity.
  Qed.
End P.

(* blocks of non-blocking assignments *)
From Verif Require Import SV_spec IRSem_spec IR_lemmas Bits.

Definition as_wire (s : stmt) : wire :=
  match s with
  | SAssign _ (LSlice y hi lo) (ESlice (EVar x) hi' lo') => WSlice y hi lo x hi' lo'
  | SAssign _ (LVar y) _ => WWhole y y
  | SAssign _ (LSlice y hi lo) _ => WSlice y hi lo y hi lo
  | _ => WOther 0
  end.
Lemma in_block_pair_wire S p s : in_block_pair S p s = true -> in_pair S p (as_wire s) = true.
Proof.
  unfold in_block_pair, in_pair. destruct s; try discriminate. cbn. destruct l; try discriminate.
  cbn. destruct e; try discriminate. destruct e; try discriminate. auto.
Qed.
Lemma in_block_pair_inv S p s : in_block_pair S p s = true ->
  exists k lhi llo rhi rlo, s = SAssign k (LSlice (fst p) lhi llo) (ESlice (EVar (snd p)) rhi rlo)
     /\ same_shape S (fst p) (snd p) = true.
Proof.
  unfold in_block_pair, block_pair. destruct s; try discriminate. destruct l; try discriminate.
  destruct e; try discriminate. destruct e; try discriminate.
  destruct (same_shape S x x0) eqn:E; [|discriminate].
  destruct (pair_eq_dec (x, x0) p) as [<-|]; [|discriminate]. intros _. cbn. eauto 10.
Qed.

Lemma filter_map {A B} (f : A -> B) (p : B -> bool) l :
  filter p (map f l) = map f (filter (fun x => p (f x)) l).
Proof. induction l; cbn; auto. destruct (p (f a)); cbn; now rewrite IHl. Qed.

Lemma filter_id {A} (p : A -> bool) l : (forall a, In a l -> p a = true) -> filter p l = l.
Proof.
  induction l; intros H; cbn; auto. rewrite H by now left. f_equal. apply IHl. intros. apply H.
  now right.
Qed.

Section B.
  Variable S : shapes.
  Variable G : tenv.
  Hypothesis SW : forall x, s_width S x = d_width (G x).
  Hypothesis PW : forall x, 0 < d_width (G x).

  Local Notation bwf := (bwf G).
  Local Notation bcovers := (bcovers G).
  Local Notation bsingle := (bsingle G).
  Lemma bcovers_write s y i r : bwf s -> (bcovers s y i <-> wcovers (write_of G r s) y i).
  Proof.
    destruct s; cbn; try tauto. destruct k; cbn; try tauto.
    destruct l; cbn; try tauto; unfold wcovers; cbn; intros; split; intros; intuition lia.
  Qed.

  Lemma block_covers l p :
    bsingle l -> Forall bwf l -> In p (block_pairs S l) -> block_full S l p = true ->
    forall i, 0 <= i < d_width (G (fst p)) ->
    exists s, In s l /\ in_block_pair S p s = true /\ bcovers s (fst p) i.
  Proof.
    intros SD WF _ F i Hi. rewrite Forall_forall in WF.
    (* only the members of the group matter *)
    assert (map as_wire (filter (in_block_pair S p) l)
            = filter (in_pair S p) (map as_wire (filter (in_block_pair S p) l))) as E.
    { rewrite filter_map. f_equal. symmetry. apply filter_id.
      intros a Ha. apply filter_In in Ha as [_ Ha]. now apply in_block_pair_wire. }
    destruct (group_covers S (map as_wire (filter (in_block_pair S p) l)) p) with (i := i)
      as (w & Hw & Hp & D).
    - intros n m a b y j Hn Hm (x & k & D) (x' & k' & D').
      rewrite nth_error_map in Hn, Hm.
      destruct (nth_error (filter (in_block_pair S p) l) n) as [u|] eqn:En; [|discriminate].
      destruct (nth_error (filter (in_block_pair S p) l) m) as [v|] eqn:Em; [|discriminate].
      cbn in Hn, Hm. injection Hn as <-. injection Hm as <-.
      destruct (Nat.eq_dec m n) as [|N]; [auto|exfalso].
      destruct (filter_nth _ _ _ _ En) as (n0 & Hn0 & K).
      destruct (K m v Em N) as (m0 & Hm0 & D0). apply D0.
      apply (SD m0 n0 v u y j); auto.
      + apply nth_error_In, filter_In in Em as [_ Em].
        apply in_block_pair_inv in Em as (? & ? & ? & ? & ? & -> & _). cbn in *. tauto.
      + apply nth_error_In, filter_In in En as [_ En].
        apply in_block_pair_inv in En as (? & ? & ? & ? & ? & -> & _). cbn in *. tauto.
    - intros w Hw. apply in_map_iff in Hw as (s & <- & Hs). apply filter_In in Hs as [Hs Hp].
      specialize (WF s Hs). apply in_block_pair_inv in Hp as (k & ? & ? & ? & ? & -> & Hsh).
      cbn in WF |- *. destruct k; try contradiction. rewrite !SW.
      unfold same_shape in Hsh. rewrite !SW in Hsh. lia.
    - unfold full. rewrite <- E, map_length. exact F.
    - now rewrite SW.
    - apply in_map_iff in Hw as (s & <- & Hs). apply filter_In in Hs as [Hs Hq].
      exists s. split; auto. split; auto.
      apply in_block_pair_inv in Hq as (? & ? & ? & ? & ? & -> & _).
      destruct D as (x9 & j9 & D). cbn in *. tauto.
  Qed.

  Lemma bwf_nb s : bwf s -> nb_stmt s.
  Proof. destruct s; cbn; auto. destruct k; auto. destruct l; cbn; tauto. Qed.

  Lemma first_kind_nb l : Forall bwf l -> l <> [] -> first_kind l = NonBlocking.
  Proof.
    intros H N. destruct l as [|s r]; [easy|]. apply Forall_cons_iff in H as [H1 H2].
    destruct s; cbn in H1; try contradiction. destruct k; try contradiction. reflexivity.
  Qed.

  Lemma block_pairs_in l p : In p (block_pairs S l) -> exists s, In s l /\ in_block_pair S p s = true.
  Proof.
    unfold block_pairs. rewrite nodup_In, in_flat_map. intros (s & Hs & H).
    exists s. split; auto. unfold in_block_pair. destruct (block_pair S s); [|destruct H].
    destruct H as [->|[]]. destruct (pair_eq_dec p p); congruence.
  Qed.

  Lemma in_pair_value s p y i r : bwf s -> in_block_pair S p s = true -> bcovers s y i ->
    Z.testbit (w_val (write_of G r s)) (i - w_lo (write_of G r s)) =
    Z.testbit (ev G r (EVar (snd p))) i.
  Proof.
    intros W P C. apply in_block_pair_inv in P as (k & hi & lo & hi' & lo' & -> & _).
    destruct k; cbn in W; try contradiction. destruct W as (B1 & B2 & -> & ->).
    cbn in C. destruct C as [_ C]. cbn [write_of target w_val w_lo ev].
    rewrite Z.mod_pow2_bits_low by lia. rewrite Z.div_pow2_bits by lia. f_equal. lia.
  Qed.

  Lemma merge_block_same l r :
    Forall bwf l -> bsingle l -> forall y, activate G l r y = activate G (merge_block S l) r y.
  Proof.
    intros W SD y.
    set (ps := filter (block_full S l) (block_pairs S l)).
    assert (forall p, In p ps -> SAssign (first_kind (filter (in_block_pair S p) l)) (LVar (fst p)) (EVar (snd p))
              = SAssign NonBlocking (LVar (fst p)) (EVar (snd p))) as FK.
    { intros p Hp. f_equal. apply first_kind_nb.
      - apply Forall_forall. intros s Hs. apply filter_In in Hs as [Hs _].
        now apply (proj1 (Forall_forall _ _) W).
      - apply filter_In in Hp as [Hp _]. apply block_pairs_in in Hp as (s & Hs & Hp).
        intros E. assert (In s (filter (in_block_pair S p) l)) as I by (apply filter_In; auto).
        rewrite E in I. destruct I. }
    assert (Forall bwf (merge_block S l)) as W'.
    { apply Forall_app. split.
      - apply Forall_forall. intros s Hs. apply filter_In in Hs as [Hs _].
        now apply (proj1 (Forall_forall _ _) W).
      - apply Forall_forall. intros s Hs. apply in_map_iff in Hs as (p & <- & Hp).
        fold ps in Hp. rewrite FK by auto. exact I. }
    assert (forall l, Forall bwf l -> Forall (fun u => 0 <= w_lo u /\ 0 <= w_n u) (map (write_of G r) l)) as WW.
    { intros l0 H0. apply Forall_map. eapply Forall_impl; [|exact H0].
      intros s. destruct s; cbn; try tauto. destruct k; cbn; try tauto.
      destruct l1; cbn; try tauto; try lia. }
    rewrite !activate_nb by (eapply Forall_impl; [exact bwf_nb|auto]).
    pose proof (proj1 (Forall_forall _ _) W) as Wf. pose proof (proj1 (Forall_forall _ _) W') as Wf'.
    assert (forall s s' y i, In s l -> In s' l -> bcovers s y i -> bcovers s' y i -> s = s') as U.
    { intros s s' z i Hs Hs' C C'. apply In_nth_error in Hs as [n Hn]. apply In_nth_error in Hs' as [m Hm].
      assert (n = m) as -> by (eapply SD; eauto). congruence. }
    apply writes_same; auto.
    - intros u u' z i Hu Hu' Hi C C'. apply in_map_iff in Hu as (s & <- & Hs).
      apply in_map_iff in Hu' as (s' & <- & Hs').
      apply bcovers_write in C; [|auto]. apply bcovers_write in C'; [|auto].
      apply in_app_or in Hs' as [Hs'|Hs'].
      + apply filter_In in Hs' as [Hs' _]. assert (s = s') as -> by eauto. reflexivity.
      + apply in_map_iff in Hs' as (p & <- & Hp). fold ps in Hp. rewrite FK in * by auto.
        cbn in C'. destruct C' as [<- C'].
        apply filter_In in Hp as [Hp F].
        destruct (block_covers l p SD W Hp F i C') as (s2 & Hs2 & Hp2 & C2).
        assert (s = s2) as -> by eauto.
        rewrite (in_pair_value s2 p (fst p) i r); auto.
        cbn. now rewrite Z.sub_0_r.
    - intros z i Hi. split.
      + intros (u & Hu & C). apply in_map_iff in Hu as (s & <- & Hs).
        apply bcovers_write in C; [|auto].
        destruct (existsb (fun p => in_block_pair S p s) ps) eqn:E.
        * apply existsb_exists in E as (p & Hp & E).
          exists (write_of G r (SAssign NonBlocking (LVar (fst p)) (EVar (snd p)))). split.
          -- apply in_map_iff. eexists. split; [reflexivity|]. apply in_or_app. right.
             apply in_map_iff. exists p. split; auto.
          -- apply in_block_pair_inv in E as (k & hi & lo & hi' & lo' & -> & _).
             specialize (Wf _ Hs). cbn in Wf. destruct k; try contradiction. cbn in C.
             unfold wcovers. cbn. split; [tauto|]. lia.
        * exists (write_of G r s). split.
          -- apply in_map_iff. exists s. split; auto. apply in_or_app. left.
             apply filter_In. fold ps. rewrite E. auto.
          -- now apply bcovers_write; [auto|].
      + intros (u & Hu & C). apply in_map_iff in Hu as (s & <- & Hs).
        apply bcovers_write in C; [|auto].
        apply in_app_or in Hs as [Hs|Hs].
        * apply filter_In in Hs as [Hs _]. exists (write_of G r s). split; [now apply in_map|].
          now apply bcovers_write; [auto|].
        * apply in_map_iff in Hs as (p & <- & Hp). fold ps in Hp. rewrite FK in * by auto.
          cbn in C. destruct C as [<- C]. apply filter_In in Hp as [Hp F].
          destruct (block_covers l p SD W Hp F i C) as (s2 & Hs2 & Hp2 & C2).
          exists (write_of G r s2). split; [now apply in_map|].
          now apply bcovers_write; [auto|].
  Qed.
End B.
