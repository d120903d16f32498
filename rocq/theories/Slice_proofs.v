From Verif Require Import Base Slice_spec Slice_model.
Local Open Scope Z_scope.

Lemma prod_eq l : prod_z l = prod l.
Proof. induction l; cbn; congruence. Qed.
Lemma prod_pos l : Forall (fun d => 0 < d) l -> 0 < prod l.
Proof. induction 1; cbn; lia. Qed.

Definition ok (v : view) : Prop :=
  v_explicit v = false /\ v_size v <> [] /\ Forall (fun d => 0 < d) (v_size v) /\ 0 < v_vw v /\
  ((length (v_size v) > 1)%nat -> last (v_size v) 0 <> 1) /\
  v_high v = v_low v + v_width v - 1 /\
  ((length (v_root v) > 1)%nat -> last (v_root v) 0 <> 1) /\
  (v_slice v = false -> v_low v = 0).

Lemma scalar_inv v : scalar v = true -> v_size v = [1].
Proof.
  unfold scalar. destruct (v_size v) as [|d [|]]; try discriminate. intros H.
  apply Z.eqb_eq in H. now subst.
Qed.
Lemma dims_prod v : ok v -> prod (dims_of v) = prod (v_size v).
Proof.
  intros O. unfold dims_of. destruct (scalar v) eqn:E; auto. apply scalar_inv in E. now rewrite E.
Qed.
Lemma ok_width v : ok v -> r_len (region_of v) = v_width v /\ v_high v - v_low v + 1 = v_width v.
Proof.
  intros O. pose proof (dims_prod v O) as D. destruct O as (_ & _ & _ & _ & _ & H & _).
  unfold r_len. cbn [region_of r_dims r_elem]. rewrite D.
  unfold v_width in H |- *. change prod_z with prod in *. split; [ring|lia].
Qed.
Lemma not_dropped v h l : ok v -> dropped_dim v h l = false.
Proof.
  intros (_ & _ & _ & _ & _ & _ & R & _). unfold dropped_dim.
  destruct (1 <? Z.of_nat (length (v_root v))) eqn:E; [|now rewrite !andb_false_r].
  assert (last (v_root v) 0 <> 1) by (apply R; lia).
  destruct (Z.eqb_spec (last (v_root v) 0) 1); [contradiction|]. now rewrite !andb_false_r.
Qed.
Lemma last_tl (l : list Z) : (length l > 1)%nat -> last (tl l) 0 = last l 0.
Proof. destruct l as [|a [|b r]]; cbn; auto; lia. Qed.

(* ranges are only taken of bits or of the last remaining dimension *)
Definition simple (v : view) (h l : Z) : Prop := h = l \/ length (v_size v) = 1%nat.

Lemma select_ok v h l : ok v -> 0 <= l -> simple v h l ->
  match sel (region_of v) h l with
  | Some g => exists v', select v h l = Ok v' /\ ok v' /\ region_of v' = g
  | None => select v h l = Throw
  end.
Proof.
  intros O Hl S. pose proof O as (Ex & Ne & Fa & Vw & La & Hi & Ro & Sl).
  unfold sel, select. destruct (Z.leb_spec 0 l); [|lia]. cbn [andb region_of r_dims r_elem].
  rewrite Z.gtb_ltb. destruct (Z.ltb_spec h l) as [Lt|Ge].
  { destruct (Z.leb_spec l h); [lia|]. reflexivity. }
  destruct (Z.leb_spec l h); [|lia]. unfold dims_of.
  destruct (scalar v) eqn:Sc.
  - (* bits *)
    apply scalar_inv in Sc as Sz. assert (v_width v = v_vw v) as Ww by (unfold v_width; rewrite Sz; cbn; lia).
    rewrite Ww, Z.geb_leb.
    destruct (Z.ltb_spec h (v_vw v)); destruct (Z.leb_spec (v_vw v) h); try lia; [|reflexivity].
    assert (exists lo hi, (if negb (v_slice v) then (l, h) else (l + v_low v, h + 1 + v_low v - 1)) = (lo, hi)
            /\ lo = v_low v + l /\ hi = v_low v + h) as (lo & hi & E & -> & ->).
    { destruct (v_slice v); cbn; do 2 eexists; (split; [reflexivity|]); [lia|].
      rewrite Sl by auto. lia. }
    eexists. split.
    { unfold make_slice. rewrite (not_dropped v h l O), Sc, Ex. cbn [andb negb obind]. rewrite E. reflexivity. }
    unfold region_of, ok, dims_of, scalar, v_width. cbn.
    repeat split; auto; try lia; try discriminate; try (constructor; [lia|constructor]).
  - (* elements *)
    rewrite Z.geb_leb.
    destruct (v_size v) as [|d ds] eqn:Sz; [congruence|]. cbn [front].
    apply Forall_cons_iff in Fa as [Fd Fds].
    destruct (Z.ltb_spec h d); destruct (Z.leb_spec d h); try lia; [|reflexivity].
    assert (v_width v = v_vw v * (d * prod ds)) as Wd by (unfold v_width; rewrite Sz; cbn; reflexivity).
    unfold make_slice. rewrite (not_dropped v h l O), Sc, Ex, Sz. cbn [andb negb tl].
    change prod_z with prod. set (step := v_vw v * prod ds).
    assert ((if negb (v_slice v) then (l * step, (h + 1) * step - 1)
             else (v_low v + l * step, v_low v + (h + 1) * step - 1))
            = (v_low v + l * step, v_low v + (h + 1) * step - 1)) as E.
    { destruct (v_slice v); cbn; auto. rewrite Sl by auto. now rewrite !Z.add_0_l. }
    destruct (Z.eqb_spec h l) as [->|Nhl].
    + destruct ds as [|d2 ds2].
      * cbn [obind]. rewrite E. eexists. split; [reflexivity|].
        unfold ok, region_of, dims_of, scalar, v_width. cbn -[Z.mul Z.add]. subst step. cbn [prod].
        split; [repeat split; auto; try lia; try discriminate; try (constructor; [lia|constructor])|].
        f_equal. ring.
      * cbn [obind]. rewrite E. eexists. split; [reflexivity|].
        assert (Z.eqb (last (d2 :: ds2) 0) 1 = false) as L2.
        { apply Z.eqb_neq. rewrite <- (last_tl (d :: d2 :: ds2)) in La by (cbn; lia).
          cbn [tl] in La. apply La. cbn. lia. }
        assert (scalar {| v_size := d2 :: ds2; v_vw := v_vw v; v_low := v_low v + l * step;
                  v_high := v_low v + (l + 1) * step - 1; v_slice := true; v_explicit := false;
                  v_dec := Z.of_nat (length (d :: d2 :: ds2)) - Z.of_nat (length (d2 :: ds2)) + v_dec v;
                  v_pdec := v_dec v; v_root := v_root v |} = false) as Sc2.
        { unfold scalar. cbn [v_size]. destruct ds2; auto. }
        split.
        { unfold ok. cbn [v_explicit v_size v_vw v_low v_high v_root v_slice].
          split; auto. split; [discriminate|]. split; auto. split; auto.
          split; [intros _; now apply Z.eqb_neq|].
          split; [|split; [auto|discriminate]].
          unfold v_width. cbn [v_vw v_size]. change prod_z with prod. subst step. lia. }
        unfold region_of, dims_of. rewrite Sc2. cbn [r_off r_elem v_low v_vw v_size]. subst step. cbn [prod]. f_equal. ring.
    + destruct S as [|S]; [congruence|]. rewrite Sz in S. destruct ds as [|]; [|discriminate].
      cbn [set_back removelast app obind]. rewrite E. eexists. split; [reflexivity|].
      assert (Z.eqb (h - l + 1) 1 = false) as L2 by lia.
      unfold ok, region_of, dims_of, scalar, v_width. cbn [v_size v_explicit v_vw v_low v_high v_root v_slice prod_z length].
      rewrite L2. subst step. cbn [prod].
      split; [|f_equal; try ring; f_equal; ring].
      repeat split; auto; try lia; try discriminate; try (constructor; [lia|constructor]).
Qed.

Lemma selects_ok ix : forall v, ok v -> simple_chain (region_of v) ix ->
  match sels (region_of v) ix with
  | Some g => exists v', selects v ix = Ok v' /\ ok v' /\ region_of v' = g
  | None => selects v ix = Throw
  end.
Proof.
  induction ix as [|[h l] r IH]; intros v O S; [cbn; eauto|].
  cbn [simple_chain] in S. destruct S as (Hl & Si & S).
  assert (simple v h l) as Si'.
  { destruct Si as [|Si]; [now left|]. right. destruct O as (_ & Ne & _). cbn in Si. unfold dims_of in Si.
    destruct (scalar v) eqn:E; [apply scalar_inv in E; now rewrite E|].
    destruct (v_size v) as [|? [|]]; cbn in *; congruence || lia || auto. }
  pose proof (select_ok v h l O Hl Si') as K. cbn [sels selects].
  destruct (sel (region_of v) h l) as [g|].
  - destruct K as (v' & -> & O' & <-). cbn [obind]. now apply IH.
  - now rewrite K.
Qed.

(* spec facts: regions stay inside, sizes multiply, full indices are row-major *)
Lemma sel_inside g h l g' : rok g -> sel g h l = Some g' ->
  rok g' /\ r_off g <= r_off g' /\ r_off g' + r_len g' <= r_off g + r_len g.
Proof.
  intros [R1 R2] H. unfold sel in H.
  destruct (Z.leb_spec 0 l); [|discriminate]. destruct (Z.leb_spec l h); [|discriminate]. cbn [andb] in H.
  unfold r_len. destruct (r_dims g) as [|d ds] eqn:E.
  - destruct (Z.ltb_spec h (r_elem g)); [|discriminate]. injection H as <-. cbn [r_off r_dims r_elem prod]. split; [split; [constructor|cbn; lia]|]. lia.
  - destruct (Z.ltb_spec h d); [|discriminate]. injection H as <-. cbn [r_off r_dims r_elem prod].
    apply Forall_cons_iff in R1 as [Rd Rds]. pose proof (prod_pos _ Rds) as P.
    destruct (Z.eqb_spec h l) as [->|].
    + split; [split; auto|]. nia.
    + split; [split; auto; constructor; auto; cbn; lia|]. cbn [prod].
      replace ((h - l + 1) * prod ds * r_elem g) with ((h + 1) * (prod ds * r_elem g) - l * (prod ds * r_elem g)) by ring.
      assert (0 < prod ds * r_elem g) by nia. set (s := prod ds * r_elem g) in *. 
      replace (d * prod ds * r_elem g) with (d * s) by (subst s; ring). nia.
Qed.
Lemma sels_inside ix : forall g g', rok g -> sels g ix = Some g' ->
  rok g' /\ r_off g <= r_off g' /\ r_off g' + r_len g' <= r_off g + r_len g.
Proof.
  induction ix as [|[h l] r IH]; intros g g' R H; cbn in H; [injection H as <-; split; auto; lia|].
  destruct (sel g h l) as [g1|] eqn:E; [|discriminate].
  destruct (sel_inside _ _ _ _ R E) as (R1 & A & B). destruct (IH _ _ R1 H) as (R2 & A2 & B2).
  split; auto. lia.
Qed.
Lemma sels_full idx : forall g, Forall2 (fun d i => 0 <= i < d) (r_dims g) idx ->
  sels g (map (fun i => (i, i)) idx)
  = Some {| r_off := r_off g + linear (r_dims g) idx * r_elem g; r_dims := []; r_elem := r_elem g |}.
Proof.
  induction idx as [|i r IH]; intros [off dims w] H; cbn [r_dims r_off r_elem] in *.
  - inversion H; subst. cbn. do 2 f_equal. lia.
  - inversion H as [|d ? ds ? Hd Hds]; subst. cbn [map sels]. unfold sel. cbn [r_dims r_off r_elem].
    destruct (Z.leb_spec 0 i); [|lia]. rewrite Z.leb_refl. cbn [andb].
    destruct (Z.ltb_spec i d); [|lia]. rewrite Z.eqb_refl. rewrite IH by exact Hds.
    cbn [r_dims r_off r_elem linear]. do 2 f_equal. ring.
Qed.
Lemma declare_ok size w : size <> [] -> Forall (fun d => 0 < d) size -> 0 < w ->
  ((length size > 1)%nat -> last size 0 <> 1) -> ok (declare size w false).
Proof.
  intros N F W L. unfold ok. cbn. repeat split; auto.
Qed.
