(* Proofs about the constant evaluator. *)
From Verif Require Import Base SV_spec Eval_model.
Local Open Scope Z_scope.

Lemma mask_ones : UINT64_MASK = Z.ones 64.
Proof. reflexivity. Qed.

Lemma pow_lt_64 w : 0 <= w <= 64 -> 2 ^ w <= 2 ^ 64.
Proof. intros H; apply Z.pow_le_mono_r; lia. Qed.

Lemma pow_pos w : 0 <= w -> 0 < 2 ^ w.
Proof. intros H; apply Z.pow_pos_nonneg; lia. Qed.

Lemma low_mask_ok w : 1 <= w <= 64 -> low_mask w = Ok (Z.ones w).
Proof.
  intros H. unfold low_mask, shr64, u32.
  rewrite Z.mod_small by lia.
  replace ((0 <=? 64 - w) && (64 - w <? 64)) with true by lia.
  f_equal. rewrite mask_ones. rewrite Z.ones_equiv, Z.shiftr_div_pow2 by lia.
  apply Z.bits_inj'; intros i Hi.
  rewrite <- Z.shiftr_div_pow2 by lia. rewrite Z.shiftr_spec by lia.
  rewrite <- Z.ones_equiv, !Z.testbit_ones by lia. lia.
Qed.

Lemma land_ones_mod v w : 0 <= w -> Z.land v (Z.ones w) = v mod 2 ^ w.
Proof. apply Z.land_ones. Qed.

Lemma mod_mod_pow a w : 0 <= w <= 64 -> (a mod 2 ^ 64) mod 2 ^ w = a mod 2 ^ w.
Proof.
  intros H.
  replace (2 ^ 64) with (2 ^ w * 2 ^ (64 - w)).
  - pose proof (pow_pos w ltac:(lia)). pose proof (pow_pos (64 - w) ltac:(lia)).
    rewrite Z.rem_mul_r by lia.
    rewrite (Z.mul_comm (2 ^ w) (_ mod _)), Z.mod_add by lia.
    apply Z.mod_mod; lia.
  - rewrite <- Z.pow_add_r by lia. f_equal; lia.
Qed.

Lemma u64_mod a w : 0 <= w <= 64 -> u64 a mod 2 ^ w = a mod 2 ^ w.
Proof. intros; unfold u64; now apply mod_mod_pow. Qed.

Lemma not64_sub v : 0 <= v < 2 ^ 64 -> not64 v = 2 ^ 64 - 1 - v.
Proof.
  intros H. unfold not64. rewrite mask_ones.
  transitivity (Z.ones 64 - v); [|rewrite Z.ones_equiv; lia].
  rewrite Z.sub_nocarry_ldiff.
  - apply Z.bits_inj'; intros i Hi.
    rewrite Z.lxor_spec, Z.ldiff_spec, Z.testbit_ones by lia.
    replace (0 <=? i) with true by lia. cbn [andb].
    destruct (Z.ltb_spec i 64) as [L|L]; [destruct (Z.testbit v i); reflexivity|].
    rewrite (Z.bits_above_log2 v i); [reflexivity|lia|].
    destruct (Z.eq_dec v 0) as [->|]; [simpl; lia|].
    apply Z.log2_lt_pow2; [lia|].
    apply Z.lt_le_trans with (2 ^ 64); [lia|apply Z.pow_le_mono_r; lia].
  - apply Z.bits_inj'; intros i Hi.
    rewrite Z.ldiff_spec, Z.testbit_ones, Z.bits_0 by lia.
    replace (0 <=? i) with true by lia. cbn [andb].
    destruct (Z.ltb_spec i 64) as [L|L]; [destruct (Z.testbit v i); reflexivity|].
    rewrite (Z.bits_above_log2 v i); [reflexivity|lia|].
    destruct (Z.eq_dec v 0) as [->|]; [simpl; lia|].
    apply Z.log2_lt_pow2; [lia|].
    apply Z.lt_le_trans with (2 ^ 64); [lia|apply Z.pow_le_mono_r; lia].
Qed.

Lemma high_mask w : 0 <= w < 64 -> shl64 UINT64_MASK w = Ok (2 ^ 64 - 2 ^ w).
Proof.
  intros H. unfold shl64, u64.
  replace ((0 <=? w) && (w <? 64)) with true by lia. f_equal.
  rewrite Z.shiftl_mul_pow2 by lia. unfold UINT64_MASK.
  replace ((2 ^ 64 - 1) * 2 ^ w) with ((2 ^ 64 - 2 ^ w) + (2 ^ w - 1) * 2 ^ 64) by ring.
  rewrite Z.mod_add by lia. apply Z.mod_small.
  pose proof (pow_lt_64 w ltac:(lia)). pose proof (pow_pos w ltac:(lia)). lia.
Qed.

Lemma lxor_high_mod a w : 0 <= w -> Z.lxor a (2 ^ 64 - 2 ^ w) mod 2 ^ w = a mod 2 ^ w
  \/ w > 64.
Proof.
  intros H. destruct (Z_le_gt_dec w 64) as [L|L]; [left|right; lia].
  apply Z.bits_inj'; intros i Hi.
  destruct (Z.ltb_spec i w) as [Li|Li].
  - rewrite !Z.mod_pow2_bits_low by lia. rewrite Z.lxor_spec.
    replace (2 ^ 64 - 2 ^ w) with (Z.shiftl (2 ^ (64 - w) - 1) w).
    + rewrite Z.shiftl_spec by lia. rewrite (Z.testbit_neg_r _ (i - w)) by lia.
      apply xorb_false_r.
    + rewrite Z.shiftl_mul_pow2 by lia. rewrite Z.mul_sub_distr_r, <- Z.pow_add_r by lia.
      replace (64 - w + w) with 64 by lia. lia.
  - rewrite !Z.mod_pow2_bits_high by lia. reflexivity.
Qed.

Lemma invert_mod v w : 0 <= v < 2 ^ 64 -> 0 <= w < 64 ->
  exists i, invert v w = Ok i /\ i mod 2 ^ w = (- v - 1) mod 2 ^ w.
Proof.
  intros Hv Hw. unfold invert. rewrite high_mask by lia. cbn [obind].
  eexists; split; [reflexivity|].
  destruct (lxor_high_mod (not64 v) w ltac:(lia)) as [E|]; [|lia].
  rewrite E. rewrite not64_sub by lia.
  replace (2 ^ 64 - 1 - v) with ((- v - 1) + 2 ^ (64 - w) * 2 ^ w).
  - apply Z.mod_add. pose proof (pow_pos w ltac:(lia)); lia.
  - rewrite <- Z.pow_add_r by lia. replace (64 - w + w) with 64 by lia. lia.
Qed.

Lemma fits_testbit_high w v i : 0 <= w -> fits w v -> w <= i -> Z.testbit v i = false.
Proof.
  intros Hw [H0 H1] Hi. destruct (Z.eq_dec v 0) as [->|]; [apply Z.bits_0|].
  apply Z.bits_above_log2; [lia|].
  apply Z.log2_lt_pow2; [lia|]. apply Z.lt_le_trans with (2 ^ w); [lia|].
  apply Z.pow_le_mono_r; lia.
Qed.

Lemma sub_ones_bits w v : 0 <= w -> fits w v -> forall i, 0 <= i ->
  Z.testbit (2 ^ w - 1 - v) i = (i <? w) && negb (Z.testbit v i).
Proof.
  intros Hw Hv i Hi.
  replace (2 ^ w - 1 - v) with (Z.ones w - v) by (rewrite Z.ones_equiv; lia).
  rewrite Z.sub_nocarry_ldiff.
  - rewrite Z.ldiff_spec, Z.testbit_ones by lia. replace (0 <=? i) with true by lia.
    reflexivity.
  - apply Z.bits_inj'; intros j Hj. rewrite Z.ldiff_spec, Z.testbit_ones, Z.bits_0 by lia.
    replace (0 <=? j) with true by lia. cbn [andb].
    destruct (Z.ltb_spec j w) as [L|L]; [destruct (Z.testbit v j); reflexivity|].
    rewrite (fits_testbit_high w v j) by (assumption || lia). reflexivity.
Qed.

Lemma invert_ok v w : 1 <= w <= 63 -> fits w v -> invert v w = Ok (2 ^ w - 1 - v).
Proof.
  intros Hw Hv. unfold invert. rewrite high_mask by lia. cbn [obind]. f_equal.
  assert (Hv64 : 0 <= v < 2 ^ 64)
    by (destruct Hv; pose proof (pow_lt_64 w ltac:(lia)); lia).
  rewrite not64_sub by assumption.
  apply Z.bits_inj'; intros i Hi. rewrite Z.lxor_spec.
  rewrite (sub_ones_bits 64 v) by (unfold fits; lia).
  rewrite (sub_ones_bits w v) by (assumption || lia).
  replace (2 ^ 64 - 2 ^ w) with (2 ^ 64 - 1 - (2 ^ w - 1)) by lia.
  assert (Hp : fits 64 (2 ^ w - 1)).
  { unfold fits. pose proof (pow_lt_64 w ltac:(lia)); pose proof (pow_pos w ltac:(lia)); lia. }
  rewrite (sub_ones_bits 64 _) by (assumption || lia).
  replace (2 ^ w - 1) with (Z.ones w) by (rewrite Z.ones_equiv; lia).
  rewrite Z.testbit_ones by lia. replace (0 <=? i) with true by lia. cbn [andb].
  destruct (Z.ltb_spec i w) as [L|L].
  - replace (i <? 64) with true by lia. destruct (Z.testbit v i); reflexivity.
  - rewrite (fits_testbit_high w v i) by (assumption || lia).
    destruct (i <? 64); reflexivity.
Qed.

Lemma two_complement_ok v w : 0 <= v < 2 ^ 64 -> 1 <= w <= 63 ->
  two_complement v w = Ok (enc w (- v)).
Proof.
  intros Hv Hw. unfold two_complement.
  destruct (invert_mod v w Hv ltac:(lia)) as (i & -> & E). cbn [obind].
  rewrite low_mask_ok by lia. cbn [obind]. f_equal.
  rewrite land_ones_mod by lia. rewrite u64_mod by lia.
  unfold enc. pose proof (pow_pos w ltac:(lia)).
  rewrite <- Z.add_mod_idemp_l by lia. rewrite E. rewrite Z.add_mod_idemp_l by lia.
  f_equal; lia.
Qed.

(* Undefined behaviour of the helpers, exactly *)
Lemma invert_UB v w : 64 <= w -> invert v w = UB.
Proof.
  intros H. unfold invert, shl64. replace ((0 <=? w) && (w <? 64)) with false by lia.
  reflexivity.
Qed.
Lemma low_mask_UB w : 0 <= w < 2 ^ 32 -> (low_mask w = UB <-> w = 0 \/ w > 64).
Proof.
  intros H. split.
  - intros E. destruct (Z_le_gt_dec w 64); [|right; lia].
    destruct (Z.eq_dec w 0); [left; assumption|].
    rewrite low_mask_ok in E by lia. discriminate.
  - intros [->| G]; [reflexivity|]. unfold low_mask, shr64, u32.
    replace ((64 - w) mod 2 ^ 32) with (64 - w + 2 ^ 32).
    + replace ((0 <=? 64 - w + 2 ^ 32) && (64 - w + 2 ^ 32 <? 64)) with false by lia.
      reflexivity.
    + apply Z.mod_unique_pos with (-1); lia.
Qed.

Lemma fits_64 w v : 0 <= w <= 64 -> fits w v -> 0 <= v < 2 ^ 64.
Proof. intros Hw [H0 H1]; pose proof (pow_lt_64 w ltac:(lia)); lia. Qed.

Lemma half w : 1 <= w -> 2 ^ w = 2 * 2 ^ (w - 1).
Proof. intros H. replace w with (Z.succ (w - 1)) at 1 by lia. apply Z.pow_succ_r; lia. Qed.

Lemma is_negative_ok s v w : 1 <= w <= 64 -> fits w v ->
  is_negative s v w = Ok (num s w v <? 0).
Proof.
  intros Hw Hv. unfold is_negative, num. pose proof (half w ltac:(lia)) as Hh.
  pose proof (pow_pos (w - 1) ltac:(lia)). destruct Hv as [Hv0 Hv1].
  destruct s.
  - unfold u32. rewrite Z.mod_small by lia. unfold shr64.
    replace ((0 <=? w - 1) && (w - 1 <? 64)) with true by lia. cbn [obind]. f_equal.
    rewrite Z.shiftr_div_pow2 by lia. unfold sval.
    destruct (Z.ltb_spec v (2 ^ (w - 1))) as [L|L].
    + rewrite Z.div_small by lia. lia.
    + assert (v / 2 ^ (w - 1) = 1) as ->; [|lia].
      symmetry. apply Z.div_unique with (v - 2 ^ (w - 1)); lia.
  - f_equal. lia.
Qed.

Lemma abs_value_ok (s : bool) v w : 1 <= w <= (if s then 63 else 64) -> fits w v ->
  abs_value (num s w v <? 0) v w = Ok (Z.abs (num s w v)).
Proof.
  intros Hw Hv. assert (Hw' : 1 <= w <= 64) by (destruct s; lia).
  pose proof (fits_64 w v ltac:(lia) Hv) as Hv64. destruct Hv as [Hv0 Hv1].
  unfold abs_value, num. destruct s.
  - unfold sval. pose proof (half w ltac:(lia)) as Hh.
    destruct (Z.ltb_spec v (2 ^ (w - 1))) as [L|L].
    + replace (v <? 0) with false by lia. f_equal; lia.
    + replace (v - 2 ^ w <? 0) with true by lia.
      rewrite two_complement_ok by lia. f_equal. unfold enc.
      replace (- v) with (2 ^ w - v + (-1) * 2 ^ w) by lia.
      rewrite Z.mod_add by lia. rewrite Z.mod_small by lia. lia.
  - replace (v <? 0) with false by lia. f_equal; lia.
Qed.

Lemma sign_bit_ok b w : 1 <= w <= 64 ->
  shl64 (b2z b) (u32 (w - 1)) = Ok (if b then 2 ^ (w - 1) else 0).
Proof.
  intros Hw. unfold u32. rewrite Z.mod_small by lia. unfold shl64.
  replace ((0 <=? w - 1) && (w - 1 <? 64)) with true by lia. f_equal.
  rewrite Z.shiftl_mul_pow2 by lia. unfold u64.
  destruct b; cbn [b2z]; [|reflexivity].
  rewrite Z.mul_1_l. apply Z.mod_small.
  pose proof (pow_pos (w - 1) ltac:(lia)).
  assert (2 ^ (w - 1) < 2 ^ 64) by (apply Z.pow_lt_mono_r; lia). lia.
Qed.

(* The evaluator in terms of the numbers its operands stand for. *)
Lemma eval_bin_op_unfold pw l r op w (s : bool) :
  1 <= w <= (if s then 63 else 64) -> fits w l -> fits w r ->
  eval_bin_op pw l r op w s =
  olet x := bin_switch pw l r (Z.abs (num s w l)) (Z.abs (num s w r))
              (num s w l <? 0) (num s w r <? 0)
              (if xorb (num s w l <? 0) (num s w r <? 0) then 2 ^ (w - 1) else 0)
              (Z.ones w) op w in
  Ok (enc w x).
Proof.
  intros Hw Hl Hr. assert (Hw' : 1 <= w <= 64) by (destruct s; lia).
  unfold eval_bin_op.
  rewrite (is_negative_ok s l w), (is_negative_ok s r w) by assumption. cbn [obind].
  rewrite (abs_value_ok s l w), (abs_value_ok s r w) by assumption. cbn [obind].
  rewrite sign_bit_ok by assumption. cbn [obind].
  rewrite low_mask_ok by assumption. cbn [obind].
  destruct (bin_switch _ _ _ _ _ _ _ _ _ _ _) as [x| |]; cbn [obind]; try reflexivity.
  rewrite land_ones_mod by lia. reflexivity.
Qed.

Lemma num_enc s w v : 1 <= w -> fits w v -> enc w (num s w v) = v.
Proof.
  intros Hw [H0 H1]. unfold enc, num, sval. destruct s; [|apply Z.mod_small; lia].
  destruct (v <? 2 ^ (w - 1)); [apply Z.mod_small; lia|].
  replace (v - 2 ^ w) with (v + (-1) * 2 ^ w) by lia.
  rewrite Z.mod_add by lia. apply Z.mod_small; lia.
Qed.

Lemma enc_eq_mod w a b : enc w a = enc w b -> a mod 2 ^ w = b mod 2 ^ w.
Proof. intros H; exact H. Qed.

Lemma enc_idem w z : 0 <= w -> enc w (enc w z) = enc w z.
Proof. intros; unfold enc; apply Z.mod_mod; pose proof (pow_pos w ltac:(lia)); lia. Qed.

Lemma enc_add w a b : 0 <= w -> enc w (enc w a + enc w b) = enc w (a + b).
Proof.
  intros; unfold enc; symmetry; apply Z.add_mod; pose proof (pow_pos w ltac:(lia)); lia.
Qed.
Lemma enc_sub w a b : 0 <= w -> enc w (enc w a - enc w b) = enc w (a - b).
Proof.
  intros; unfold enc; symmetry; apply Zminus_mod.
Qed.
Lemma enc_opp w a : 0 <= w -> enc w (- enc w a) = enc w (- a).
Proof.
  intros. replace (- enc w a) with (enc w 0 - enc w a).
  - rewrite enc_sub by lia. f_equal; lia.
  - unfold enc. rewrite Z.mod_0_l; [lia|]. pose proof (pow_pos w ltac:(lia)); lia.
Qed.
Lemma enc_u64 w a : 0 <= w <= 64 -> enc w (u64 a) = enc w a.
Proof. intros; unfold enc; now apply u64_mod. Qed.

Lemma abs_bound s w v : 1 <= w -> fits w v -> 0 <= Z.abs (num s w v) < 2 ^ w.
Proof.
  intros Hw [H0 H1]. pose proof (half w Hw). pose proof (pow_pos (w - 1) ltac:(lia)).
  unfold num, sval. destruct s; [destruct (Z.ltb_spec v (2 ^ (w - 1)))|]; lia.
Qed.

(* C01 / C02: arithmetic *)
Lemma arith_correct pw op (s : bool) w l r z :
  1 <= w <= (if s then 63 else 64) -> fits w l -> fits w r ->
  arith_spec op (num s w l) (num s w r) z ->
  eval_bin_op pw l r op w s = Ok (enc w z).
Proof.
  intros Hw Hl Hr Hz. assert (Hw' : 1 <= w <= 64) by (destruct s; lia).
  rewrite eval_bin_op_unfold by assumption.
  remember (num s w l) as a eqn:Ha. remember (num s w r) as b eqn:Hb.
  assert (El : l = enc w a) by (subst a; now rewrite num_enc by (assumption || lia)).
  assert (Er : r = enc w b) by (subst b; now rewrite num_enc by (assumption || lia)).
  pose proof (abs_bound s w l ltac:(lia) Hl) as Ba. rewrite <- Ha in Ba.
  pose proof (abs_bound s w r ltac:(lia) Hr) as Bb. rewrite <- Hb in Bb.
  pose proof (pow_pos (w - 1) ltac:(lia)) as Hp1.
  pose proof (pow_lt_64 w ltac:(lia)) as Hp2.
  pose proof (pow_pos w ltac:(lia)) as Hp3.
  inversion Hz; subst op a0 b0 z; cbn [bin_switch obind].
  - f_equal. rewrite enc_u64 by lia. rewrite El, Er at 1. apply enc_add; lia.
  - f_equal. rewrite land_ones_mod by lia. fold (enc w (u64 (l - r))).
    rewrite enc_idem by lia. rewrite enc_u64 by lia. rewrite El, Er at 1. apply enc_sub; lia.
  - destruct (xorb (a <? 0) (b <? 0)) eqn:X.
    + replace (negb (2 ^ (w - 1) =? 0)) with true by lia.
      assert (Hs : s = true).
      { destruct s; [reflexivity|]. unfold num in Ha, Hb. destruct Hl, Hr.
        assert ((a <? 0) = false) as E1 by lia. assert ((b <? 0) = false) as E2 by lia.
        rewrite E1, E2 in X; discriminate. }
      subst s. rewrite two_complement_ok by (unfold u64; first [lia | apply Z.mod_pos_bound; lia]).
      cbn [obind]. f_equal. rewrite enc_idem by lia.
      rewrite <- enc_opp by lia. rewrite enc_u64 by lia. rewrite enc_opp by lia.
      f_equal. destruct (Z.ltb_spec a 0); destruct (Z.ltb_spec b 0); cbn in X; try discriminate.
      * rewrite (Z.abs_neq a), (Z.abs_eq b) by lia. ring.
      * rewrite (Z.abs_eq a), (Z.abs_neq b) by lia. ring.
    + cbn [negb Z.eqb obind]. f_equal. rewrite enc_u64 by lia. f_equal.
      destruct (Z.ltb_spec a 0); destruct (Z.ltb_spec b 0); cbn in X; try discriminate.
      * rewrite (Z.abs_neq a), (Z.abs_neq b) by lia. ring.
      * rewrite (Z.abs_eq a), (Z.abs_eq b) by lia. ring.
  - replace (Z.abs b =? 0) with false by lia.
    rewrite (Z.quot_div a b) by assumption.
    assert (Hq : 0 <= Z.abs a / Z.abs b < 2 ^ w).
    { split; [apply Z.div_pos; lia|].
      apply Z.le_lt_trans with (Z.abs a); [|lia].
      destruct (Z.eq_dec (Z.abs a) 0) as [E0|N0]; [rewrite E0, Z.div_0_l; lia|].
      destruct (Z.eq_dec (Z.abs b) 1) as [->|N1]; [rewrite Z.div_1_r; lia|].
      apply Z.lt_le_incl, Z.div_lt; lia. }
    destruct (xorb (a <? 0) (b <? 0)) eqn:X.
    + replace (negb (2 ^ (w - 1) =? 0)) with true by lia.
      assert (Hs : s = true).
      { destruct s; [reflexivity|]. unfold num in Ha, Hb. destruct Hl, Hr.
        assert ((a <? 0) = false) as E1 by lia. assert ((b <? 0) = false) as E2 by lia.
        rewrite E1, E2 in X; discriminate. }
      subst s. rewrite two_complement_ok by lia. cbn [obind]. f_equal.
      rewrite enc_idem by lia. f_equal.
      destruct (Z.ltb_spec a 0); destruct (Z.ltb_spec b 0); cbn in X; try discriminate.
      * rewrite (Z.sgn_neg a), (Z.sgn_pos b) by lia. ring.
      * destruct (Z.eq_dec a 0) as [->|N0].
        { cbn [Z.abs]. rewrite Z.div_0_l by lia. cbn. ring. }
        rewrite (Z.sgn_pos a), (Z.sgn_neg b) by lia. ring.
    + cbn [negb Z.eqb obind]. f_equal. f_equal.
      destruct (Z.ltb_spec a 0); destruct (Z.ltb_spec b 0); cbn in X; try discriminate.
      * rewrite (Z.sgn_neg a), (Z.sgn_neg b) by lia. ring.
      * destruct (Z.eq_dec a 0) as [->|N0].
        { cbn [Z.abs]. rewrite Z.div_0_l by lia. cbn. ring. }
        rewrite (Z.sgn_pos a), (Z.sgn_pos b) by lia. ring.
Qed.

(* signed, width 64: two_complement shifts by 64 *)
Lemma two_complement_64_UB v : two_complement v 64 = UB.
Proof. unfold two_complement. rewrite invert_UB by lia. reflexivity. Qed.

Lemma signed_64_UB pw op l r : fits 64 l -> fits 64 r ->
  sval 64 l < 0 \/ sval 64 r < 0 -> eval_bin_op pw l r op 64 true = UB.
Proof.
  intros Hl Hr Hn. unfold eval_bin_op.
  rewrite (is_negative_ok true l 64), (is_negative_ok true r 64) by (assumption || lia).
  cbn [obind num]. unfold abs_value.
  destruct (sval 64 l <? 0) eqn:E1; [rewrite two_complement_64_UB; reflexivity|].
  replace (sval 64 r <? 0) with true by lia. cbn [obind].
  rewrite two_complement_64_UB. reflexivity.
Qed.

Lemma div_zero_UB pw s w l : 1 <= w <= (if s : bool then 63 else 64) -> fits w l ->
  eval_bin_op pw l 0 Divide w s = UB.
Proof.
  intros Hw Hl. assert (Hw' : 1 <= w <= 64) by (destruct s; lia).
  pose proof (pow_pos (w - 1) ltac:(lia)). pose proof (pow_pos w ltac:(lia)).
  rewrite eval_bin_op_unfold by (unfold fits; assumption || lia).
  assert (E : num s w 0 = 0).
  { unfold num, sval. destruct s; [|reflexivity].
    replace (0 <? 2 ^ (w - 1)) with true by lia. reflexivity. }
  rewrite E. reflexivity.
Qed.

(* bitwise *)
Lemma enc_small w v : fits w v -> enc w v = v.
Proof. intros [H0 H1]; unfold enc; apply Z.mod_small; lia. Qed.

Lemma enc_bits w z i : 0 <= w -> 0 <= i ->
  Z.testbit (enc w z) i = (i <? w) && Z.testbit z i.
Proof.
  intros Hw Hi. unfold enc. destruct (Z.ltb_spec i w).
  - rewrite Z.mod_pow2_bits_low by lia. reflexivity.
  - rewrite Z.mod_pow2_bits_high by lia. reflexivity.
Qed.

Lemma enc_fits w z : 0 <= w -> fits w (enc w z).
Proof. intros; unfold fits, enc; apply Z.mod_pos_bound; apply pow_pos; lia. Qed.

Lemma bitwise_correct pw op f s w l r :
  1 <= w <= (if s : bool then 63 else 64) -> fits w l -> fits w r ->
  bit_spec op = Some f ->
  exists v, eval_bin_op pw l r op w s = Ok v /\ fits w v /\
    forall i, 0 <= i < w -> Z.testbit v i = f (Z.testbit l i) (Z.testbit r i).
Proof.
  intros Hw Hl Hr Hf. assert (Hw' : 1 <= w <= 64) by (destruct s; lia).
  rewrite eval_bin_op_unfold by assumption.
  destruct op; cbn [bit_spec] in Hf; try discriminate; injection Hf as <-;
    cbn [bin_switch obind]; eexists; (split; [reflexivity|split;[apply enc_fits; lia|]]);
    intros i Hi; rewrite enc_bits by lia; replace (i <? w) with true by lia; cbn [andb].
  - apply Z.lor_spec.
  - apply Z.land_spec.
  - apply Z.lxor_spec.
Qed.

(* relational *)
Lemma num_inj s w a b : 1 <= w -> fits w a -> fits w b -> num s w a = num s w b -> a = b.
Proof.
  intros Hw Ha Hb E. rewrite <- (num_enc s w a), <- (num_enc s w b) by assumption.
  now rewrite E.
Qed.

Definition rel_result (op : expr_op) (a b : Z) : option bool :=
  match op with
  | LessThan => Some (a <? b)
  | LessEqThan => Some (a <=? b)
  | GreaterThan => Some (a >? b)
  | GreaterEqThan => Some (a >=? b)
  | Eq => Some (a =? b)
  | _ => None
  end.

Lemma rel_result_spec op a b t : rel_result op a b = Some t ->
  exists P, rel_spec op a b = Some P /\ (t = true <-> P).
Proof.
  destruct op; cbn; intros H; try discriminate; injection H as <-;
    eexists; (split; [reflexivity|]); lia.
Qed.

Lemma enc_b2z w b : 1 <= w -> enc w (b2z b) = b2z b.
Proof.
  intros Hw. apply enc_small. unfold fits. pose proof (half w Hw).
  pose proof (pow_pos (w - 1) ltac:(lia)). destruct b; cbn [b2z]; lia.
Qed.

Lemma relational_value pw op s w l r t :
  1 <= w <= (if s : bool then 63 else 64) -> fits w l -> fits w r ->
  rel_result op (num s w l) (num s w r) = Some t ->
  eval_bin_op pw l r op w s =
    Ok (b2z (if (num s w l <? 0) && (l =? r) && negb (expr_op_eqb op Eq)
             then negb t else t)).
Proof.
  intros Hw Hl Hr Ht. assert (Hw' : 1 <= w <= 64) by (destruct s; lia).
  rewrite eval_bin_op_unfold by assumption.
  assert (Hlr : (l =? r) = (num s w l =? num s w r)).
  { destruct (Z.eqb_spec l r) as [->|N]; [lia|].
    symmetry; apply Z.eqb_neq; intros E; apply N, (num_inj s w); assumption || lia. }
  remember (num s w l) as a eqn:Ha. remember (num s w r) as b eqn:Hb.
  destruct op; cbn [rel_result] in Ht; try discriminate; injection Ht as <-;
    cbn [bin_switch obind expr_op_eqb]; rewrite Hlr;
    try (rewrite andb_true_r || idtac);
    unfold relational; rewrite enc_b2z by lia; f_equal; f_equal;
    unfold expr_op_eqb; cbn [expr_op_eq_dec];
    try (destruct (expr_op_eq_dec _ _); try discriminate);
    cbn [negb]; rewrite ?andb_true_r, ?andb_false_r; try reflexivity;
    destruct (Z.ltb_spec a 0); destruct (Z.ltb_spec b 0); cbn [andb negb];
    destruct (Z.eqb_spec a b); cbn [andb negb]; rewrite ?xorb_true_r, ?xorb_false_r; try lia; congruence.
Qed.

(* logical shift right *)
Lemma lshr_correct pw s w l r :
  1 <= w <= (if s : bool then 63 else 64) -> fits w l -> fits w r -> r < 64 ->
  eval_bin_op pw l r LogicalShiftRight w s = Ok (l / 2 ^ r).
Proof.
  intros Hw Hl Hr Hr64. assert (Hw' : 1 <= w <= 64) by (destruct s; lia).
  rewrite eval_bin_op_unfold by assumption. cbn [bin_switch].
  destruct Hl as [Hl0 Hl1]; destruct Hr as [Hr0 Hr1]. unfold shr64.
  replace ((0 <=? r) && (r <? 64)) with true by lia. cbn [obind]. f_equal.
  rewrite Z.shiftr_div_pow2 by lia. apply enc_small. unfold fits.
  pose proof (pow_pos r ltac:(lia)). split; [apply Z.div_pos; lia|].
  apply Z.le_lt_trans with l; [|lia].
  destruct (Z.eq_dec l 0) as [->|]; [rewrite Z.div_0_l; lia|].
  apply Z.div_le_upper_bound; [lia|]. nia.
Qed.

Lemma shr_big_UB pw s w l r op :
  1 <= w <= (if s : bool then 63 else 64) -> fits w l -> fits w r -> 64 <= r ->
  op = LogicalShiftRight \/ op = SignedShiftRight ->
  eval_bin_op pw l r op w s = UB.
Proof.
  intros Hw Hl Hr Hr64 Hop. rewrite eval_bin_op_unfold by assumption.
  assert (E : forall v, shr64 v r = UB).
  { intros v; unfold shr64. replace ((0 <=? r) && (r <? 64)) with false by lia. reflexivity. }
  destruct Hop as [-> | ->]; cbn [bin_switch]; rewrite E; reflexivity.
Qed.

Lemma ashr_nonneg pw s w l r :
  1 <= w <= (if s : bool then 63 else 64) -> fits w l -> fits w r -> r < 64 ->
  0 <= num s w l ->
  eval_bin_op pw l r SignedShiftRight w s = Ok (num s w l / 2 ^ r).
Proof.
  intros Hw Hl Hr Hr64 Hn. assert (Hw' : 1 <= w <= 64) by (destruct s; lia).
  rewrite eval_bin_op_unfold by assumption. cbn [bin_switch].
  pose proof (abs_bound s w l ltac:(lia) Hl) as Ba.
  destruct Hl as [Hl0 Hl1]; destruct Hr as [Hr0 Hr1]. unfold shr64.
  replace ((0 <=? r) && (r <? 64)) with true by lia. cbn [obind].
  replace (num s w l <? 0) with false by lia. cbn [obind]. f_equal.
  rewrite Z.shiftr_div_pow2 by lia. rewrite Z.abs_eq in * by lia. apply enc_small. unfold fits.
  pose proof (pow_pos r ltac:(lia)). split; [apply Z.div_pos; lia|].
  apply Z.le_lt_trans with (num s w l); [|lia].
  apply Z.div_le_upper_bound; [lia|]. nia.
Qed.

(* unary *)
Lemma uminus_correct w v : 1 <= w <= 63 -> fits w v ->
  eval_unary_op v UMinus w = Ok (enc w (- v)).
Proof.
  intros Hw Hv. cbn [eval_unary_op]. apply two_complement_ok; [|lia].
  apply (fits_64 w); [lia|assumption].
Qed.

Lemma uinvert_correct w v : 1 <= w <= 63 -> fits w v ->
  exists x, eval_unary_op v UInvert w = Ok x /\ fits w x /\
    forall i, 0 <= i < w -> Z.testbit x i = negb (Z.testbit v i).
Proof.
  intros Hw Hv. cbn [eval_unary_op]. rewrite invert_ok by assumption.
  eexists; split; [reflexivity|]. split; [destruct Hv; unfold fits; lia|].
  intros i Hi. rewrite sub_ones_bits by (assumption || lia).
  replace (i <? w) with true by lia. reflexivity.
Qed.

Lemma pos_popcount_pos p : 1 <= pos_popcount p.
Proof. induction p; cbn [pos_popcount]; lia. Qed.

Lemma popcount_double v : popcount (2 * v) = popcount v.
Proof. destruct v; reflexivity. Qed.
Lemma popcount_succ_double v : 0 <= v -> popcount (2 * v + 1) = 1 + popcount v.
Proof. destruct v; intros H; try reflexivity; lia. Qed.

Lemma split_bit v : v = 2 * (v / 2) + (v mod 2).
Proof. apply Z.div_mod; lia. Qed.

Lemma popcount_bound n v : 0 <= v < 2 ^ Z.of_nat n ->
  0 <= popcount v <= Z.of_nat n /\ (popcount v = Z.of_nat n <-> v = 2 ^ Z.of_nat n - 1).
Proof.
  revert v; induction n as [|n IH]; intros v Hv.
  - cbn in Hv. assert (v = 0) by lia. subst v. cbn. lia.
  - rewrite Nat2Z.inj_succ, Z.pow_succ_r in * by lia.
    assert (Hd : 0 <= v / 2 < 2 ^ Z.of_nat n).
    { split; [apply Z.div_pos; lia|apply Z.div_lt_upper_bound; lia]. }
    destruct (IH _ Hd) as [I1 I2].
    pose proof (split_bit v) as E. pose proof (Z.mod_pos_bound v 2 ltac:(lia)) as Hm.
    assert (Hc : v mod 2 = 0 \/ v mod 2 = 1) by lia.
    destruct Hc as [Hc|Hc]; rewrite Hc in E; rewrite E at 1 2 3.
    + rewrite Z.add_0_r, popcount_double. split; [lia|]. split; intros; lia.
    + rewrite popcount_succ_double by lia. split; [lia|].
      split; intros; [assert (popcount (v / 2) = Z.of_nat n) by lia|]; lia.
Qed.

Lemma uand_correct w v : 1 <= w <= 32 -> fits w v ->
  eval_unary_op v UAnd w = Ok (b2z (v =? 2 ^ w - 1)).
Proof.
  intros Hw [H0 H1]. cbn [eval_unary_op]. f_equal. f_equal.
  unfold builtin_popcount, u32.
  assert (2 ^ w <= 2 ^ 32) by (apply Z.pow_le_mono_r; lia).
  rewrite Z.mod_small by lia.
  destruct (popcount_bound (Z.to_nat w) v) as [_ I]; [rewrite Z2Nat.id by lia; lia|].
  rewrite Z2Nat.id in I by lia.
  destruct (Z.eqb_spec (popcount v) w); destruct (Z.eqb_spec v (2 ^ w - 1)); tauto.
Qed.

Lemma uand_big w v : 32 < w -> eval_unary_op v UAnd w = Ok 0.
Proof.
  intros Hw. cbn [eval_unary_op]. f_equal. unfold builtin_popcount.
  destruct (popcount_bound 32 (u32 v)) as [B _].
  - unfold u32. apply Z.mod_pos_bound; lia.
  - replace (popcount (u32 v) =? w) with false by lia. reflexivity.
Qed.

Lemma all_ones_iff w v : 0 <= w -> fits w v ->
  (v = 2 ^ w - 1 <-> forall i, 0 <= i < w -> Z.testbit v i = true).
Proof.
  intros Hw Hv. split.
  - intros -> i Hi. replace (2 ^ w - 1) with (Z.ones w) by (rewrite Z.ones_equiv; lia).
    rewrite Z.testbit_ones by lia. lia.
  - intros H. replace (2 ^ w - 1) with (Z.ones w) by (rewrite Z.ones_equiv; lia).
    apply Z.bits_inj'; intros i Hi. rewrite Z.testbit_ones by lia.
    destruct (Z.ltb_spec i w) as [L|L].
    + rewrite H by lia. lia.
    + rewrite (fits_testbit_high w v i) by (assumption || lia). lia.
Qed.

Lemma zero_iff w v : 0 <= w -> fits w v ->
  (v = 0 <-> forall i, 0 <= i < w -> Z.testbit v i = false).
Proof.
  intros Hw Hv. split.
  - intros -> i Hi. apply Z.bits_0.
  - intros H. apply Z.bits_inj'; intros i Hi. rewrite Z.bits_0.
    destruct (Z.ltb_spec i w) as [L|L]; [apply H; lia|].
    apply (fits_testbit_high w); assumption || lia.
Qed.

(* parity, low bit first *)
Lemma parity_split n v : parity (S n) v = xorb (Z.testbit v 0) (parity n (v / 2)).
Proof.
  induction n as [|n IH].
  - cbn. destruct (Z.testbit v 0); reflexivity.
  - change (parity (S (S n)) v) with (xorb (Z.testbit v (Z.of_nat (S n))) (parity (S n) v)).
    rewrite IH.
    change (parity (S n) (v / 2)) with (xorb (Z.testbit (v / 2) (Z.of_nat n)) (parity n (v / 2))).
    replace (Z.testbit (v / 2) (Z.of_nat n)) with (Z.testbit v (Z.of_nat (S n))).
    + destruct (Z.testbit v (Z.of_nat (S n))), (Z.testbit v 0), (parity n (v / 2)); reflexivity.
    + rewrite <- Z.div2_div, Z.div2_spec, Z.shiftr_spec by lia. f_equal; lia.
Qed.

Lemma parity_popcount n v : 0 <= v < 2 ^ Z.of_nat n ->
  popcount v mod 2 = b2z (parity n v).
Proof.
  revert v; induction n as [|n IH]; intros v Hv.
  - cbn in Hv. assert (v = 0) by lia. subst v. reflexivity.
  - rewrite parity_split. rewrite Nat2Z.inj_succ, Z.pow_succ_r in Hv by lia.
    assert (Hd : 0 <= v / 2 < 2 ^ Z.of_nat n).
    { split; [apply Z.div_pos; lia|apply Z.div_lt_upper_bound; lia]. }
    specialize (IH _ Hd).
    pose proof (split_bit v) as E. pose proof (Z.mod_pos_bound v 2 ltac:(lia)) as Hm.
    rewrite Z.bit0_odd, Zodd_mod.
    assert (Hc : v mod 2 = 0 \/ v mod 2 = 1) by lia.
    destruct Hc as [Hc|Hc]; rewrite Hc in *; rewrite E at 1.
    + rewrite Z.add_0_r, popcount_double, IH. destruct (parity n (v / 2)); reflexivity.
    + rewrite popcount_succ_double by lia. rewrite <- Z.add_mod_idemp_r by lia. rewrite IH.
      destruct (parity n (v / 2)); reflexivity.
Qed.

Lemma uxor_correct w v : 1 <= w <= 32 -> fits w v ->
  eval_unary_op v UXor w = Ok (b2z (parity (Z.to_nat w) v)).
Proof.
  intros Hw [H0 H1]. cbn [eval_unary_op]. f_equal. unfold builtin_popcount, u32.
  assert (2 ^ w <= 2 ^ 32) by (apply Z.pow_le_mono_r; lia).
  rewrite (Z.mod_small v) by lia. apply parity_popcount. rewrite Z2Nat.id by lia. lia.
Qed.

(* above 32 bits the reduction only sees the low 32 bits *)
Lemma uxor_big w v : eval_unary_op v UXor w = Ok (b2z (parity 32 (v mod 2 ^ 32))).
Proof.
  cbn [eval_unary_op]. f_equal. unfold builtin_popcount. apply parity_popcount.
  apply Z.mod_pos_bound; lia.
Qed.

(* C06 *)
Lemma land_ones_fits w v : 0 <= w -> fits w (Z.land v (Z.ones w)).
Proof. intros; rewrite land_ones_mod by lia; apply enc_fits; lia. Qed.

Lemma bin_fits pw l r op w s v : 1 <= w <= 64 ->
  eval_bin_op pw l r op w s = Ok v -> fits w v.
Proof.
  intros Hw. unfold eval_bin_op. rewrite low_mask_ok by assumption.
  destruct (is_negative s l w); cbn [obind]; try discriminate.
  destruct (is_negative s r w); cbn [obind]; try discriminate.
  destruct (abs_value _ l w); cbn [obind]; try discriminate.
  destruct (abs_value _ r w); cbn [obind]; try discriminate.
  destruct (shl64 _ _); cbn [obind]; try discriminate.
  destruct (bin_switch _ _ _ _ _ _ _ _ _ _ _) as [x| |]; cbn [obind]; try discriminate.
  intros H; injection H as <-. apply land_ones_fits; lia.
Qed.

Lemma ternary_correct p l r w : 1 <= w <= 64 ->
  eval_ternary_op p l r w = Ok (enc w (if p then l else r)).
Proof.
  intros Hw. unfold eval_ternary_op. rewrite low_mask_ok by assumption. cbn [obind].
  f_equal. apply land_ones_mod; lia.
Qed.

Definition is_unary (op : expr_op) : bool :=
  match op with UInvert | UMinus | UPlus | UOr | UNot | UAnd | UXor => true | _ => false end.
Definition is_bin_supported (op : expr_op) : bool :=
  match op with
  | Add | Minus | Multiply | Divide | And | Or | Xor | Eq | Power | GreaterEqThan
  | LessEqThan | LessThan | GreaterThan | SignedShiftRight | LogicalShiftRight => true
  | _ => false end.

Lemma unary_fits v op w x : 1 <= w <= 63 -> fits w v ->
  eval_unary_op v op w = Ok x -> fits w x.
Proof.
  intros Hw Hv H.
  assert (Hb : forall b, fits w (b2z b)).
  { intros b. unfold fits. pose proof (half w ltac:(lia)).
    pose proof (pow_pos (w - 1) ltac:(lia)). destruct b; cbn [b2z]; lia. }
  destruct op; cbn [eval_unary_op] in H; try discriminate.
  - rewrite invert_ok in H by assumption. injection H as <-. destruct Hv; unfold fits; lia.
  - rewrite two_complement_ok in H by (try lia; apply (fits_64 w); assumption || lia).
    injection H as <-. apply enc_fits; lia.
  - injection H as <-; assumption.
  - injection H as <-; apply Hb.
  - injection H as <-; apply Hb.
  - injection H as <-; apply Hb.
  - injection H as <-. unfold fits. pose proof (half w ltac:(lia)).
    pose proof (pow_pos (w - 1) ltac:(lia)).
    pose proof (Z.mod_pos_bound (builtin_popcount v) 2 ltac:(lia)). lia.
Qed.

Lemma unsupported_throw pw l r op w s :
  1 <= w <= (if s : bool then 63 else 64) -> fits w l -> fits w r ->
  is_bin_supported op = false -> eval_bin_op pw l r op w s = Throw.
Proof.
  intros Hw Hl Hr Ho. rewrite eval_bin_op_unfold by assumption.
  destruct op; cbn in Ho; try discriminate; reflexivity.
Qed.
Lemma unsupported_unary v op w : is_unary op = false -> eval_unary_op v op w = Throw.
Proof. destruct op; cbn; intros; try discriminate; reflexivity. Qed.

(* statements used by the property file *)
Lemma b2z_one b : b2z b = 1 <-> b = true.
Proof. destruct b; cbn; intuition lia || discriminate. Qed.
Lemma b2z_zero b : b2z b = 0 <-> b = false.
Proof. destruct b; cbn; intuition lia || discriminate. Qed.

Lemma rel_spec_result op a b P : rel_spec op a b = Some P ->
  exists t, rel_result op a b = Some t /\ (t = true <-> P).
Proof.
  destruct op; cbn; intros H; try discriminate; injection H as <-;
    eexists; (split; [reflexivity|]); lia.
Qed.

Lemma compare_correct pw op s w l r P :
  1 <= w <= (if s : bool then 63 else 64) -> fits w l -> fits w r ->
  rel_spec op (num s w l) (num s w r) = Some P ->
  ~ (op <> Eq /\ num s w l < 0 /\ num s w l = num s w r) ->
  exists v, eval_bin_op pw l r op w s = Ok v /\ (v = 1 <-> P) /\ (v = 0 <-> ~ P).
Proof.
  intros Hw Hl Hr HP Hn. assert (Hw' : 1 <= w <= 64) by (destruct s; lia).
  destruct (rel_spec_result _ _ _ _ HP) as (t & Ht & Htp).
  rewrite (relational_value _ _ _ _ _ _ t) by assumption.
  eexists; split; [reflexivity|].
  assert (E : (num s w l <? 0) && (l =? r) && negb (expr_op_eqb op Eq) = false).
  { destruct (Z.ltb_spec (num s w l) 0); [|reflexivity].
    destruct (Z.eqb_spec l r) as [->|]; [|reflexivity].
    unfold expr_op_eqb. destruct (expr_op_eq_dec op Eq); [reflexivity|]. tauto. }
  rewrite E. rewrite b2z_one, b2z_zero, <- Htp. split; [reflexivity|].
  destruct t; split; intros; congruence || (exfalso; auto; fail) || auto.
Qed.

Lemma compare_equal_negative_wrong pw op w l P :
  1 <= w <= 63 -> fits w l -> sval w l < 0 -> op <> Eq ->
  rel_spec op (sval w l) (sval w l) = Some P ->
  exists v, eval_bin_op pw l l op w true = Ok v /\ (v = 1 <-> ~ P) /\ (v = 0 <-> P).
Proof.
  intros Hw Hl Hneg Hop HP.
  destruct (rel_spec_result _ _ _ _ HP) as (t & Ht & Htp).
  rewrite (relational_value _ _ true _ _ _ t) by assumption.
  eexists; split; [reflexivity|]. cbn [num].
  replace (sval w l <? 0) with true by lia. rewrite Z.eqb_refl.
  unfold expr_op_eqb. destruct (expr_op_eq_dec op Eq); [contradiction|]. cbn [andb negb].
  rewrite b2z_one, b2z_zero, <- Htp.
  destruct t; cbn [negb]; intuition congruence.
Qed.

Lemma ashr_negative_wrong :
  exists w l r, 1 <= w <= 63 /\ fits w l /\ fits w r /\ r < w /\
  forall pow, eval_bin_op pow l r SignedShiftRight w true <> Ok (enc w (sval w l / 2 ^ r)).
Proof.
  exists 4, 13, 1. repeat split; try lia. intros pow. vm_compute. discriminate.
Qed.

Lemma ashr_minus_one pow w r : 3 <= w <= 63 -> 1 <= r < w - 1 ->
  fits w (2 ^ w - 1) /\ sval w (2 ^ w - 1) = -1 /\
  eval_bin_op pow (2 ^ w - 1) r SignedShiftRight w true <> Ok (enc w (-1)).
Proof.
  intros Hw Hr. pose proof (half w ltac:(lia)) as Hh.
  pose proof (pow_pos (w - 1) ltac:(lia)) as Hp.
  assert (Hf : fits w (2 ^ w - 1)) by (unfold fits; lia).
  assert (Hs : sval w (2 ^ w - 1) = -1).
  { unfold sval. replace (2 ^ w - 1 <? 2 ^ (w - 1)) with false; [lia|].
    assert (2 <= 2 ^ (w - 1)) by (change 2 with (2 ^ 1) at 1; apply Z.pow_le_mono_r; lia). lia. }
  assert (Hrf : fits w r).
  { unfold fits. split; [lia|]. apply Z.lt_trans with w; [lia|]. apply Z.pow_gt_lin_r; lia. }
  split; [assumption|]. split; [assumption|].
  rewrite eval_bin_op_unfold by (assumption || lia). cbn [bin_switch num]. rewrite Hs.
  cbn [Z.abs Z.ltb Z.compare]. unfold shr64.
  replace ((0 <=? r) && (r <? 64)) with true by lia. cbn [obind].
  rewrite Z.shiftr_div_pow2 by lia.
  assert (E1 : 1 / 2 ^ r = 0).
  { apply Z.div_small. split; [lia|]. change 1 with (2 ^ 0) at 1. apply Z.pow_lt_mono_r; lia. }
  rewrite E1. unfold u32. rewrite Z.mod_small by lia. unfold u64.
  rewrite Z.mod_small by lia.
  rewrite high_mask by lia. cbn [obind].
  rewrite Z.lor_0_l. intros H. apply Ok_inj in H.
  assert (Hb : Z.testbit (enc w (2 ^ 64 - 2 ^ (w - 1 - r))) 0 = Z.testbit (enc w (-1)) 0)
    by (now rewrite H).
  rewrite !enc_bits in Hb by lia. replace (0 <? w) with true in Hb by lia. cbn [andb] in Hb.
  rewrite (Z.bit0_odd (-1)) in Hb. change (Z.odd (-1)) with true in Hb.
  rewrite Z.bit0_odd in Hb.
  replace (2 ^ 64 - 2 ^ (w - 1 - r)) with (2 * (2 ^ 63 - 2 ^ (w - 1 - r - 1))) in Hb.
  - rewrite Z.odd_mul in Hb. change (Z.odd 2) with false in Hb. cbn [andb] in Hb. congruence.
  - replace (2 ^ (w - 1 - r)) with (2 * 2 ^ (w - 1 - r - 1)); [lia|].
    rewrite <- Z.pow_succ_r by lia. f_equal; lia.
Qed.

Lemma uor_correct w v : 0 <= w -> fits w v ->
  exists x, eval_unary_op v UOr w = Ok x /\ (x = 0 \/ x = 1) /\
    (x = 1 <-> exists i, 0 <= i < w /\ Z.testbit v i = true).
Proof.
  intros Hw Hv. cbn [eval_unary_op]. eexists; split; [reflexivity|].
  split; [destruct (v =? 0); cbn; lia|].
  rewrite b2z_one, negb_true_iff, Z.eqb_neq. rewrite (zero_iff w) by assumption.
  split.
  - intros N.
    destruct (Z.eq_dec v 0) as [->|NZ]; [exfalso; apply N; intros; apply Z.bits_0|].
    exists (Z.log2 v). destruct Hv as [H0 H1].
    split; [|apply Z.bit_log2; lia]. split; [apply Z.log2_nonneg|].
    apply Z.log2_lt_pow2; lia.
  - intros (i & Hi & Hb) N. rewrite N in Hb by assumption. discriminate.
Qed.

Lemma unot_correct w v :
  exists x, eval_unary_op v UNot w = Ok x /\ (x = 0 \/ x = 1) /\ (x = 1 <-> v = 0).
Proof.
  cbn [eval_unary_op]. eexists; split; [reflexivity|].
  split; [destruct (v =? 0); cbn; lia|]. rewrite b2z_one. apply Z.eqb_eq.
Qed.

Lemma uand_spec w v : 1 <= w <= 32 -> fits w v ->
  exists x, eval_unary_op v UAnd w = Ok x /\ (x = 0 \/ x = 1) /\
    (x = 1 <-> forall i, 0 <= i < w -> Z.testbit v i = true).
Proof.
  intros Hw Hv. rewrite uand_correct by assumption. eexists; split; [reflexivity|].
  split; [destruct (v =? 2 ^ w - 1); cbn; lia|].
  rewrite b2z_one, Z.eqb_eq. apply all_ones_iff; assumption || lia.
Qed.

Lemma uxor_wide_wrong :
  exists w v, 32 < w <= 64 /\ fits w v /\
  eval_unary_op v UXor w <> Ok (if parity (Z.to_nat w) v then 1 else 0).
Proof.
  exists 33, (2 ^ 32). repeat split; try lia. vm_compute. discriminate.
Qed.

Lemma unsupported_bin pw l r op w s :
  1 <= w <= (if s : bool then 63 else 64) -> fits w l -> fits w r ->
  In op [Mod; ShiftLeft; LAnd; LOr; Neq; Conditional; Concat; Extend; Duplicate] ->
  eval_bin_op pw l r op w s = Throw.
Proof.
  intros Hw Hl Hr Ho. apply unsupported_throw; try assumption.
  cbn in Ho. intuition subst; reflexivity.
Qed.
