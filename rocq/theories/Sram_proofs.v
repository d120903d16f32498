From Verif Require Import Base SV_spec Const_model Sram_spec Sram_model.
Local Open Scope Z_scope.

Lemma set_bit_spec : forall v i b k, 0 <= i -> 0 <= k -> Z.testbit (set_bit v i b) k = if k =? i then b else Z.testbit v k.
Proof.
  intros v i b k I K. unfold set_bit. destruct (Z.eqb_spec k i) as [->|N]; destruct b.
  - now apply Z.setbit_eq.
  - apply Z.clearbit_eq.
  - apply Z.setbit_neq; lia.
  - apply Z.clearbit_neq; lia.
Qed.
Lemma write_bits_n : forall n old new mask k, 0 <= k ->
  Z.testbit (fold_left (fun v j => let i := Z.of_nat j in if negb (Z.testbit mask i) then set_bit v i (Z.testbit new i) else v) (seq 0 n) old) k
  = if (k <? Z.of_nat n) && negb (Z.testbit mask k) then Z.testbit new k else Z.testbit old k.
Proof.
  induction n as [|n IH]; intros old new mask k K.
  - cbn [seq fold_left]. replace (k <? Z.of_nat 0) with false by lia. reflexivity.
  - rewrite seq_S, fold_left_app. cbn [fold_left]. rewrite Nat.add_0_l. cbv zeta. destruct (Z.testbit mask (Z.of_nat n)) eqn:M; cbn [negb].
    + rewrite IH by exact K. destruct (Z.eqb_spec k (Z.of_nat n)) as [->|N]; [rewrite M; now rewrite !andb_false_r|]. replace (k <? Z.of_nat (S n)) with (k <? Z.of_nat n) by lia. reflexivity.
    + rewrite set_bit_spec by lia. destruct (Z.eqb_spec k (Z.of_nat n)) as [->|N].
      * rewrite M. replace (Z.of_nat n <? Z.of_nat (S n)) with true by lia. reflexivity.
      * rewrite IH by exact K. replace (k <? Z.of_nat (S n)) with (k <? Z.of_nat n) by lia. reflexivity.
Qed.
Lemma high_zero : forall v w k, 0 <= v < 2 ^ w -> 0 <= w <= k -> Z.testbit v k = false.
Proof.
  intros v w k V K. destruct (Z.eq_dec v 0) as [->|N]; [apply Z.bits_0|]. apply Z.bits_above_log2; [lia|]. assert (Z.log2 v < w) by (apply Z.log2_lt_pow2; lia). lia.
Qed.
Lemma write_bits_word : forall dw old new mask, 0 <= dw -> 0 <= old < 2 ^ dw -> 0 <= new < 2 ^ dw ->
  write_bits dw old new mask = Z.lor (Z.land old mask) (Z.ldiff new mask).
Proof.
  intros dw old new mask D O N. apply Z.bits_inj'. intros k K. unfold write_bits. rewrite write_bits_n by exact K. rewrite Z.lor_spec, Z.land_spec, Z.ldiff_spec.
  destruct (Z.ltb_spec k (Z.of_nat (Z.to_nat dw))) as [L|L]; cbn [andb].
  - destruct (Z.testbit mask k); cbn; destruct (Z.testbit old k); destruct (Z.testbit new k); reflexivity.
  - rewrite (high_zero old dw k), (high_zero new dw k) by lia. reflexivity.
Qed.
Lemma word_range : forall p dw old c, 0 <= dw -> 0 <= old < 2 ^ dw -> 0 <= din c < 2 ^ dw -> 0 <= word p old c < 2 ^ dw.
Proof.
  intros p dw old c D O N. unfold word. destruct p; [|exact N].
  assert (0 <= Z.lor (Z.land old (mask c)) (Z.ldiff (din c) (mask c))) as P.
  { apply Z.lor_nonneg. split; [apply Z.land_nonneg; lia|apply Z.ldiff_nonneg; lia]. }
  split; [exact P|]. destruct (Z.eq_dec (Z.lor (Z.land old (mask c)) (Z.ldiff (din c) (mask c))) 0) as [->|Q]; [apply Z.pow_pos_nonneg; lia|].
  apply Z.log2_lt_pow2; [lia|]. destruct (Z.lt_ge_cases (Z.log2 (Z.lor (Z.land old (mask c)) (Z.ldiff (din c) (mask c)))) dw) as [L|L]; [exact L|exfalso].
  assert (Z.testbit (Z.lor (Z.land old (mask c)) (Z.ldiff (din c) (mask c))) (Z.log2 (Z.lor (Z.land old (mask c)) (Z.ldiff (din c) (mask c)))) = true) as T by (apply Z.bit_log2; lia).
  rewrite Z.lor_spec, Z.land_spec, Z.ldiff_spec in T. rewrite (high_zero old dw), (high_zero (din c) dw) in T by lia. discriminate T.
Qed.

(* the select logic *)
Definition good (r : array) : Prop := 0 < m_aw (a_bank r) /\ 0 <= m_dw (a_bank r) /\ 2 <= a_n r /\ a_sel r = Z.log2_up (a_n r).
Lemma split_addr : forall r a, good r -> 0 <= a < a_n r * 2 ^ m_aw (a_bank r) ->
  mem_select r a = a / 2 ^ m_aw (a_bank r) /\ addr_to_mem r a = a mod 2 ^ m_aw (a_bank r) /\ 0 <= a / 2 ^ m_aw (a_bank r) < a_n r.
Proof.
  intros r a (W & _ & N & S) A. assert (0 < 2 ^ m_aw (a_bank r)) as P by (apply Z.pow_pos_nonneg; lia).
  assert (0 <= a / 2 ^ m_aw (a_bank r) < a_n r) as B by (split; [apply Z.div_pos; lia|apply Z.div_lt_upper_bound; lia]).
  split; [|split; [|exact B]].
  - unfold mem_select. rewrite Z.shiftr_div_pow2 by lia. rewrite S, Z.land_ones by apply Z.log2_up_nonneg. apply Z.mod_small.
    pose proof (Z.log2_up_spec (a_n r) ltac:(lia)). lia.
  - unfold addr_to_mem. now rewrite Z.land_ones by lia.
Qed.
Lemma web_bit : forall r web sel i, 2 <= a_n r -> 0 <= sel < a_n r -> 0 <= i < a_n r -> Z.testbit (web_array r web sel) i = web || negb (i =? sel).
Proof.
  intros r web sel i N S I. unfold web_array. destruct web; cbn [negb orb].
  - unfold enc. rewrite Z.mod_pow2_bits_low by lia. rewrite Z.lnot_spec, Z.bits_0 by lia. reflexivity.
  - unfold enc. rewrite Z.mod_pow2_bits_low by lia. rewrite Z.lnot_spec by lia. rewrite Z.mod_pow2_bits_low by lia.
    f_equal. rewrite Z.shiftl_spec by lia. destruct (Z.eqb_spec i sel) as [->|Ne].
    + now rewrite Z.sub_diag.
    + destruct (Z.lt_ge_cases i sel); [apply Z.testbit_neg_r; lia|]. rewrite <- (Z.pow_0_r 2), Z.pow2_bits_false; [reflexivity|lia].
Qed.

(* the banks hold the words of one memory *)
Definition holds (r : array) (s : astate) (m : Z -> Z) : Prop :=
  forall a, 0 <= a < a_n r * 2 ^ m_aw (a_bank r) -> words r s a = m a /\ 0 <= m a < 2 ^ m_dw (a_bank r).
Lemma addr_split_eq : forall p a b, 0 < p -> (a = b <-> a / p = b / p /\ a mod p = b mod p).
Proof.
  intros p a b P. split; [now intros ->|]. intros [D M]. rewrite (Z.div_mod a p), (Z.div_mod b p) by lia. congruence.
Qed.
Lemma holds_edge : forall r s m c, good r -> pins (a_n r * 2 ^ m_aw (a_bank r)) (m_dw (a_bank r)) c -> holds r s m -> holds r (edge r s c) (store (m_partial (a_bank r)) m c).
Proof.
  intros r s m c G (A & D & K) H a B. pose proof G as (W & Dw & N & S). assert (0 < 2 ^ m_aw (a_bank r)) as P by (apply Z.pow_pos_nonneg; lia).
  destruct (split_addr r (addr c) G A) as (E1 & E2 & E3). destruct (split_addr r a G B) as (F1 & F2 & F3).
  destruct (H a B) as [Ha Ra]. unfold store, words, edge. cbn [s_banks]. rewrite E1, E2. unfold bank_edge. destruct (ceb c) eqn:Ce; cbn [negb andb].
  { exact (conj Ha Ra). }
  cbn [b_data]. rewrite web_bit by (auto; lia). destruct (web c) eqn:We; cbn [orb negb andb].
  { exact (conj Ha Ra). }
  rewrite negb_involutive. destruct (Z.eqb_spec a (addr c)) as [->|Ne].
  - rewrite !Z.eqb_refl. split; [|apply word_range; assumption]. unfold words in Ha. rewrite Ha. unfold word. destruct (m_partial (a_bank r)); [|reflexivity]. apply write_bits_word; assumption.
  - split; [|exact Ra]. destruct (Z.eqb_spec (a / 2 ^ m_aw (a_bank r)) (addr c / 2 ^ m_aw (a_bank r))) as [Q|Q]; [|exact Ha].
    destruct (Z.eqb_spec (a mod 2 ^ m_aw (a_bank r)) (addr c mod 2 ^ m_aw (a_bank r))) as [Q2|Q2]; [|exact Ha]. exfalso. apply Ne. apply (addr_split_eq _ _ _ P). auto.
Qed.
Lemma holds_edges : forall r h s m, good r -> Forall (pins (a_n r * 2 ^ m_aw (a_bank r)) (m_dw (a_bank r))) h -> holds r s m -> holds r (edges r s h) (content (m_partial (a_bank r)) m h).
Proof.
  intros r h. induction h as [|c h IH]; intros s m G F H; [exact H|]. cbn. inversion F; subst. apply IH; auto. now apply holds_edge.
Qed.
Lemma build_good : forall cap m r, build cap m = Ok r -> 0 < m_aw m -> 0 <= m_dw m -> 0 <= cap -> good r /\ a_bank r = m.
Proof.
  intros cap m r B W D C. unfold build in B. destruct (capacity m) as [k| |] eqn:K; try discriminate. cbn [obind] in B.
  destruct (Z.eqb_spec k 0); [discriminate|]. destruct (negb _); [discriminate|]. destruct (Z.eqb_spec (cap / k) 0) as [|Q]; [discriminate|]. destruct (Z.eqb_spec (Z.log2_up (cap / k)) 0) as [|L]; [discriminate|].
  destruct (is_legal 1 (cap / k) false); try discriminate. cbn [obind] in B. injection B as <-. unfold good. cbn. split; [|reflexivity]. repeat split; auto.
  assert (0 < cap / k).
  { assert (0 <= k) by (unfold capacity in K; destruct (_ <? _); [|discriminate]; apply Ok_inj in K; subst k; unfold u32; apply Z.mod_pos_bound; lia). assert (0 <= cap / k) by (apply Z.div_pos; lia). lia. }
  destruct (Z.eq_dec (cap / k) 1) as [E|]; [rewrite E in L; cbn in L; lia|lia].
Qed.
