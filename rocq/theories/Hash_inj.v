(* Which changes the hash does see: the steps of FNV-1a and XXHash64 are one-to-one. *)
From Coq Require Import Ascii Znumtheory.
From Verif Require Import Base IR IRSem_spec Hash_spec Hash_model Hash_proofs.
Local Open Scope Z_scope.

Lemma mul_inj : forall k p x y, 0 <= k -> Z.odd p = true -> (x * p) mod 2 ^ k = (y * p) mod 2 ^ k -> x mod 2 ^ k = y mod 2 ^ k.
Proof.
  intros k p x y K O E. assert (0 < 2 ^ k) as P by (apply Z.pow_pos_nonneg; lia).
  assert ((2 ^ k | (x - y) * p)) as D.
  { apply Z.mod_divide; [lia|]. rewrite Z.mul_sub_distr_r, Zminus_mod, E, Z.sub_diag. apply Z.mod_0_l. lia. }
  assert (rel_prime (2 ^ k) p) as R.
  { apply rel_prime_sym. assert (rel_prime p 2) as R2.
    { apply rel_prime_sym, prime_rel_prime; [apply prime_2|]. intros [q Q]. rewrite Q, Z.odd_mul in O. cbn in O. rewrite andb_false_r in O. discriminate. }
    rewrite <- (Z2Nat.id k K). induction (Z.to_nat k) as [|n IH]; [apply rel_prime_1_r || (apply rel_prime_sym, rel_prime_1)|].
    rewrite Nat2Z.inj_succ, Z.pow_succ_r by lia. now apply rel_prime_mult. }
  rewrite Z.mul_comm in D. apply (Gauss _ _ _ D) in R. destruct R as [q Q].
  replace x with (y + q * 2 ^ k) by lia. apply Z.mod_add. lia.
Qed.
Lemma lxor_mod : forall k a b, 0 <= k -> (Z.lxor a b) mod 2 ^ k = Z.lxor (a mod 2 ^ k) (b mod 2 ^ k).
Proof.
  intros k a b K. rewrite <- !Z.land_ones by lia. apply Z.bits_inj'. intros i Hi. rewrite Z.land_spec, !Z.lxor_spec, !Z.land_spec.
  destruct (Z.testbit (Z.ones k) i); rewrite ?andb_true_r, ?andb_false_r; reflexivity.
Qed.
Lemma lxor_inj_r : forall a b c, Z.lxor a c = Z.lxor b c -> a = b.
Proof.
  intros a b c E. rewrite <- (Z.lxor_0_r a), <- (Z.lxor_0_r b), <- (Z.lxor_nilpotent c), <- !Z.lxor_assoc. now rewrite E.
Qed.
Lemma lxor_inj_l : forall a b c, Z.lxor c a = Z.lxor c b -> a = b.
Proof. intros a b c. rewrite !(Z.lxor_comm c). apply lxor_inj_r. Qed.
Lemma u64_mod : forall k z, 0 <= k <= 64 -> u64 z mod 2 ^ k = z mod 2 ^ k.
Proof.
  intros k z K. unfold u64. replace (2 ^ 64) with (2 ^ (64 - k) * 2 ^ k) by (rewrite <- Z.pow_add_r by lia; f_equal; lia).
  rewrite Z.mul_comm, Z.rem_mul_r; try (apply Z.pow_nonzero; lia); [|apply Z.pow_pos_nonneg; lia].
  rewrite Z.mul_comm, Z.mod_add by (apply Z.pow_nonzero; lia). apply Z.mod_mod, Z.pow_nonzero; lia.
Qed.

(* ---- FNV-1a ---- *)
Definition fnv_step (h : Z) (c : ascii) : Z := u64 (Z.lxor h (Z.of_nat (nat_of_ascii c)) * 1099511628211).
Lemma fnv_cons : forall h c r, fnv_from h (String c r) = fnv_from (fnv_step h c) r.
Proof. reflexivity. Qed.
Lemma step_inj : forall k h h' c, 0 <= k <= 64 -> fnv_step h c mod 2 ^ k = fnv_step h' c mod 2 ^ k -> h mod 2 ^ k = h' mod 2 ^ k.
Proof.
  intros k h h' c K E. unfold fnv_step in E. rewrite !u64_mod in E by lia. apply mul_inj in E; [|lia|reflexivity].
  rewrite !lxor_mod in E by lia. now apply lxor_inj_r in E.
Qed.
Lemma fnv_inj : forall k s h h', 0 <= k <= 64 -> fnv_from h s mod 2 ^ k = fnv_from h' s mod 2 ^ k -> h mod 2 ^ k = h' mod 2 ^ k.
Proof.
  intros k s. induction s as [|c r IH]; intros h h' K E; [exact E|]. rewrite !fnv_cons in E. apply IH in E; auto. eapply step_inj; eauto.
Qed.
Lemma fnv_app : forall s t h, fnv_from h (s ++ t) = fnv_from (fnv_from h s) t.
Proof. induction s as [|c r IH]; intros t h; [reflexivity|]. cbn [append]. rewrite !fnv_cons. apply IH. Qed.
Lemma nat_ascii_lt : forall c, 0 <= Z.of_nat (nat_of_ascii c) < 2 ^ 8.
Proof. intros c. pose proof (nat_ascii_bounded c). change (2 ^ 8) with 256. lia. Qed.
(* two strings that differ in one character have different hashes, even in their low bits *)
Lemma fnv_one : forall k s a b t, 8 <= k <= 64 -> a <> b ->
  fnv (s ++ String a t) mod 2 ^ k <> fnv (s ++ String b t) mod 2 ^ k.
Proof.
  intros k s a b t K N E. unfold fnv in E. rewrite !fnv_app, !fnv_cons in E. apply fnv_inj in E; [|lia].
  unfold fnv_step in E. rewrite !u64_mod in E by lia. apply mul_inj in E; [|lia|reflexivity].
  rewrite !lxor_mod in E by lia. apply lxor_inj_l in E.
  assert (2 ^ 8 <= 2 ^ k) by (apply Z.pow_le_mono_r; lia). pose proof (nat_ascii_lt a). pose proof (nat_ascii_lt b).
  rewrite !Z.mod_small in E by lia. apply Nat2Z.inj in E. apply N.
  rewrite <- (ascii_nat_embedding a), <- (ascii_nat_embedding b). now rewrite E.
Qed.

(* ---- rotations, shifts, XXHash64 ---- *)
Definition in64 (z : Z) : Prop := 0 <= z < 2 ^ 64.
Lemma u64_in : forall z, in64 (u64 z).
Proof. intros z. apply Z.mod_pos_bound. reflexivity. Qed.
Lemma in64_id : forall z, in64 z -> u64 z = z.
Proof. intros z H. now apply Z.mod_small. Qed.
Lemma in64_bits : forall z, 0 <= z -> (in64 z <-> forall i, 64 <= i -> Z.testbit z i = false).
Proof.
  intros z P. split.
  - intros H i Hi. destruct (Z.eq_dec z 0) as [->|Hz]; [apply Z.testbit_0_l|]. apply Z.bits_above_log2; [lia|].
    apply Z.log2_lt_pow2; [lia|]. eapply Z.lt_le_trans; [apply H|]. apply Z.pow_le_mono_r; lia.
  - intros H. split; [exact P|]. assert (z = z mod 2 ^ 64) as ->; [|apply Z.mod_pos_bound; reflexivity].
    rewrite <- Z.land_ones by lia. apply Z.bits_inj'. intros i Hi. rewrite Z.land_spec. destruct (Z_lt_ge_dec i 64) as [L|L].
    + now rewrite Z.ones_spec_low, andb_true_r by lia.
    + rewrite (H i) by lia. reflexivity.
Qed.
Lemma lxor_in : forall a b, in64 a -> in64 b -> in64 (Z.lxor a b).
Proof.
  intros a b A B. assert (0 <= Z.lxor a b) as P by (apply Z.lxor_nonneg; split; intros; [apply B|apply A]).
  apply in64_bits; auto. intros i Hi. rewrite Z.lxor_spec, (proj1 (in64_bits a ltac:(apply A)) A i Hi), (proj1 (in64_bits b ltac:(apply B)) B i Hi). reflexivity.
Qed.
Lemma rotl_in : forall v n, in64 v -> 0 < n < 64 -> in64 (rotl v n).
Proof.
  intros v n V N. unfold rotl. pose proof (u64_in (Z.shiftl v n)) as A.
  assert (in64 (Z.shiftr v (64 - n))) as B.
  { split; [apply Z.shiftr_nonneg, V|]. rewrite Z.shiftr_div_pow2 by lia. apply Z.div_lt_upper_bound; [apply Z.pow_pos_nonneg; lia|].
    eapply Z.lt_le_trans; [apply V|]. rewrite <- Z.pow_add_r by lia. apply Z.pow_le_mono_r; lia. }
  assert (0 <= Z.lor (u64 (Z.shiftl v n)) (Z.shiftr v (64 - n))) as P by (apply Z.lor_nonneg; split; [apply A|apply B]).
  apply in64_bits; auto. intros i Hi. rewrite Z.lor_spec, (proj1 (in64_bits _ ltac:(apply A)) A i Hi), (proj1 (in64_bits _ ltac:(apply B)) B i Hi). reflexivity.
Qed.
Lemma rotl_bit : forall v n i, in64 v -> 0 < n < 64 -> 0 <= i < 64 -> Z.testbit (rotl v n) ((i + n) mod 64) = Z.testbit v i.
Proof.
  intros v n i V N I. unfold rotl. rewrite Z.lor_spec. unfold u64. rewrite Z.shiftr_spec by (apply Z.mod_pos_bound; lia).
  pose proof (proj1 (in64_bits v ltac:(apply V)) V) as B.
  destruct (Z_lt_ge_dec (i + n) 64) as [L|L].
  - rewrite (Z.mod_small (i + n)) by lia. rewrite Z.mod_pow2_bits_low, Z.shiftl_spec by lia. replace (i + n - n) with i by lia.
    rewrite (B (i + n + (64 - n))) by lia. apply orb_false_r.
  - replace ((i + n) mod 64) with (i + n - 64) by (apply (Z.mod_unique _ _ 1); lia).
    rewrite Z.mod_pow2_bits_low, Z.shiftl_spec by lia. rewrite Z.testbit_neg_r by lia. cbn [orb]. f_equal. lia.
Qed.
Lemma rotl_inj : forall v w n, in64 v -> in64 w -> 0 < n < 64 -> rotl v n = rotl w n -> v = w.
Proof.
  intros v w n V W N E. apply Z.bits_inj'. intros i Hi. destruct (Z_lt_ge_dec i 64) as [L|L].
  - rewrite <- (rotl_bit v n i), <- (rotl_bit w n i) by (auto; lia). now rewrite E.
  - rewrite (proj1 (in64_bits v ltac:(apply V)) V i), (proj1 (in64_bits w ltac:(apply W)) W i) by lia. reflexivity.
Qed.
Lemma umul_inj : forall p x y, Z.odd p = true -> in64 x -> in64 y -> u64 (x * p) = u64 (y * p) -> x = y.
Proof. intros p x y O X Y E. unfold u64 in E. apply mul_inj in E; [|lia|exact O]. now rewrite !Z.mod_small in E by assumption. Qed.
Lemma uadd_inj : forall c x y, in64 x -> in64 y -> u64 (x + c) = u64 (y + c) -> x = y.
Proof.
  intros c x y X Y E. unfold u64 in E. assert ((x + c - c) mod 2 ^ 64 = (y + c - c) mod 2 ^ 64) as F by (rewrite Zminus_mod, E, <- Zminus_mod; reflexivity).
  replace (x + c - c) with x in F by lia. replace (y + c - c) with y in F by lia. now rewrite !Z.mod_small in F by assumption.
Qed.
Lemma single_in : forall p x, in64 (single p x).
Proof. intros. apply u64_in. Qed.
Lemma single_inj : forall p x y, in64 x -> in64 y -> single p x = single p y -> x = y.
Proof.
  intros p x y X Y E. unfold single in E. apply umul_inj in E; [|reflexivity|apply rotl_in; [apply u64_in|lia]|apply rotl_in; [apply u64_in|lia]].
  apply rotl_inj in E; [|apply u64_in|apply u64_in|lia]. rewrite !(Z.add_comm p) in E. apply uadd_inj in E; [|apply u64_in|apply u64_in].
  apply umul_inj in E; auto.
Qed.
Lemma word_in : forall r x, in64 (word r x).
Proof. intros. apply u64_in. Qed.
Lemma word_inj : forall r q x y, in64 r -> in64 q -> word r x = word q y -> Z.lxor r (single 0 x) = Z.lxor q (single 0 y).
Proof.
  intros r q x y R Q E. unfold word in E. pose proof (lxor_in r _ R (single_in 0 x)) as A. pose proof (lxor_in q _ Q (single_in 0 y)) as B.
  apply uadd_inj in E; [|apply u64_in|apply u64_in].
  apply umul_inj in E; [|reflexivity|apply rotl_in; [exact A|lia]|apply rotl_in; [exact B|lia]].
  apply rotl_inj in E; auto. lia.
Qed.
Lemma words_inj : forall l r q, in64 r -> in64 q -> fold_left word l r = fold_left word l q -> r = q.
Proof.
  induction l as [|x l IH]; intros r q R Q E; [exact E|]. cbn [fold_left] in E. apply IH in E; try apply word_in.
  apply word_inj in E; auto. now apply lxor_inj_r in E.
Qed.
Lemma words_one : forall l1 a b l2 r, in64 r -> in64 a -> in64 b -> fold_left word (l1 ++ a :: l2) r = fold_left word (l1 ++ b :: l2) r -> a = b.
Proof.
  intros l1 a b l2 r R A B E. rewrite !fold_left_app in E. cbn [fold_left] in E. apply words_inj in E; try apply word_in.
  assert (in64 (fold_left word l1 r)) as R1 by (clear - R; revert r R; induction l1; intros r R; [exact R|]; cbn; apply IHl1; apply word_in).
  apply word_inj in E; auto. apply lxor_inj_l in E. now apply single_inj in E.
Qed.
Lemma xorshift_inj : forall s r q, 0 < s -> 0 <= r -> 0 <= q -> Z.lxor r (Z.shiftr r s) = Z.lxor q (Z.shiftr q s) -> r = q.
Proof.
  intros s r q Hs R Q E. set (d := Z.lxor r q).
  assert (d = Z.shiftr d s) as D.
  { subst d. rewrite Z.shiftr_lxor. apply (f_equal (Z.lxor (Z.lxor q (Z.shiftr r s)))) in E.
    rewrite <- (Z.lxor_0_r (Z.lxor r q)). apply (lxor_inj_r _ _ (Z.lxor (Z.shiftr r s) (Z.shiftr q s))).
    rewrite Z.lxor_0_r, Z.lxor_nilpotent.
    transitivity (Z.lxor (Z.lxor r (Z.shiftr r s)) (Z.lxor q (Z.shiftr q s))).
    - rewrite !Z.lxor_assoc. f_equal. rewrite <- !Z.lxor_assoc. f_equal. apply Z.lxor_comm.
    - apply lxor_inj_l in E. rewrite E. apply Z.lxor_nilpotent. }
  assert (0 <= d) as P by (apply Z.lxor_nonneg; tauto).
  assert (d = 0) as Z0.
  { destruct (Z.eq_dec d 0) as [|N]; [assumption|]. exfalso. rewrite Z.shiftr_div_pow2 in D by lia.
    assert (d / 2 ^ s < d); [|lia]. apply Z.div_lt; [lia|]. apply Z.pow_gt_1; lia. }
  apply Z.lxor_eq. exact Z0.
Qed.
Lemma shiftr_in : forall v s, in64 v -> 0 <= s -> in64 (Z.shiftr v s).
Proof.
  intros v s V P. split; [apply Z.shiftr_nonneg, V|]. rewrite Z.shiftr_div_pow2 by lia. apply Z.div_lt_upper_bound; [apply Z.pow_pos_nonneg; lia|].
  eapply Z.lt_le_trans; [apply V|]. assert (1 <= 2 ^ s) by (apply (Z.pow_le_mono_r 2 0); lia). assert (0 < 2 ^ 64) by reflexivity. nia.
Qed.
Lemma finish_inj : forall r q, in64 r -> in64 q -> finish r = finish q -> r = q.
Proof.
  intros r q R Q E. unfold finish in E. apply xorshift_inj in E; try lia; try apply u64_in.
  apply umul_inj in E; [|reflexivity|apply lxor_in; [apply u64_in|apply shiftr_in; [apply u64_in|lia]]|apply lxor_in; [apply u64_in|apply shiftr_in; [apply u64_in|lia]]].
  apply xorshift_inj in E; try lia; try apply u64_in.
  apply umul_inj in E; [|reflexivity|apply lxor_in; [exact R|apply shiftr_in; [exact R|lia]]|apply lxor_in; [exact Q|apply shiftr_in; [exact Q|lia]]].
  apply xorshift_inj in E; try lia; [apply R|apply Q].
Qed.

(* the words after the last whole block of four *)
Lemma blocks_split : forall n l st, (length l = n)%nat -> exists st', forall t, (length t < 4)%nat ->
  Nat.modulo n 4 = 0%nat -> blocks st (l ++ t) = (st', t).
Proof.
  intros n. induction n as [n IH] using lt_wf_ind. intros l st L.
  destruct l as [|a [|b [|c [|d r]]]].
  - exists st. intros t Ht _. destruct t as [|a [|b [|c [|d t]]]]; try reflexivity. cbn in Ht. lia.
  - exists st. cbn in L. subst n. intros t _ M. discriminate.
  - exists st. cbn in L. subst n. intros t _ M. discriminate.
  - exists st. cbn in L. subst n. intros t _ M. discriminate.
  - cbn [length] in L. destruct st as [[[s0 s1] s2] s3].
    destruct (IH (length r) ltac:(lia) r (single s0 a, single s1 b, single s2 c, single s3 d) eq_refl) as [st' K].
    exists st'. intros t Ht M. cbn [app blocks]. apply K; auto. subst n.
    replace (S (S (S (S (length r))))) with (length r + 1 * 4)%nat in M by lia. rewrite Nat.mod_add in M by lia. exact M.
Qed.
Lemma xxh_tail : forall whole t1 a b t2 sd, Nat.modulo (length whole) 4 = 0%nat -> (length (t1 ++ a :: t2) < 4)%nat -> in64 a -> in64 b ->
  a <> b -> xxh (whole ++ t1 ++ a :: t2) sd <> xxh (whole ++ t1 ++ b :: t2) sd.
Proof.
  intros whole t1 a b t2 sd M L A B N E. apply N. unfold xxh in E.
  set (st := (u64 (sd + prime1 + prime2), u64 (sd + prime2), sd, u64 (sd - prime1))) in E.
  destruct (blocks_split (length whole) whole st eq_refl) as [[[[s0 s1] s2] s3] K].
  assert (length (t1 ++ b :: t2) = length (t1 ++ a :: t2)) as E2 by (rewrite !app_length; reflexivity).
  rewrite !K in E by (try exact M; lia).
  assert (length (whole ++ t1 ++ b :: t2) = length (whole ++ t1 ++ a :: t2)) as E3 by (rewrite !(app_length whole); lia).
  rewrite E3 in E. cbv beta iota zeta in E.
  set (r0 := u64 (_ + 8 * _)) in E. assert (in64 r0) as R0 by apply u64_in.
  apply finish_inj in E.
  - eapply words_one; eauto.
  - clear - R0. revert R0. generalize r0. induction (t1 ++ a :: t2); intros r R; [exact R|]. cbn. apply IHl, word_in.
  - clear - R0. revert R0. generalize r0. induction (t1 ++ b :: t2); intros r R; [exact R|]. cbn. apply IHl, word_in.
Qed.
Lemma xxh_seed : forall l sd sd', (length l < 4)%nat -> in64 sd -> in64 sd' -> sd <> sd' -> xxh l sd <> xxh l sd'.
Proof.
  intros l sd sd' L S1 S2 N E. apply N. unfold xxh in E.
  destruct (blocks_split 0 [] (u64 (sd + prime1 + prime2), u64 (sd + prime2), sd, u64 (sd - prime1)) eq_refl) as [st1 K1].
  destruct (blocks_split 0 [] (u64 (sd' + prime1 + prime2), u64 (sd' + prime2), sd', u64 (sd' - prime1)) eq_refl) as [st2 K2].
  pose proof (K1 [] ltac:(cbn; lia) eq_refl) as Q1. pose proof (K2 [] ltac:(cbn; lia) eq_refl) as Q2.
  cbn [app blocks] in Q1, Q2. injection Q1 as <-. injection Q2 as <-.
  specialize (K1 l L eq_refl). specialize (K2 l L eq_refl). cbn [app] in K1, K2. rewrite K1, K2 in E. cbv beta iota zeta in E.
  assert (32 <=? 8 * Z.of_nat (length l) = false) as F by lia. rewrite F in E.
  assert (forall l r, in64 r -> in64 (fold_left word l r)) as W by (clear; induction l; intros r R; [exact R|]; cbn; apply IHl, word_in).
  apply finish_inj in E; try (apply W, u64_in). apply words_inj in E; try apply u64_in.
  apply uadd_inj in E; try apply u64_in. apply uadd_inj in E; auto.
Qed.

(* ---- modules ---- *)
Lemma obind_len : forall (o : outcome (list Z)) (f : list Z -> outcome (list Z)) w, obind o f = Ok w -> exists a, o = Ok a /\ f a = Ok w.
Proof. intros [a| |] f w E; try discriminate. eauto. Qed.
Lemma app_len : forall (o p : outcome (list Z)) w n m, (forall a, o = Ok a -> length a = n) -> (forall b, p = Ok b -> length b = m) ->
  (olet a := o in olet b := p in Ok (a ++ b)) = Ok w -> length w = (n + m)%nat.
Proof.
  intros o p w n m A B E. apply obind_len in E as (a & -> & E). apply obind_len in E as (b & -> & E). apply Ok_inj in E. subst w.
  now rewrite app_length, (A a), (B b).
Qed.
Lemma at_level_len : forall L h w, at_level L h = Ok w -> length w = length h.
Proof. intros L h w E. unfold at_level in E. destruct (64 <=? L); [discriminate|]. apply Ok_inj in E. now subst. Qed.
Section Len.
  Variable P : printer.
  Lemma len_block : forall l, Forall (fun s => forall L w, hash_stmt P L s = Ok w -> length w = count_s s) l ->
    forall L w, hash_stmts P L l = Ok w -> length w = count_b l.
  Proof.
    induction 1 as [|s r Hs _ IH]; intros L w E; [apply Ok_inj in E; now subst|].
    rewrite hash_stmts_cons in E. cbn [count_b]. eapply app_len; [| |exact E]; eauto.
  Qed.
  Lemma count_if : forall c t f, count_s (SIf c t f) = S (count_b t + count_b f).
  Proof. reflexivity. Qed.
  Fixpoint count_c (l : list (Z * list stmt)) : nat := match l with [] => 0 | c :: r => count_b (snd c) + count_c r end%nat.
  Lemma count_switch : forall e cs d, count_s (SSwitch e cs d) = S (count_c cs + match d with Some b => count_b b | None => 0 end).
  Proof. intros e cs d. reflexivity. Qed.
  Lemma len_stmt : forall s L w, hash_stmt P L s = Ok w -> length w = count_s s.
  Proof.
    induction s as [k l e|c t f Ht Hf|e cs d Hcs Hd|i a b sp body Hb|body Hb|e| |k] using stmt_ind'; intros L w E;
      try (apply Ok_inj in E; now subst).
    - cbn [hash_stmt] in E. unfold hash_assign in E. apply at_level_len in E. exact E.
    - rewrite hash_if in E. apply obind_len in E as (h & E1 & E). apply at_level_len in E1.
      apply obind_len in E as (a & E2 & E). apply obind_len in E as (b & E3 & E). apply Ok_inj in E. subst w.
      rewrite count_if, !app_length, E1, (len_block t Ht _ _ E2), (len_block f Hf _ _ E3). reflexivity.
    - rewrite hash_switch in E. apply obind_len in E as (h & E1 & E). apply at_level_len in E1.
      apply obind_len in E as (a & E2 & E). apply obind_len in E as (b & E3 & E). apply Ok_inj in E. subst w.
      rewrite count_switch, !app_length, E1.
      assert (length a = count_c cs) as ->.
      { clear E1 E3. revert a E2. induction Hcs as [|[k0 b0] r H0 _ IH]; intros a E2; [apply Ok_inj in E2; now subst|].
        rewrite hash_cases_cons in E2. cbn [count_c]. eapply app_len; [| |exact E2]; auto. intros x Hx. eapply len_block; eauto. }
      assert (length b = match d with Some b => count_b b | None => 0%nat end) as ->.
      { destruct d as [b0|]; [eapply len_block; eauto|apply Ok_inj in E3; now subst]. }
      reflexivity.
    - rewrite hash_for in E. eapply (len_block body Hb); eauto.
    - rewrite hash_block in E. eapply (len_block body Hb); eauto.
  Qed.
  Lemma len_stmts : forall l L w, hash_stmts P L l = Ok w -> length w = count_b l.
  Proof. intros l. apply len_block. apply Forall_forall. intros. eapply len_stmt; eauto. Qed.
  Lemma len_top : forall t L w, hash_top P L t = Ok w -> length w = count_t t.
  Proof.
    intros [k l e|b|evs b|b|h] L w E; cbn [hash_top] in E.
    - unfold hash_assign in E. apply at_level_len in E. exact E.
    - cbn [count_t]. change (S (count_b b)) with (1 + count_b b)%nat. eapply app_len; [| |exact E]; [intros x Hx; apply at_level_len in Hx; exact Hx|intros; eapply len_stmts; eauto].
    - cbn [count_t]. change (S (count_b b)) with (1 + count_b b)%nat. eapply app_len; [| |exact E]; [intros x Hx; apply at_level_len in Hx; exact Hx|intros; eapply len_stmts; eauto].
    - eapply len_stmts; eauto.
    - apply Ok_inj in E. now subst.
  Qed.
  Lemma len_tops : forall l L w, hash_tops P L l = Ok w -> length w = count_ts l.
  Proof.
    induction l as [|t l IH]; intros L w E; [apply Ok_inj in E; now subst|]. cbn [hash_tops count_ts] in *.
    eapply app_len; [| |exact E]; [intros; eapply len_top; eauto|eauto].
  Qed.
  Lemma tops_app : forall a b L, hash_tops P L (a ++ b) = olet x := hash_tops P L a in olet y := hash_tops P L b in Ok (x ++ y).
  Proof.
    induction a as [|t a IH]; intros b L; cbn [hash_tops app]; [destruct (hash_tops P L b); reflexivity|].
    destruct (hash_top P L t) as [x| |]; cbn [obind]; try reflexivity. rewrite IH.
    destruct (hash_tops P L a) as [y| |]; cbn [obind]; try reflexivity. destruct (hash_tops P L b) as [z| |]; cbn [obind]; try reflexivity.
    now rewrite app_assoc.
  Qed.
  Lemma leaf_words : forall name vars body, hash_gen P 0 (Gen name vars body []) = hash_tops P 1 body.
  Proof. intros. rewrite hash_gen_unfold. change (0 + 1) with 1. destruct (hash_tops P 1 body) as [w| |]; cbn; try reflexivity. now rewrite app_nil_r. Qed.
  (* two modules that differ in one top-level statement whose words differ in one place *)
  Lemma modules_differ : forall name vars pre post t t' u a a' v h h',
    hash_top P 1 t = Ok (u ++ a :: v) -> hash_top P 1 t' = Ok (u ++ a' :: v) -> in64 a -> in64 a' -> a <> a' ->
    in_tail pre t post ->
    hash_generator P (Gen name vars (pre ++ t :: post) []) = Ok h -> hash_generator P (Gen name vars (pre ++ t' :: post) []) = Ok h' -> h <> h'.
  Proof.
    intros name vars pre post t t' u a a' v h h' T1 T2 A A' N (whole & rest & -> & M & C) E E'. unfold hash_generator in E, E'. rewrite leaf_words in E, E'.
    assert (forall w, hash_tops P 1 (rest ++ t :: post) = Ok w -> length w < 4)%nat as Lw
      by (intros w Hw; now rewrite (len_tops _ _ _ Hw)).
    rewrite <- app_assoc, tops_app in E, E'. rewrite tops_app in E, E', Lw. cbn [hash_tops] in E, E', Lw. rewrite T1 in E, Lw. rewrite T2 in E'. cbn [obind] in E, E', Lw.
    destruct (hash_tops P 1 whole) as [x0| |] eqn:W0; try discriminate. apply len_tops in W0. rewrite <- W0 in M.
    destruct (hash_tops P 1 rest) as [x| |]; try discriminate. destruct (hash_tops P 1 post) as [z| |]; try discriminate. cbn [obind] in E, E', Lw.
    apply Ok_inj in E. apply Ok_inj in E'. specialize (Lw _ eq_refl). cbn [seed] in E, E'. subst h h'.
    replace (x ++ (u ++ a :: v) ++ z) with ((x ++ u) ++ a :: (v ++ z)) in * by (cbn; now rewrite <- !app_assoc).
    replace (x ++ (u ++ a' :: v) ++ z) with ((x ++ u) ++ a' :: (v ++ z)) by (cbn; now rewrite <- !app_assoc).
    apply xxh_tail; auto.
  Qed.
  Hypothesis Hw : forall e, in64 (p_width P e).
  Hypothesis Hlw : forall l, in64 (p_lwidth P l).
  Lemma fnv_in : forall s, in64 (fnv s).
  Proof.
    assert (forall s h, in64 h -> in64 (fnv_from h s)) as K
      by (induction s as [|c r IH]; intros h H; [exact H|]; rewrite fnv_cons; apply IH, u64_in).
    intros s. apply K. split; [discriminate|reflexivity].
  Qed.
  Lemma op_in : forall op, in64 (op_code op).
  Proof. intros []; split; (discriminate || reflexivity). Qed.
  Lemma hash_var_in : forall e, in64 (hash_var P e).
  Proof. induction e; cbn [hash_var]; repeat apply lxor_in; auto using fnv_in, op_in, u64_in. Qed.
  Lemma hash_lhs_in : forall l, in64 (hash_lhs P l).
  Proof. intros l. apply lxor_in; auto using fnv_in. Qed.
  Lemma shl_differ : forall a b L, 0 <= L <= 56 -> a mod 2 ^ (64 - L) <> b mod 2 ^ (64 - L) -> shl a L <> shl b L.
  Proof.
    intros a b L HL N E. apply N. unfold shl, u64 in E. rewrite !Z.shiftl_mul_pow2 in E by lia.
    replace (2 ^ 64) with (2 ^ (64 - L) * 2 ^ L) in E by (rewrite <- Z.pow_add_r by lia; f_equal; lia).
    rewrite !Z.mul_mod_distr_r in E by (apply Z.pow_nonzero; lia). apply Z.mul_reg_r in E; [exact E|]. apply Z.pow_nonzero; lia.
  Qed.
  Lemma one_change_low : forall a b k, 8 <= k <= 64 -> one_change a b -> fnv a mod 2 ^ k <> fnv b mod 2 ^ k.
  Proof. intros a b k K (s & c & d & t & -> & -> & N). now apply fnv_one. Qed.
  Lemma one_change_fnv : forall a b, one_change a b -> fnv a <> fnv b.
  Proof. intros a b C E. apply (one_change_low a b 64) in C; [|lia]. now rewrite E in C. Qed.
End Len.
