From Coq Require Import Ascii String.
From Verif Require Import Base SV_spec Num_spec Num_model Num_proofs Const_spec Const_model Const_proofs Big_spec Big_model.
Local Open Scope Z_scope.

Lemma upcase_app a b : upcase (a ++ b) = (upcase a ++ upcase b)%string.
Proof. induction a as [|c a I]; cbn; [reflexivity|]. rewrite I. reflexivity. Qed.
Lemma up_digit d : 0 <= d < 16 -> up (digit_char d) = digit_char d /\ up (low (digit_char d)) = digit_char d.
Proof.
  intros H.
  assert (d = 0 \/ d = 1 \/ d = 2 \/ d = 3 \/ d = 4 \/ d = 5 \/ d = 6 \/ d = 7 \/ d = 8 \/ d = 9 \/
          d = 10 \/ d = 11 \/ d = 12 \/ d = 13 \/ d = 14 \/ d = 15) as K by lia.
  repeat (destruct K as [->|K]; [split; reflexivity|]). subst. split; reflexivity.
Qed.
Lemma up_digits base : 2 <= base <= 16 -> forall f n acc, 0 <= n ->
  upcase (digits f base n acc) = digits f base n (upcase acc) /\
  upcase (lowcase (digits f base n acc)) = digits f base n (upcase (lowcase acc)).
Proof.
  intros B. induction f as [|f I]; intros n acc Hn; [split; reflexivity|]. cbn [digits].
  pose proof (Z.mod_pos_bound n base ltac:(lia)) as M. destruct (up_digit (n mod base) ltac:(lia)) as [E1 E2].
  assert (Q : 0 <= n / base) by (apply Z.div_pos; lia).
  destruct (n / base =? 0); cbn [upcase lowcase]; [rewrite E1, E2; split; reflexivity|].
  destruct (I (n / base) (String (digit_char (n mod base)) acc) Q) as [A1 A2]. rewrite A1, A2. cbn [upcase lowcase]. rewrite E1, E2. split; reflexivity.
Qed.
Lemma up_dec n : 0 <= n -> upcase (dec n) = dec n.
Proof. intros H. apply (up_digits 10 ltac:(lia)); assumption. Qed.
Lemma up_hex v : upcase (py_hex v) = hex (Z.abs v).
Proof. apply (up_digits 16 ltac:(lia)). lia. Qed.

Lemma num_bits_le v k : 0 <= k -> num_bits v <= k <-> Z.abs v < 2 ^ k.
Proof.
  intros K. unfold num_bits. destruct (Z.eqb_spec v 0) as [->|N].
  - cbn [Z.abs]. split; intros; [apply Z.pow_pos_nonneg; lia|lia].
  - split; intros H.
    + apply Z.log2_lt_pow2; lia.
    + apply Z.log2_lt_pow2 in H; lia.
Qed.

(* strings *)
Fixpoint le_value (l : list ascii) : Z := match l with [] => 0 | c :: r => Z.of_nat (nat_of_ascii c) + 256 * le_value r end.
Lemma le_nonneg l : 0 <= le_value l.
Proof. induction l; cbn [le_value]; lia. Qed.
Lemma nat_ascii_lt c : (nat_of_ascii c < 256)%nat.
Proof. apply nat_ascii_bounded. Qed.
Lemma le_bound l : le_value l < 256 ^ Z.of_nat (List.length l).
Proof.
  induction l as [|c l I]; cbn [le_value List.length]; [reflexivity|].
  rewrite Nat2Z.inj_succ, Z.pow_succ_r by lia. pose proof (nat_ascii_lt c). lia.
Qed.
Lemma lor_add a b idx : 0 <= idx -> 0 <= a < 256 -> Z.lor (Z.shiftl a idx) (2 ^ (idx + 8) * b) = 2 ^ idx * (a + 256 * b).
Proof.
  intros Hi Ha.
  assert (N : Z.land (Z.shiftl a idx) (2 ^ (idx + 8) * b) = 0).
  { apply Z.bits_inj'. intros i Hn. rewrite Z.land_spec, Z.bits_0. destruct (Z.ltb_spec i (idx + 8)) as [L|L].
    - rewrite Z.mul_comm, Z.mul_pow2_bits_low by lia. apply Bool.andb_false_r.
    - rewrite Z.shiftl_spec by lia. replace (Z.testbit a (i - idx)) with false; [reflexivity|].
      symmetry. destruct (Z.eq_dec a 0) as [->|Na]; [apply Z.bits_0|]. apply Z.bits_above_log2; [lia|].
      apply Z.log2_lt_pow2; [lia|]. apply (Z.lt_le_trans _ (2 ^ 8)); [exact (proj2 Ha)|]. apply Z.pow_le_mono_r; lia. }
  rewrite <- Z.lxor_lor by exact N. rewrite <- Z.add_nocarry_lxor by exact N.
  rewrite Z.shiftl_mul_pow2 by lia. rewrite Z.pow_add_r by lia. change (2 ^ 8) with 256. ring.
Qed.
Lemma convert_le l : Forall (fun c => (nat_of_ascii c < 128)%nat) l -> forall idx, 0 <= idx -> convert_from idx l = 2 ^ idx * le_value l.
Proof.
  induction 1 as [|c l C F I]; intros idx Hi; cbn [convert_from le_value]; [lia|].
  rewrite I by lia. unfold char_i64. destruct (Z.ltb_spec (Z.of_nat (nat_of_ascii c)) 128); [|lia].
  apply lor_add; lia.
Qed.
Lemma le_app l c : le_value (l ++ [c]) = le_value l + 256 ^ Z.of_nat (List.length l) * Z.of_nat (nat_of_ascii c).
Proof.
  induction l as [|x l I]; cbn [app le_value List.length]; [change (256 ^ Z.of_nat 0) with 1; lia|].
  rewrite I, Nat2Z.inj_succ, Z.pow_succ_r by lia. ring.
Qed.
Lemma string_value_le s : forall acc, string_value acc s = acc * 256 ^ Z.of_nat (String.length s) + le_value (rev (list_ascii_of_string s)).
Proof.
  induction s as [|c s I]; intros acc; cbn [string_value String.length list_ascii_of_string rev].
  - change (256 ^ Z.of_nat 0) with 1. cbn [le_value]. lia.
  - rewrite I, le_app, rev_length, Nat2Z.inj_succ, Z.pow_succ_r by lia.
    assert (E : List.length (list_ascii_of_string s) = String.length s) by (clear; induction s; cbn; congruence).
    rewrite E. ring.
Qed.
Lemma length_chars s : List.length (list_ascii_of_string s) = String.length s.
Proof. induction s; cbn; congruence. Qed.
Lemma pow256 n : 0 <= n -> 256 ^ n = 2 ^ (8 * n).
Proof. intros H. rewrite Z.pow_mul_r by lia. reflexivity. Qed.
(* up to eight characters of ASCII make a word *)
Lemma le_ascii l : Forall (fun c => (nat_of_ascii c < 128)%nat) l -> (List.length l <= 8)%nat -> le_value l < 2 ^ 63.
Proof.
  intros F L. destruct (Nat.eq_dec (List.length l) 8) as [E|E].
  - destruct l as [|c l _] using rev_ind; [discriminate|]. rewrite le_app. apply Forall_app in F. destruct F as [_ F].
    assert (C : (nat_of_ascii c < 128)%nat) by (inversion F; assumption). rewrite app_length in E. cbn in E.
    assert (E7 : List.length l = 7%nat) by lia. pose proof (le_bound l) as B. rewrite E7 in *.
    change (256 ^ Z.of_nat 7) with (2 ^ 56) in *. change (2 ^ 63) with (128 * 2 ^ 56). nia.
  - apply (Z.lt_le_trans _ (256 ^ Z.of_nat (List.length l))); [apply le_bound|]. rewrite pow256 by lia. apply Z.pow_le_mono_r; lia.
Qed.
Lemma convert_value s : Forall (fun c => (nat_of_ascii c < 128)%nat) (list_ascii_of_string s) -> (String.length s <= 8)%nat ->
  convert_string_to_int s = string_value 0 s /\ 0 <= string_value 0 s < 2 ^ 63 /\ string_value 0 s < 2 ^ (8 * Z.of_nat (String.length s)).
Proof.
  intros F L. unfold convert_string_to_int.
  assert (Fr : Forall (fun c => (nat_of_ascii c < 128)%nat) (rev (list_ascii_of_string s))) by (apply Forall_rev, F).
  rewrite (convert_le _ Fr 0) by lia. change (2 ^ 0) with 1. rewrite Z.mul_1_l.
  rewrite string_value_le. rewrite Z.mul_0_l, Z.add_0_l.
  assert (Lr : List.length (rev (list_ascii_of_string s)) = String.length s) by (rewrite rev_length; apply length_chars).
  pose proof (le_ascii _ Fr ltac:(lia)) as B. pose proof (le_nonneg (rev (list_ascii_of_string s))) as N.
  pose proof (le_bound (rev (list_ascii_of_string s))) as B2. rewrite Lr, pow256 in B2 by lia.
  split; [|split; [split; assumption|exact B2]].
  unfold u64, to_i64. rewrite Z.mod_small.
  - destruct (Z.ltb_spec (le_value (rev (list_ascii_of_string s))) (2 ^ 63)); [reflexivity|lia].
  - split; [exact N|]. apply (Z.lt_trans _ (2 ^ 63)); [exact B|reflexivity].
Qed.

(* what is read of a string text *)
Lemma read_len : forall n l r, (List.length l <= n)%nat -> read_chars l = Some r -> (List.length r < List.length l)%nat.
Proof.
  induction n as [|n I]; intros l r L H; [destruct l; [discriminate|cbn in L; lia]|].
  destruct l as [|c l]; [discriminate|]. cbn [read_chars] in H. cbn [List.length] in *.
  destruct (Ascii.eqb c quote); [destruct l; [|discriminate]; inversion H; cbn; lia|].
  destruct (Ascii.eqb c backslash).
  - destruct l as [|d l]; [discriminate|]. destruct (read_chars l) as [r'|] eqn:E; [|discriminate]. cbn in H. inversion H. subst.
    cbn [List.length] in *. specialize (I l r' ltac:(lia) E). lia.
  - destruct (Ascii.eqb c newline); [discriminate|]. destruct (read_chars l) as [r'|] eqn:E; [|discriminate]. cbn in H. inversion H. subst.
    cbn [List.length]. specialize (I l r' ltac:(lia) E). lia.
Qed.
Lemma read_back : forall l, read_chars (l ++ [quote]) = Some l <-> Forall plain_char l.
Proof.
  induction l as [|c l I].
  - split; intros; [constructor|reflexivity].
  - cbn [app read_chars]. split; intros H.
    + destruct (Ascii.eqb_spec c quote) as [->|N1]; [destruct l; discriminate|].
      destruct (Ascii.eqb_spec c backslash) as [->|N2].
      * exfalso. destruct l as [|d l]; [discriminate|]. cbn [app] in H.
        destruct (read_chars (l ++ [quote])) as [r|] eqn:E; [|discriminate]. cbn in H. inversion H as [[H1 H2]].
        pose proof (read_len _ _ _ (Nat.le_refl _) E) as L. rewrite app_length in L. cbn in L. subst r. cbn in L. lia.
      * destruct (Ascii.eqb_spec c newline) as [->|N3]; [discriminate|].
        destruct (read_chars (l ++ [quote])) as [r|] eqn:E; [|discriminate]. cbn in H. inversion H. subst r.
        constructor; [repeat split; assumption|]. apply I. reflexivity.
    + assert (P : plain_char c) by (inversion H; assumption). assert (F : Forall plain_char l) by (inversion H; assumption).
      destruct P as (N1 & N2 & N3). destruct (Ascii.eqb_spec c quote); [contradiction|]. destruct (Ascii.eqb_spec c backslash); [contradiction|].
      destruct (Ascii.eqb_spec c newline); [contradiction|]. apply I in F. rewrite F. reflexivity.
Qed.
