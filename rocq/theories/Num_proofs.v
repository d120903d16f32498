From Verif Require Import Base Num_model Num_spec.
Local Open Scope Z_scope.

Lemma char_digit_char d : 0 <= d < 16 -> char_digit (digit_char d) = Some d.
Proof.
  intros H.
  assert (d = 0 \/ d = 1 \/ d = 2 \/ d = 3 \/ d = 4 \/ d = 5 \/ d = 6 \/ d = 7 \/ d = 8 \/ d = 9 \/
          d = 10 \/ d = 11 \/ d = 12 \/ d = 13 \/ d = 14 \/ d = 15) as K by lia.
  repeat (destruct K as [->|K]; [reflexivity|]). now subst.
Qed.
Lemma read_digits_print base : 2 <= base <= 16 -> forall f n acc, 0 <= n < 2 ^ Z.of_nat f ->
  (f > 0)%nat -> read_digits base 0 (digits f base n acc) = read_digits base n acc.
Proof.
  intros B. induction f as [|f IH]; intros n acc Hn Hf; [lia|].
  cbn [digits]. pose proof (Z.mod_pos_bound n base ltac:(lia)) as M.
  pose proof (Z.div_mod n base ltac:(lia)) as D.
  assert (forall a, read_digits base a (String (digit_char (n mod base)) acc)
                    = read_digits base (a * base + n mod base) acc) as R.
  { intros a. cbn [read_digits]. rewrite char_digit_char by lia.
    destruct (Z.ltb_spec (n mod base) base); [reflexivity|lia]. }
  destruct (Z.eqb_spec (n / base) 0) as [E|E].
  - rewrite R. f_equal. rewrite E in D. lia.
  - assert (0 <= n / base) by (apply Z.div_pos; lia).
    assert (n / base < 2 ^ Z.of_nat f) as L.
    { apply Z.div_lt_upper_bound; [lia|]. rewrite Nat2Z.inj_succ, Z.pow_succ_r in Hn by lia.
      pose proof (Z.pow_pos_nonneg 2 (Z.of_nat f)). nia. }
    destruct f as [|f']; [cbn in L; lia|].
    rewrite IH by lia. rewrite R. f_equal. lia.
Qed.
Lemma digits_cons base : 2 <= base <= 16 -> forall f n acc, 0 <= n -> (f > 0)%nat ->
  exists d r, 0 <= d < base /\ digits f base n acc = String (digit_char d) r.
Proof.
  intros B. induction f as [|f IH]; intros n acc Hn Hf; [lia|]. cbn [digits].
  pose proof (Z.mod_pos_bound n base ltac:(lia)) as M.
  destruct (Z.eqb_spec (n / base) 0); [eauto|].
  destruct f as [|f']; [cbn; eauto|]. apply IH; [apply Z.div_pos; lia|lia].
Qed.
Lemma digits_app base f : forall n acc t, (digits f base n acc ++ t)%string = digits f base n (acc ++ t)%string.
Proof.
  induction f as [|f IH]; intros n acc t; [reflexivity|]. cbn [digits].
  destruct (n / base =? 0); [reflexivity|]. now rewrite IH.
Qed.
Lemma log2_fuel n : 0 <= n -> 0 <= n < 2 ^ Z.of_nat (S (Z.to_nat (Z.log2 n))).
Proof.
  intros H. split; auto. pose proof (Z.log2_nonneg n). rewrite Nat2Z.inj_succ, Z2Nat.id by lia.
  destruct (Z.eq_dec n 0) as [->|]; [reflexivity|]. apply Z.log2_spec. lia.
Qed.
(* text that does not start with a digit of the base *)
Definition stops (base : Z) (s : string) : Prop :=
  match s with
  | EmptyString => True
  | String c _ => match char_digit c with Some d => base <= d | None => True end
  end.
Lemma read_digits_stops base n s : stops base s -> read_digits base n s = (n, s).
Proof.
  destruct s as [|c r]; [reflexivity|]. cbn. destruct (char_digit c); [|reflexivity].
  intros. destruct (Z.ltb_spec z base); [lia|reflexivity].
Qed.
Lemma read_print base n s : 2 <= base <= 16 -> 0 <= n -> stops base s ->
  read_num base (print_num base n ++ s) = Some (n, s).
Proof.
  intros B Hn S. unfold print_num. rewrite digits_app. cbn [append].
  destruct (digits_cons base B (Datatypes.S (Z.to_nat (Z.log2 n))) n s Hn ltac:(lia)) as (d & r & Hd & E).
  unfold read_num. rewrite E. rewrite char_digit_char by lia.
  destruct (Z.ltb_spec d base); [|lia]. rewrite <- E.
  rewrite read_digits_print; [|lia|now apply log2_fuel|lia]. f_equal. now apply read_digits_stops.
Qed.
Lemma print_num_inj base n m : 2 <= base <= 16 -> 0 <= n -> 0 <= m ->
  print_num base n = print_num base m -> n = m.
Proof.
  intros B Hn Hm E. pose proof (read_print base n EmptyString B Hn I) as R1.
  pose proof (read_print base m EmptyString B Hm I) as R2. rewrite E in R1. congruence.
Qed.
