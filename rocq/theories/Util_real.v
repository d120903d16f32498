(* C12: the integer Z.log2_up used by the model of clog2 is the ceiling of the real base-2
   logarithm.  The only file using the real numbers of the standard library and its axioms. *)
From Coq Require Import Reals Lra ZArith Lia.
From Verif Require Import Base Util_model.
Local Open Scope R_scope.

Definition rlog2 (x : R) : R := ln x / ln 2.

Lemma ln2_pos : 0 < ln 2.
Proof. rewrite <- ln_1. apply ln_increasing; lra. Qed.
Lemma rlog2_pow : forall k : nat, rlog2 (2 ^ k) = INR k.
Proof. intros k. unfold rlog2. rewrite ln_pow by lra. pose proof ln2_pos. field. lra. Qed.
Lemma rlog2_le : forall x y, 0 < x -> x <= y -> rlog2 x <= rlog2 y.
Proof.
  intros x y Hx [H| ->]; [|lra]. left. unfold rlog2, Rdiv.
  apply Rmult_lt_compat_r; [apply Rinv_0_lt_compat, ln2_pos|]. apply ln_increasing; assumption.
Qed.
Lemma rlog2_lt : forall x y, 0 < x -> x < y -> rlog2 x < rlog2 y.
Proof.
  intros x y Hx H. unfold rlog2, Rdiv.
  apply Rmult_lt_compat_r; [apply Rinv_0_lt_compat, ln2_pos|]. apply ln_increasing; assumption.
Qed.
Lemma IZR_pow2 : forall k : nat, IZR (2 ^ Z.of_nat k) = 2 ^ k.
Proof. intros. rewrite <- pow_IZR. reflexivity. Qed.

Theorem C12_clog2_is_ceiling_of_real_log2 :
  forall n : Z, (1 <= n)%Z ->
    exists c : Z, clog2 n = Ok (Z.max 1 c) /\ IZR c - 1 < rlog2 (IZR n) <= IZR c.
Proof.
  intros n H. exists (Z.log2_up n). split.
  { unfold clog2. destruct (Z.eqb_spec n 0); [lia|reflexivity]. }
  assert (0 < IZR n) as P by (apply (IZR_lt 0); lia).
  pose proof (Z.log2_up_nonneg n) as NN.
  destruct (Z.eq_dec n 1) as [->|N].
  - unfold rlog2. rewrite ln_1. change (Z.log2_up 1) with 0%Z.
    replace (0 / ln 2) with 0 by (unfold Rdiv; ring). simpl. lra.
  - destruct (Z.log2_up_spec n) as [L U]; [lia|].
    set (k := Z.to_nat (Z.log2_up n)).
    assert (Z.log2_up n = Z.of_nat k) as K by (unfold k; lia).
    assert (Z.log2_up n <> 0)%Z as NZ by (intros E; rewrite E in U; simpl in U; lia).
    split.
    + destruct k as [|m] eqn:Ek; [simpl in K; contradiction|].
      rewrite K in L |- *. replace (Z.pred (Z.of_nat (S m))) with (Z.of_nat m) in L by lia.
      apply IZR_lt in L. rewrite IZR_pow2 in L.
      apply (rlog2_lt (2 ^ m)) in L; [|apply pow_lt; lra].
      rewrite rlog2_pow in L. rewrite <- INR_IZR_INZ, S_INR. lra.
    + apply IZR_le in U. rewrite K in U |- *. rewrite IZR_pow2 in U.
      apply rlog2_le in U; [|exact P]. rewrite rlog2_pow in U. rewrite <- INR_IZR_INZ. exact U.
Qed.
Print Assumptions C12_clog2_is_ceiling_of_real_log2.
Example C12_ex_real : exists c : Z, clog2 5 = Ok (Z.max 1 c) /\ IZR c - 1 < rlog2 5 <= IZR c.
Proof. apply (C12_clog2_is_ceiling_of_real_log2 5). lia. Qed.
