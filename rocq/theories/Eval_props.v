(* Property theorems about constant evaluation (C01-C06, C49-C51).
   Specification vocabulary: SV_spec.v.  Model of src/eval.cc: Eval_model.v. *)
From Verif Require Import Base SV_spec Eval_model Eval_proofs.
Local Open Scope Z_scope.

(* C01: unsigned + - * / at every width 1..64. *)
Theorem C01_unsigned_arithmetic :
  forall pow op w l r z, 1 <= w <= 64 -> fits w l -> fits w r ->
  arith_spec op l r z ->
  eval_bin_op pow l r op w false = Ok (z mod 2 ^ w).
Proof. exact (fun pow op w l r z Hw Hl Hr Hz => arith_correct pow op false w l r z Hw Hl Hr Hz). Qed.
Print Assumptions C01_unsigned_arithmetic.

Theorem C01_bitwise :
  forall pow op f w l r, 1 <= w <= 64 -> fits w l -> fits w r ->
  bit_spec op = Some f ->
  exists v, eval_bin_op pow l r op w false = Ok v /\ fits w v /\
    forall i, 0 <= i < w -> Z.testbit v i = f (Z.testbit l i) (Z.testbit r i).
Proof. exact (fun pow op f w l r => bitwise_correct pow op f false w l r). Qed.
Print Assumptions C01_bitwise.

(* division by zero is undefined behaviour, not a value *)
Theorem C01_div_by_zero_is_UB :
  forall pow w l, 1 <= w <= 64 -> fits w l -> eval_bin_op pow l 0 Divide w false = UB.
Proof. exact (fun pow => div_zero_UB pow false). Qed.
Print Assumptions C01_div_by_zero_is_UB.

Example C01_nonvacuous :
  fits 8 250 /\ fits 8 9 /\ arith_spec Add 250 9 259 /\ arith_spec Divide 250 9 27 /\
  (259 mod 2 ^ 8 = 3).
Proof. repeat split; try (cbn; lia); constructor. lia. Qed.

(* C02: signed + - * / at every width 1..63 (the quotient truncates towards zero). *)
Theorem C02_signed_arithmetic :
  forall pow op w l r z, 1 <= w <= 63 -> fits w l -> fits w r ->
  arith_spec op (sval w l) (sval w r) z ->
  eval_bin_op pow l r op w true = Ok (z mod 2 ^ w).
Proof. exact (fun pow op w l r z Hw Hl Hr Hz => arith_correct pow op true w l r z Hw Hl Hr Hz). Qed.
Print Assumptions C02_signed_arithmetic.

Theorem C02_bitwise_signed :
  forall pow op f w l r, 1 <= w <= 63 -> fits w l -> fits w r ->
  bit_spec op = Some f ->
  exists v, eval_bin_op pow l r op w true = Ok v /\ fits w v /\
    forall i, 0 <= i < w -> Z.testbit v i = f (Z.testbit l i) (Z.testbit r i).
Proof. exact (fun pow op f w l r => bitwise_correct pow op f true w l r). Qed.
Print Assumptions C02_bitwise_signed.

(* -128 / -1 at width 8: 128, encoded as 0x80 *)
Example C02_nonvacuous :
  fits 8 128 /\ fits 8 255 /\ sval 8 128 = -128 /\ sval 8 255 = -1 /\
  arith_spec Divide (sval 8 128) (sval 8 255) 128.
Proof. repeat split; try (cbn; lia). exact (spec_div (-128) (-1) ltac:(lia)). Qed.

(* C49: signed evaluation at width 64 is undefined for every operator as soon as
   one operand is negative: the property does not extend to width 64. *)
Theorem C49_signed_width_64_refuted :
  forall pow op l r, fits 64 l -> fits 64 r -> sval 64 l < 0 \/ sval 64 r < 0 ->
  eval_bin_op pow l r op 64 true = UB.
Proof. exact signed_64_UB. Qed.
Print Assumptions C49_signed_width_64_refuted.

Theorem C49_invert_width_64_refuted :
  forall v, eval_unary_op v UInvert 64 = UB /\ eval_unary_op v UMinus 64 = UB.
Proof. exact (fun v => conj (invert_UB v 64 ltac:(lia)) (two_complement_64_UB v)). Qed.
Print Assumptions C49_invert_width_64_refuted.

Example C49_nonvacuous : fits 64 (2 ^ 64 - 1) /\ fits 64 1 /\ sval 64 (2 ^ 64 - 1) < 0.
Proof. repeat split; try (cbn; lia). Qed.

(* C03: == at every width; the four orderings except on two equal negative numbers. *)
Theorem C03_compare :
  forall pow op s w l r P, 1 <= w <= (if s : bool then 63 else 64) -> fits w l -> fits w r ->
  rel_spec op (num s w l) (num s w r) = Some P ->
  ~ (op <> Eq /\ num s w l < 0 /\ num s w l = num s w r) ->
  exists v, eval_bin_op pow l r op w s = Ok v /\ (v = 1 <-> P) /\ (v = 0 <-> ~ P).
Proof. exact compare_correct. Qed.
Print Assumptions C03_compare.

(* ... and on two equal negative numbers each of the four orderings is always wrong *)
Theorem C165_compare_equal_negative_refuted :
  forall pow op w l P, 1 <= w <= 63 -> fits w l -> sval w l < 0 -> op <> Eq ->
  rel_spec op (sval w l) (sval w l) = Some P ->
  exists v, eval_bin_op pow l l op w true = Ok v /\ (v = 1 <-> ~ P) /\ (v = 0 <-> P).
Proof. exact compare_equal_negative_wrong. Qed.
Print Assumptions C165_compare_equal_negative_refuted.

(* -3 < -2 is covered by C03_compare, -1 >= -1 by the refutation *)
Example C03_nonvacuous :
  fits 4 13 /\ fits 4 14 /\ sval 4 13 = -3 /\ sval 4 14 = -2 /\
  rel_spec LessThan (num true 4 13) (num true 4 14) = Some (-3 < -2) /\
  ~ (LessThan <> Eq /\ num true 4 13 < 0 /\ num true 4 13 = num true 4 14) /\
  rel_spec GreaterEqThan (sval 4 15) (sval 4 15) = Some (-1 >= -1).
Proof. repeat split; try (cbn; lia). Qed.

(* C04: logical right shift; arithmetic right shift of a non-negative number. *)
Theorem C04_logical_shift_right :
  forall pow s w l r, 1 <= w <= (if s : bool then 63 else 64) -> fits w l -> fits w r -> r < 64 ->
  eval_bin_op pow l r LogicalShiftRight w s = Ok (l / 2 ^ r).
Proof. exact lshr_correct. Qed.
Print Assumptions C04_logical_shift_right.

Theorem C04_arithmetic_shift_right_nonnegative :
  forall pow s w l r, 1 <= w <= (if s : bool then 63 else 64) -> fits w l -> fits w r -> r < 64 ->
  0 <= num s w l ->
  eval_bin_op pow l r SignedShiftRight w s = Ok (num s w l / 2 ^ r).
Proof. exact ashr_nonneg. Qed.
Print Assumptions C04_arithmetic_shift_right_nonnegative.

Theorem C04_shift_64_is_UB :
  forall pow s w l r op, 1 <= w <= (if s : bool then 63 else 64) -> fits w l -> fits w r -> 64 <= r ->
  op = LogicalShiftRight \/ op = SignedShiftRight ->
  eval_bin_op pow l r op w s = UB.
Proof. exact shr_big_UB. Qed.
Print Assumptions C04_shift_64_is_UB.

Example C04_nonvacuous : fits 8 200 /\ fits 8 3 /\ num true 8 100 = 100 /\ fits 8 100.
Proof. repeat split; try (cbn; lia). Qed.

(* C50: arithmetic right shift of negative numbers is wrong: -1 >>> r is never -1
   when at least one bit is shifted in and at least one kept. *)
Theorem C50_arithmetic_shift_right_negative_refuted :
  exists w l r, 1 <= w <= 63 /\ fits w l /\ fits w r /\ r < w /\
  forall pow, eval_bin_op pow l r SignedShiftRight w true <> Ok (enc w (sval w l / 2 ^ r)).
Proof. exact ashr_negative_wrong. Qed.
Print Assumptions C50_arithmetic_shift_right_negative_refuted.

Theorem C50_minus_one_shifted_is_wrong :
  forall pow w r, 3 <= w <= 63 -> 1 <= r < w - 1 ->
  fits w (2 ^ w - 1) /\ sval w (2 ^ w - 1) = -1 /\
  eval_bin_op pow (2 ^ w - 1) r SignedShiftRight w true <> Ok (enc w (-1)).
Proof. exact ashr_minus_one. Qed.
Print Assumptions C50_minus_one_shifted_is_wrong.

(* C05: unary operators. *)
Theorem C05_invert :
  forall w v, 1 <= w <= 63 -> fits w v ->
  exists x, eval_unary_op v UInvert w = Ok x /\ fits w x /\
    forall i, 0 <= i < w -> Z.testbit x i = negb (Z.testbit v i).
Proof. exact uinvert_correct. Qed.
Print Assumptions C05_invert.

Theorem C05_minus : forall w v, 1 <= w <= 63 -> fits w v ->
  eval_unary_op v UMinus w = Ok ((- v) mod 2 ^ w).
Proof. exact uminus_correct. Qed.
Print Assumptions C05_minus.

Theorem C05_plus : forall w v, eval_unary_op v UPlus w = Ok v.
Proof. exact (fun w v => eq_refl). Qed.
Print Assumptions C05_plus.

Theorem C05_reduce_or : forall w v, 0 <= w -> fits w v ->
  exists x, eval_unary_op v UOr w = Ok x /\ (x = 0 \/ x = 1) /\
    (x = 1 <-> exists i, 0 <= i < w /\ Z.testbit v i = true).
Proof. exact uor_correct. Qed.
Print Assumptions C05_reduce_or.

Theorem C05_not : forall w v,
  exists x, eval_unary_op v UNot w = Ok x /\ (x = 0 \/ x = 1) /\ (x = 1 <-> v = 0).
Proof. exact unot_correct. Qed.
Print Assumptions C05_not.

Theorem C05_reduce_and : forall w v, 1 <= w <= 32 -> fits w v ->
  exists x, eval_unary_op v UAnd w = Ok x /\ (x = 0 \/ x = 1) /\
    (x = 1 <-> forall i, 0 <= i < w -> Z.testbit v i = true).
Proof. exact uand_spec. Qed.
Print Assumptions C05_reduce_and.

Theorem C05_reduce_xor : forall w v, 1 <= w <= 32 -> fits w v ->
  eval_unary_op v UXor w = Ok (if parity (Z.to_nat w) v then 1 else 0).
Proof. exact uxor_correct. Qed.
Print Assumptions C05_reduce_xor.

Example C05_nonvacuous : fits 32 (2 ^ 32 - 1) /\ fits 5 19 /\ parity (Z.to_nat 5) 19 = true.
Proof. repeat split; try (cbn; lia). Qed.

(* C51: above 32 bits &x is constantly 0 and ^x ignores the high bits. *)
Theorem C51_reduce_and_wide_refuted : forall w v, 32 < w -> eval_unary_op v UAnd w = Ok 0.
Proof. exact uand_big. Qed.
Print Assumptions C51_reduce_and_wide_refuted.

Theorem C51_reduce_xor_wide_refuted :
  exists w v, 32 < w <= 64 /\ fits w v /\
  eval_unary_op v UXor w <> Ok (if parity (Z.to_nat w) v then 1 else 0).
Proof. exact uxor_wide_wrong. Qed.
Print Assumptions C51_reduce_xor_wide_refuted.

(* C06: whatever is returned fits; unsupported operators throw. *)
Theorem C06_binary_result_fits :
  forall pow l r op w s v, 1 <= w <= 64 -> eval_bin_op pow l r op w s = Ok v -> 0 <= v < 2 ^ w.
Proof. exact bin_fits. Qed.
Print Assumptions C06_binary_result_fits.

Theorem C06_unary_result_fits :
  forall v op w x, 1 <= w <= 63 -> fits w v -> eval_unary_op v op w = Ok x -> 0 <= x < 2 ^ w.
Proof. exact unary_fits. Qed.
Print Assumptions C06_unary_result_fits.

Theorem C06_ternary :
  forall p l r w, 1 <= w <= 64 ->
  eval_ternary_op p l r w = Ok ((if p then l else r) mod 2 ^ w).
Proof. exact ternary_correct. Qed.
Print Assumptions C06_ternary.

Theorem C06_unsupported_throws :
  forall pow l r op w s, 1 <= w <= (if s : bool then 63 else 64) -> fits w l -> fits w r ->
  In op [Mod; ShiftLeft; LAnd; LOr; Neq; Conditional; Concat; Extend; Duplicate] ->
  eval_bin_op pow l r op w s = Throw.
Proof. exact unsupported_bin. Qed.
Print Assumptions C06_unsupported_throws.

Example C06_nonvacuous :
  eval_bin_op (fun _ _ => UB) 200 100 Add 8 false = Ok 44 /\
  eval_bin_op (fun _ _ => UB) 200 100 Mod 8 false = Throw.
Proof. split; vm_compute; reflexivity. Qed.
