(* C07, C61-C63: constants. *)
From Verif Require Import Base SV_spec Num_model Num_spec Const_model Const_spec Const_proofs.
Local Open Scope Z_scope.

(* A constant is created exactly when its value is representable. *)
Theorem C07_const_accepted_iff_representable :
  forall (v w : Z) (signed : bool), int64 v -> 1 <= w <= 64 ->
    (representable (meant v signed) w signed ->
       make_const v w signed = Ok {| c_value := v; c_width := w; c_signed := signed |}) /\
    (~ representable (meant v signed) w signed -> make_const v w signed = Throw).
Proof. exact make_const_iff. Qed.
Print Assumptions C07_const_accepted_iff_representable.

(* Below 64 bits the unsigned reading plays no role. *)
Theorem C07_unsigned_below_64 :
  forall v w, int64 v -> 1 <= w <= 63 ->
    (representable (meant v false) w false <-> representable v w false).
Proof. exact meant_small. Qed.
Print Assumptions C07_unsigned_below_64.

(* Whatever sequence of value, width and string changes is tried, accepted or not, the
   constant stays representable in its width. *)
Theorem C07_constant_stays_representable :
  forall (ops : list const_op) (c : const), good c -> Forall op_ok ops ->
    exists c', fold_left const_step ops (Ok c) = Ok c' /\ good c' /\ c_signed c' = c_signed c.
Proof. exact const_history. Qed.
Print Assumptions C07_constant_stays_representable.

Example C07_ex_good : good {| c_value := -8; c_width := 4; c_signed := true |}.
Proof. unfold good, rep, int64. cbn. lia. Qed.
Example C07_ex_history :
  fold_left const_step [OpWidth 3; OpValue 7; OpWidth 9; OpValue 200]
    (Ok {| c_value := -8; c_width := 4; c_signed := true |})
  = Ok {| c_value := 200; c_width := 9; c_signed := true |}.
Proof. vm_compute. reflexivity. Qed.
Example C07_ex_bounds :
  make_const 15 4 false <> Throw /\ make_const 16 4 false = Throw
  /\ make_const (-8) 4 true <> Throw /\ make_const (-9) 4 true = Throw
  /\ make_const (-1) 64 false <> Throw /\ make_const (2 ^ 63 - 1) 64 true <> Throw.
Proof. vm_compute. repeat split; congruence. Qed.

(* The text of a constant is a literal of its width that denotes its bit pattern. *)
Theorem C61_const_text_denotes_value :
  forall c : const, 0 < c_width c -> c_value c <> - 2 ^ 63 ->
    (c_signed c = false -> 0 <= c_value c) ->
    exists s, const_to_string c = Ok s /\
              read_literal s = Some (c_width c, enc (c_width c) (c_value c)).
Proof. exact const_literal. Qed.
Print Assumptions C61_const_text_denotes_value.
Example C61_ex :
  const_to_string {| c_value := -90; c_width := 12; c_signed := true |} = Ok "-12'h5A"%string
  /\ read_literal "-12'h5A" = Some (12, 4096 - 90)
  /\ const_to_string {| c_value := 3054; c_width := 12; c_signed := false |} = Ok "12'hBEE"%string.
Proof. vm_compute. auto. Qed.

(* ... but a 64-bit unsigned constant with its top bit set is printed as text that is no
   literal, and printing the most negative one overflows. *)
Theorem C62_const_text_64_bits_refuted :
  (exists c s, good c /\ c_width c = 64 /\ const_to_string c = Ok s /\ read_literal s = None) /\
  (exists c, good c /\ c_width c = 64 /\ const_to_string c = UB).
Proof.
  split.
  - exists {| c_value := -1; c_width := 64; c_signed := false |}, "64'h-1"%string.
    repeat split; try (vm_compute; congruence).
  - exists {| c_value := - 2 ^ 63; c_width := 64; c_signed := true |}.
    repeat split; try (vm_compute; congruence).
Qed.
Print Assumptions C62_const_text_64_bits_refuted.

(* No string of two or more characters is accepted, whatever the width. *)
Theorem C63_string_constant_refuted :
  forall c s, (2 <= String.length s)%nat -> set_value_string c s = Throw.
Proof.
  intros c s H. unfold set_value_string. rewrite Z.gtb_ltb.
  destruct (Z.ltb_spec 8 (8 * Z.of_nat (String.length s))); [reflexivity|lia].
Qed.
Print Assumptions C63_string_constant_refuted.
(* ... nor is a single character of 128 or above, although it fits 8 bits. *)
Theorem C63_high_character_refuted :
  exists c s, good c /\ c_width c = 8 /\ 0 <= string_value 0 s < 2 ^ 8 /\ set_value_string c s = Throw.
Proof.
  exists {| c_value := 0; c_width := 8; c_signed := false |}, (String (ascii_of_nat 200) EmptyString).
  repeat split; try (vm_compute; congruence).
Qed.
Print Assumptions C63_high_character_refuted.
