(* Properties C472-C478: constants made from Python integers and strings. *)
From Coq Require Import Ascii String.
From Verif Require Import Base SV_spec Num_spec Num_model Const_spec Const_model Const_proofs Big_spec Big_model Big_proofs.
Local Open Scope Z_scope.

(* whatever is made of a constant of more than 64 bits, its text denotes the value *)
Theorem C472_big_text : forall mk v w signed b, py_constant mk v w signed = Ok (BigNum b) ->
  read_sized (big_text b) = Some (w, enc w v) /\ 2 ^ 64 <= Z.abs v < 2 ^ w /\ (v < 0 -> signed = true).
Proof.
  intros mk v w signed b H. unfold py_constant in H. rewrite Z.gtb_ltb in H.
  destruct (Z.ltb_spec w (num_bits v)) as [L|L]; [discriminate|].
  assert (N0 : 0 <= num_bits v) by (unfold num_bits; destruct (v =? 0); [lia|]; pose proof (Z.log2_nonneg (Z.abs v)); lia).
  destruct (Z.leb_spec (num_bits v) 64) as [K|K].
  - destruct ((- 2 ^ 63 <=? v) && (v <? 2 ^ 63)); [|discriminate]. destruct (mk v w signed); discriminate.
  - destruct ((v <? 0) && negb signed) eqn:S; [discriminate|]. destruct (mk (-1) w signed); [|discriminate|discriminate].
    cbn [obind] in H. assert (E : b = {| b_hex := py_hex v; b_neg := v <? 0; b_width := w; b_signed := signed |}) by congruence.
    subst b. clear H. split; [|split].
    + unfold read_sized, big_text. cbn [b_neg b_width b_hex]. rewrite !upcase_app, up_hex, up_dec by lia.
      destruct (Z.ltb_spec v 0) as [Hv|Hv].
      * change (upcase "-") with "-"%string. change (upcase "'h") with "'h"%string. rewrite read_literal_neg by lia.
        replace (- Z.abs v) with v by lia. reflexivity.
      * change (upcase "") with ""%string. change (upcase "'h") with "'h"%string. cbn [append]. rewrite Z.abs_eq by lia. apply read_literal_pos; lia.
    + split; [|apply num_bits_le; lia]. destruct (Z.le_gt_cases (2 ^ 64) (Z.abs v)) as [G|G]; [exact G|].
      apply num_bits_le in G; lia.
    + intros Hv. destruct (Z.ltb_spec v 0); [|lia]. destruct signed; [reflexivity|discriminate].
Qed.
Definition any_const (v w : Z) (signed : bool) : outcome const := Ok {| c_value := v; c_width := w; c_signed := signed |}.
Example C472_ex : exists b, py_constant any_const (- (2 ^ 68 + 171)) 80 true = Ok (BigNum b) /\ big_text b = "-80'h1000000000000000ab"%string.
Proof. eexists. split; reflexivity. Qed.

(* an integer of up to 64 bits is taken exactly when it fits the width and the sign, for constants of less than 64 bits and signed
   ones; it is then the value of the constant *)
Theorem C473_word : forall v w signed, 1 <= w <= 64 -> w < 64 \/ signed = true ->
  (representable v w signed -> py_constant make_const v w signed = Ok (Word {| c_value := v; c_width := w; c_signed := signed |})) /\
  (~ representable v w signed -> py_constant make_const v w signed = Throw).
Proof.
  intros v w signed Hw Hc.
  assert (P63 : 2 ^ 63 + 2 ^ 63 = 2 ^ 64) by reflexivity.
  assert (Pw : 0 < 2 ^ (w - 1)) by (apply Z.pow_pos_nonneg; lia).
  assert (Pd : 2 ^ w = 2 * 2 ^ (w - 1)) by (rewrite <- Z.pow_succ_r by lia; f_equal; lia).
  assert (Pm : 2 ^ (w - 1) <= 2 ^ 63) by (apply Z.pow_le_mono_r; lia).
  assert (Pu : signed = false -> 2 ^ w <= 2 ^ 63) by (intros ->; destruct Hc; [|discriminate]; apply Z.pow_le_mono_r; lia).
  assert (R : representable v w signed -> int64 v /\ num_bits v <= w /\ representable (meant v signed) w signed).
  { intros H. unfold representable, meant, int64 in *. destruct signed.
    - split; [lia|]. split; [apply num_bits_le; lia|]. exact H.
    - specialize (Pu eq_refl). split; [lia|]. split; [apply num_bits_le; lia|]. rewrite Z.mod_small; [exact H|lia]. }
  unfold py_constant. rewrite Z.gtb_ltb. split; intros H.
  - destruct (R H) as (I & N & M). destruct (Z.ltb_spec w (num_bits v)); [lia|]. destruct (Z.leb_spec (num_bits v) 64); [|lia].
    unfold int64 in I. destruct (Z.leb_spec (- 2 ^ 63) v); [|lia]. destruct (Z.ltb_spec v (2 ^ 63)); [|lia]. cbn [andb].
    destruct (make_const_iff v w signed I Hw) as [A _]. rewrite (A M). reflexivity.
  - destruct (Z.ltb_spec w (num_bits v)) as [L|L]; [reflexivity|]. destruct (Z.leb_spec (num_bits v) 64) as [K|K]; [|lia].
    destruct (Z.leb_spec (- 2 ^ 63) v) as [A1|A1]; [|reflexivity]. destruct (Z.ltb_spec v (2 ^ 63)) as [A2|A2]; [|reflexivity]. cbn [andb].
    assert (I : int64 v) by (split; assumption). destruct (make_const_iff v w signed I Hw) as [_ A]. rewrite A; [reflexivity|].
    intros M. apply H. unfold representable, meant in *. destruct signed; [exact M|]. specialize (Pu eq_refl).
    destruct (Z.le_gt_cases 0 v) as [P|P]; [rewrite Z.mod_small in M by lia; exact M|].
    exfalso. assert (E : v mod 2 ^ 64 = v + 2 ^ 64) by (symmetry; apply (Z.mod_unique_pos _ _ (-1)); lia). lia.
Qed.
Example C473_ex : representable (-8) 4 true /\ ~ representable (-9) 4 true /\ ~ representable 16 4 false /\
  py_constant make_const (-8) 4 true = Ok (Word {| c_value := -8; c_width := 4; c_signed := true |}).
Proof.
  unfold representable. change (2 ^ (4 - 1)) with 8. change (2 ^ 4) with 16.
  split; [lia|]. split; [lia|]. split; [lia|reflexivity].
Qed.

(* C474: an unsigned constant of 64 bits can have every value of 64 bits.  Refuted: the upper half is refused *)
Theorem C474_upper_half_refuted :
  (forall mk v w signed, 2 ^ 63 <= v < 2 ^ 64 -> py_constant mk v w signed = Throw) /\
  ~ (forall v, representable v 64 false -> exists c, py_constant make_const v 64 false = Ok (Word c)).
Proof.
  assert (A : forall mk v w signed, 2 ^ 63 <= v < 2 ^ 64 -> py_constant mk v w signed = Throw).
  { intros mk v w signed H. unfold py_constant. destruct (num_bits v >? w); [reflexivity|].
    assert (N : num_bits v <= 64) by (apply num_bits_le; lia). destruct (Z.leb_spec (num_bits v) 64); [|lia].
    destruct (Z.ltb_spec v (2 ^ 63)); [lia|]. rewrite Bool.andb_false_r. reflexivity. }
  split; [exact A|]. intros H. destruct (H (2 ^ 63)) as (c & E); [split; [lia|reflexivity]|]. rewrite A in E; [discriminate|]. split; [lia|reflexivity].
Qed.
Example C474_ex : py_constant make_const (2 ^ 64 - 1) 64 false = Throw /\ representable (2 ^ 64 - 1) 64 false.
Proof. split; [reflexivity|]. unfold representable. lia. Qed.

(* C475: a negative value is refused for an unsigned constant.  Refuted: not for one of 64 bits, which gets another value *)
Theorem C475_negative_refuted :
  (forall v, - 2 ^ 63 <= v < 0 -> py_constant make_const v 64 false = Ok (Word {| c_value := v; c_width := 64; c_signed := false |})) /\
  ~ (forall v w, 1 <= w <= 64 -> v < 0 -> py_constant make_const v w false = Throw).
Proof.
  assert (A : forall v, - 2 ^ 63 <= v < 0 -> py_constant make_const v 64 false = Ok (Word {| c_value := v; c_width := 64; c_signed := false |})).
  { intros v H. assert (P63 : 2 ^ 63 + 2 ^ 63 = 2 ^ 64) by reflexivity.
    assert (N : num_bits v <= 64) by (apply num_bits_le; lia). unfold py_constant. rewrite Z.gtb_ltb.
    destruct (Z.ltb_spec 64 (num_bits v)); [lia|]. destruct (Z.leb_spec (num_bits v) 64); [|lia].
    destruct (Z.leb_spec (- 2 ^ 63) v); [|lia]. destruct (Z.ltb_spec v (2 ^ 63)); [|lia]. cbn [andb].
    destruct (make_const_iff v 64 false ltac:(split; lia) ltac:(lia)) as [B _]. rewrite B; [reflexivity|].
    unfold representable, meant. apply Z.mod_pos_bound. reflexivity. }
  split; [exact A|]. intros H. specialize (H (-1) 64 ltac:(lia) ltac:(lia)). rewrite A in H; [discriminate|]. split; [discriminate|reflexivity].
Qed.
Example C475_ex : py_constant make_const (-1) 64 false = Ok (Word {| c_value := -1; c_width := 64; c_signed := false |}) /\
  py_constant make_const (-1) 63 false = Throw.
Proof. split; reflexivity. Qed.

(* a string of one to eight characters of ASCII is taken, its value is that of the characters, the first one being the most significant,
   and its text is read back as the string if it has no quotes, backslashes and ends of line *)
Theorem C476_string : forall s, (1 <= String.length s <= 8)%nat -> Forall (fun c => (nat_of_ascii c < 128)%nat) (list_ascii_of_string s) ->
  py_string s = Ok ({| c_value := string_value 0 s; c_width := 8 * Z.of_nat (String.length s); c_signed := false |}, s) /\
  (Forall plain_char (list_ascii_of_string s) -> read_string (string_text s) = Some (list_ascii_of_string s)).
Proof.
  intros s L F. split.
  - destruct (convert_value s F ltac:(lia)) as (E & B & B2). unfold py_string, string_constant.
    destruct (Z.ltb_spec 8 (Z.of_nat (String.length s))); [lia|]. rewrite E.
    assert (I : int64 (string_value 0 s)) by (unfold int64; split; [|apply B]; apply (Z.le_trans _ 0); [discriminate|apply B]).
    destruct (make_const_iff (string_value 0 s) (8 * Z.of_nat (String.length s)) false I ltac:(lia)) as [A _]. rewrite A.
    + cbn [obind]. rewrite Z.gtb_ltb, Z.ltb_irrefl. reflexivity.
    + unfold representable, meant. rewrite Z.mod_small; [split; [apply B|exact B2]|]. split; [apply B|].
      apply (Z.lt_trans _ (2 ^ 63)); [apply B|reflexivity].
  - intros P. unfold string_text, read_string. apply (proj2 (read_back _) P).
Qed.
Example C476_ex : py_string "Hi" = Ok ({| c_value := 72 * 256 + 105; c_width := 16; c_signed := false |}, "Hi"%string) /\
  Forall plain_char (list_ascii_of_string "Hi").
Proof. split; [reflexivity|]. repeat constructor; discriminate. Qed.

(* C477: the text of a string constant is a literal of the string.  Refuted: for every string with a quote, a backslash or an end
   of line *)
Theorem C477_quotes_refuted :
  (forall s, ~ Forall plain_char (list_ascii_of_string s) -> read_string (string_text s) <> Some (list_ascii_of_string s)) /\
  ~ (forall s c, py_string s = Ok (c, s) -> read_string (string_text s) = Some (list_ascii_of_string s)).
Proof.
  assert (A : forall s, ~ Forall plain_char (list_ascii_of_string s) -> read_string (string_text s) <> Some (list_ascii_of_string s)).
  { intros s N E. apply N. apply read_back. exact E. }
  split; [exact A|]. intros H.
  specialize (H (String quote EmptyString) {| c_value := 34; c_width := 8; c_signed := false |} eq_refl). discriminate.
Qed.
Example C477_ex : read_string (string_text (String (ascii_of_nat 97) (String backslash (String (ascii_of_nat 110) EmptyString)))) = Some [ascii_of_nat 97; newline].
Proof. reflexivity. Qed.

(* C478: a string of at most eight characters is taken.  Refuted: no character outside ASCII is, nor is the empty string; more than
   eight are undefined *)
Theorem C478_string_refuted :
  (forall c, (128 <= nat_of_ascii c)%nat -> py_string (String c EmptyString) = Throw) /\ py_string EmptyString = Throw /\
  (forall s w, (8 < String.length s)%nat -> string_constant s w = UB) /\
  ~ (forall s, (String.length s <= 8)%nat -> exists c, py_string s = Ok c).
Proof.
  split; [|split; [reflexivity|split]].
  - intros c H. unfold py_string, string_constant. cbn [String.length]. change (8 <? Z.of_nat 1) with false. cbv iota.
    assert (E : convert_string_to_int (String c EmptyString) = Z.of_nat (nat_of_ascii c) - 256).
    { unfold convert_string_to_int. cbn [list_ascii_of_string rev app convert_from]. rewrite Z.shiftl_0_r, Z.lor_0_r. unfold char_i64.
      destruct (Z.ltb_spec (Z.of_nat (nat_of_ascii c)) 128); [lia|]. pose proof (nat_ascii_lt c).
      unfold u64, to_i64. rewrite <- (Z.mod_unique_pos (Z.of_nat (nat_of_ascii c) - 256) (2 ^ 64) (-1) (Z.of_nat (nat_of_ascii c) - 256 + 2 ^ 64)); [|lia|lia].
      destruct (Z.ltb_spec (Z.of_nat (nat_of_ascii c) - 256 + 2 ^ 64) (2 ^ 63)); lia. }
    rewrite E. pose proof (nat_ascii_lt c).
    destruct (make_const_iff (Z.of_nat (nat_of_ascii c) - 256) (8 * Z.of_nat 1) false) as [_ A]; [unfold int64; lia|lia|].
    rewrite A; [reflexivity|]. unfold representable, meant.
    rewrite <- (Z.mod_unique_pos (Z.of_nat (nat_of_ascii c) - 256) (2 ^ 64) (-1) (Z.of_nat (nat_of_ascii c) - 256 + 2 ^ 64)); [|lia|lia].
    change (8 * Z.of_nat 1) with 8. lia.
  - intros s w L. unfold string_constant. destruct (Z.ltb_spec 8 (Z.of_nat (String.length s))); [reflexivity|lia].
  - intros H. destruct (H EmptyString) as (c & E); [cbn; lia|]. discriminate.
Qed.
Example C478_ex : py_string (String (ascii_of_nat 228) EmptyString) = Throw.
Proof. reflexivity. Qed.
Print Assumptions C472_big_text.
Print Assumptions C473_word.
Print Assumptions C474_upper_half_refuted.
Print Assumptions C475_negative_refuted.
Print Assumptions C476_string.
Print Assumptions C477_quotes_refuted.
Print Assumptions C478_string_refuted.
