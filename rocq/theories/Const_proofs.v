From Verif Require Import Base SV_spec Num_model Num_spec Num_proofs Const_model Const_spec.
Local Open Scope Z_scope.

Lemma to_i64_small u : 0 <= u < 2 ^ 63 -> to_i64 u = u.
Proof. intros H. unfold to_i64. destruct (Z.ltb_spec u (2 ^ 63)); lia. Qed.

Lemma width_pow w : 1 <= w <= 64 -> 2 ^ (w - 1) <= 2 ^ 63 /\ 1 <= 2 ^ (w - 1).
Proof.
  intros H. split; [apply Z.pow_le_mono_r; lia|].
  pose proof (Z.pow_pos_nonneg 2 (w - 1)). lia.
Qed.
Lemma u32_small w : 0 <= w <= 64 -> u32 w = w.
Proof. intros. unfold u32. apply Z.mod_small. lia. Qed.

Lemma min_signed w : 1 <= w <= 64 ->
  to_i64 (u64 (Z.shiftl (2 ^ 64 - 1) (w - 1))) = - 2 ^ (w - 1).
Proof.
  intros H. destruct (width_pow w H) as [P1 P2]. rewrite Z.shiftl_mul_pow2 by lia.
  assert (u64 ((2 ^ 64 - 1) * 2 ^ (w - 1)) = 2 ^ 64 - 2 ^ (w - 1)) as ->.
  { unfold u64. symmetry. apply (Zmod_unique _ _ (2 ^ (w - 1) - 1)); [|ring].
    assert (2 ^ 63 < 2 ^ 64) by (apply Z.pow_lt_mono_r; lia). lia. }
  unfold to_i64. assert (2 ^ 64 = 2 * 2 ^ 63) as E by reflexivity. rewrite E.
  destruct (Z.ltb_spec (2 * 2 ^ 63 - 2 ^ (w - 1)) (2 ^ 63)); lia.
Qed.
Lemma max_signed w : 1 <= w <= 64 ->
  to_i64 (u64 (u64 (Z.shiftl 1 (w - 1)) - 1)) = 2 ^ (w - 1) - 1.
Proof.
  intros H. destruct (width_pow w H) as [P1 P2]. rewrite Z.shiftl_mul_pow2, Z.mul_1_l by lia.
  assert (2 ^ 63 < 2 ^ 64) by (apply Z.pow_lt_mono_r; lia).
  unfold u64. rewrite (Z.mod_small (2 ^ (w - 1))) by lia. rewrite Z.mod_small by lia.
  apply to_i64_small. lia.
Qed.
Lemma max_unsigned w : 0 <= w < 64 -> u64 (Z.shiftl 1 w - 1) = 2 ^ w - 1.
Proof.
  intros H. rewrite Z.shiftl_mul_pow2, Z.mul_1_l by lia. unfold u64. apply Z.mod_small.
  pose proof (Z.pow_pos_nonneg 2 w). assert (2 ^ w < 2 ^ 64) by (apply Z.pow_lt_mono_r; lia). lia.
Qed.
Lemma of_i64_pos v : int64 v -> 0 <= v -> of_i64 v = v.
Proof.
  intros [_ H] H0. unfold of_i64, u64. apply Z.mod_small.
  assert (2 ^ 63 < 2 ^ 64) by (apply Z.pow_lt_mono_r; lia). lia.
Qed.
Lemma of_i64_neg v : int64 v -> v < 0 -> of_i64 v = v + 2 ^ 64 /\ 2 ^ 63 <= of_i64 v.
Proof.
  intros [H _] H0. assert (2 ^ 64 = 2 * 2 ^ 63) as E by reflexivity.
  assert (of_i64 v = v + 2 ^ 64) as ->; [|lia].
  unfold of_i64, u64. symmetry. apply (Zmod_unique _ _ (-1)); lia.
Qed.

Lemma is_legal_signed v w : int64 v -> 1 <= w <= 64 ->
  is_legal v w true = Ok (if v <? - 2 ^ (w - 1) then Small
                          else if v >? 2 ^ (w - 1) - 1 then Big else Legal).
Proof.
  intros Hv Hw. unfold is_legal. rewrite u32_small by lia.
  destruct (Z.ltb_spec (w - 1) 64); [|lia]. rewrite min_signed, max_signed by lia.
  destruct (v <? - 2 ^ (w - 1)); [reflexivity|]. now destruct (v >? 2 ^ (w - 1) - 1).
Qed.
Lemma is_legal_unsigned v w : 0 <= w <= 64 ->
  is_legal v w false = Ok (if of_i64 v >? 2 ^ w - 1 then Big else Legal).
Proof.
  intros Hw. unfold is_legal. destruct (Z.eqb_spec w 64) as [->|N].
  - cbn [obind]. now destruct (of_i64 v >? 2 ^ 64 - 1).
  - destruct (Z.ltb_spec w 64); [|lia]. cbn [obind]. rewrite max_unsigned by lia.
    now destruct (of_i64 v >? 2 ^ w - 1).
Qed.

Lemma is_legal_iff v w s : int64 v -> 1 <= w <= 64 ->
  exists k, is_legal v w s = Ok k /\ (k = Legal <-> representable (meant v s) w s).
Proof.
  intros Hv Hw. destruct s.
  - rewrite is_legal_signed by auto. eexists. split; [reflexivity|]. cbn [meant representable].
    destruct (Z.ltb_spec v (- 2 ^ (w - 1))); [split; [discriminate|lia]|].
    rewrite Z.gtb_ltb. destruct (Z.ltb_spec (2 ^ (w - 1) - 1) v); [split; [discriminate|lia]|].
    split; [lia|reflexivity].
  - rewrite is_legal_unsigned by lia. eexists. split; [reflexivity|]. cbn [meant representable].
    unfold of_i64, u64. pose proof (Z.mod_pos_bound v (2 ^ 64) ltac:(lia)).
    rewrite Z.gtb_ltb. destruct (Z.ltb_spec (2 ^ w - 1) (v mod 2 ^ 64)); [split; [discriminate|lia]|].
    split; [lia|reflexivity].
Qed.
Lemma meant_small v w : int64 v -> 1 <= w <= 63 ->
  (representable (meant v false) w false <-> representable v w false).
Proof.
  intros Hv Hw. cbn [meant representable]. assert (2 ^ w <= 2 ^ 63) by (apply Z.pow_le_mono_r; lia).
  change (v mod 2 ^ 64) with (of_i64 v).
  destruct (Z.ltb_spec v 0).
  - destruct (of_i64_neg v Hv) as [-> ?]; [lia|]. split; lia.
  - rewrite of_i64_pos by auto. reflexivity.
Qed.

Lemma make_const_iff v w s : int64 v -> 1 <= w <= 64 ->
  (representable (meant v s) w s ->
     make_const v w s = Ok {| c_value := v; c_width := w; c_signed := s |}) /\
  (~ representable (meant v s) w s -> make_const v w s = Throw).
Proof.
  intros Hv Hw. destruct (is_legal_iff v w s Hv Hw) as (k & E & K). unfold make_const.
  destruct (Z.eqb_spec w 0); [lia|]. rewrite E. cbn [obind]. split; intros H.
  - apply K in H. now rewrite H.
  - destruct k; auto; [now destruct H; apply K|]. destruct (Z.leb_spec w 64); [auto|lia].
Qed.

Lemma to_i64_range u : 0 <= u < 2 ^ 64 -> int64 (to_i64 u).
Proof.
  intros H. unfold int64, to_i64. assert (2 ^ 64 = 2 * 2 ^ 63) as E by reflexivity.
  destruct (Z.ltb_spec u (2 ^ 63)); lia.
Qed.

Lemma set_value_good c v : good c -> int64 v ->
  set_value c v = Throw \/
  (set_value c v = Ok {| c_value := v; c_width := c_width c; c_signed := c_signed c |}
   /\ representable (meant v (c_signed c)) (c_width c) (c_signed c)).
Proof.
  intros (_ & Hw & _) Hv. destruct (is_legal_iff v (c_width c) (c_signed c) Hv Hw) as (k & E & K).
  unfold set_value. rewrite E. cbn [obind]. destruct k; auto. right. split; auto. now apply K.
Qed.
Lemma const_step_good c o : good c -> op_ok o ->
  exists c', const_step (Ok c) o = Ok c' /\ good c' /\ c_signed c' = c_signed c.
Proof.
  intros Hg Ho. pose proof Hg as (Hv & Hw & Hr). unfold const_step. cbn [obind].
  destruct o as [v|w|s]; cbn [op_ok] in Ho.
  - destruct (set_value_good c v Hg Ho) as [->|[-> R]]; eexists; (split; [reflexivity|]); split; auto.
    split; [|split]; auto.
  - destruct (is_legal_iff (c_value c) w (c_signed c) Hv Ho) as (k & E & K).
    unfold set_width. rewrite E. cbn [obind].
    destruct k; eexists; (split; [reflexivity|]); split; auto.
    split; [|split]; auto. now apply K.
  - unfold set_value_string. destruct (8 * Z.of_nat (String.length s) >? 8); [eauto|].
    assert (int64 (convert_string_to_int s)) as Hs
      by (apply to_i64_range, Z.mod_pos_bound; reflexivity).
    destruct (set_value_good c _ Hg Hs) as [->|[-> R]]; eexists; (split; [reflexivity|]); split; auto.
    split; [|split]; auto.
Qed.
Lemma const_history ops : forall c, good c -> Forall op_ok ops ->
  exists c', fold_left const_step ops (Ok c) = Ok c' /\ good c' /\ c_signed c' = c_signed c.
Proof.
  induction ops as [|o r IH]; intros c Hg H; [exists c; auto|].
  apply Forall_cons_iff in H as [Ho Hr]. cbn [fold_left].
  destruct (const_step_good c o Hg Ho) as (c1 & -> & G1 & S1).
  destruct (IH c1 G1 Hr) as (c2 & E & G2 & S2). exists c2. split; auto. split; auto. congruence.
Qed.

(* literals *)
Lemma append_assoc a b c : ((a ++ b) ++ c = a ++ b ++ c)%string.
Proof. induction a; cbn; congruence. Qed.
Lemma append_nil_r a : (a ++ "" = a)%string.
Proof. induction a; cbn; congruence. Qed.

Lemma read_literal_pos w v : 0 <= w -> 0 <= v ->
  read_literal (dec w ++ "'h" ++ hex v) = Some (w, enc w v).
Proof.
  intros Hw Hv.
  assert (exists d r, 0 <= d < 10 /\ (dec w ++ "'h" ++ hex v)%string = String (digit_char d) r) as (d & r & Hd & E).
  { unfold dec, print_num. rewrite digits_app. apply digits_cons; lia. }
  unfold read_literal. rewrite E.
  assert (forall (A : Type) (x y : A), match digit_char d with "-"%char => x | _ => y end = y) as M.
  { intros A x y. assert (d = 0 \/ d = 1 \/ d = 2 \/ d = 3 \/ d = 4 \/ d = 5 \/ d = 6 \/ d = 7 \/ d = 8 \/ d = 9) as K by lia.
    repeat (destruct K as [->|K]; [reflexivity|]). now subst. }
  rewrite M. rewrite <- E. unfold dec. rewrite (read_print 10 w) by (cbn; lia || auto; exact I).
  cbn [append]. rewrite <- (append_nil_r (hex v)). unfold hex.
  rewrite (read_print 16 v) by (cbn; lia || auto; exact I). reflexivity.
Qed.
Lemma read_literal_neg w v : 0 <= w -> 0 <= v ->
  read_literal ("-" ++ dec w ++ "'h" ++ hex v) = Some (w, enc w (- v)).
Proof.
  intros Hw Hv. unfold read_literal. cbn [append].
  change (String "-" (dec w ++ String "'" (String "h" (hex v))))
    with (String "-" (dec w ++ "'h" ++ hex v)). unfold dec.
  rewrite (read_print 10 w) by (cbn; lia || auto; exact I).
  cbn [append]. rewrite <- (append_nil_r (hex v)). unfold hex.
  rewrite (read_print 16 v) by (cbn; lia || auto; exact I). reflexivity.
Qed.
Lemma const_literal c : 0 < c_width c -> c_value c <> - 2 ^ 63 ->
  (c_signed c = false -> 0 <= c_value c) ->
  exists s, const_to_string c = Ok s /\ read_literal s = Some (c_width c, enc (c_width c) (c_value c)).
Proof.
  intros Hw Hm Hu. unfold const_to_string.
  destruct (c_signed c && (c_value c <? 0)) eqn:E.
  - destruct (Z.eqb_spec (c_value c) (- 2 ^ 63)); [contradiction|].
    eexists. split; [reflexivity|]. unfold fmt_hex. destruct (Z.ltb_spec (- c_value c) 0); [lia|].
    rewrite read_literal_neg by lia. now rewrite Z.opp_involutive.
  - eexists. split; [reflexivity|]. unfold fmt_hex. destruct (Z.ltb_spec (c_value c) 0) as [L|L].
    + destruct (c_signed c); cbn in E; [discriminate|]. specialize (Hu eq_refl). lia.
    + now apply read_literal_pos; [lia|].
Qed.
