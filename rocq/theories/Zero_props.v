(* C26, C142..C146: zeroing the unconnected inputs of an instance *)
From Verif Require Import Base Slice_spec Slice_model Const_model Const_spec Const_proofs Zero_spec Zero_model Zero_proofs.
Local Open Scope Z_scope.

(* C26: of a port with n elements of vw bits every bit that nothing drives is assigned zero once, and no
   other bit *)
Theorem C26_zeroes_exactly_the_missing_bits : forall n vw s ds zs, 0 < n -> 0 < vw -> Forall (inside (n * vw)) ds ->
  zero_input (declare [n] vw false) s ds = Ok zs ->
  (forall b, 0 <= b < n * vw -> times_zeroed zs b = if driven ds b then 0%nat else 1%nat)
  /\ (forall z, In z zs -> 0 <= z_low z <= z_high z /\ z_high z < n * vw).
Proof.
  intros n vw s ds zs N V F E. unfold zero_input in E. assert (v_width (declare [n] vw false) = n * vw) as Wd by (unfold v_width; cbn; lia). rewrite Wd in E.
  destruct (connected (n * vw) ds) as [c bits] eqn:C.
  assert (bits = snd (connected (n * vw) ds)) as Bs by now rewrite C.
  destruct (c && _) eqn:X.
  - apply andb_true_iff in X as [X _]. injection E as <-. split; [|intros z []]. intros b B. rewrite (connected_whole (n * vw) ds) by (rewrite C; exact X). reflexivity.
  - rewrite Bs in E. fold (missing (n * vw) ds) in E. destruct (missing (n * vw) ds) as [|d l] eqn:M; [discriminate|].
    apply omapM_Forall2 in E.
    assert (Forall2 (fun hl z => (z_high z = fst hl /\ z_low z = snd hl) /\ In hl (runs d d d (d :: l))) (runs d d d (d :: l)) zs) as G.
    { assert (forall L zs, incl L (runs d d d (d :: l)) -> Forall2 (fun a b => wire_zero (declare [n] vw false) s (fst a) (snd a) = Ok b) L zs ->
        Forall2 (fun hl z => (z_high z = fst hl /\ z_low z = snd hl) /\ In hl (runs d d d (d :: l))) L zs) as Q; [|now apply Q].
      intros L zs' Inc Q. induction Q as [|hl z L zs' W Q IH]; constructor.
      - assert (In hl (runs d d d (d :: l))) as I by (apply Inc; now left). split; [|exact I]. destruct hl as [h k]. destruct (runs_of_missing _ _ _ _ _ _ F M I) as (R1 & R2 & _). cbn [fst snd] in *.
        destruct (wire_zero_exact n vw s h k z N V R1 R2 W) as (-> & -> & _). auto.
      - apply IH. intros x J. apply Inc. now right. }
    split.
    + intros b B. rewrite (times_hits (runs d d d (d :: l))).
      * pose proof (missing_incr (n * vw) ds) as I. rewrite M in I. rewrite runs_first by (destruct I as [I1 I2]; split; [lia|exact I2]).
        unfold inb. destruct (existsb (Z.eqb b) (d :: l)) eqn:Y.
        -- apply existsb_exists in Y as (x & J & Y). apply Z.eqb_eq in Y as <-. rewrite <- M in J. apply missing_in in J as [_ ->]; [reflexivity|exact F].
        -- destruct (driven ds b) eqn:Dr; [reflexivity|]. exfalso. assert (In b (missing (n * vw) ds)) as J by (apply missing_in; auto). rewrite M in J. rewrite <- not_true_iff_false in Y. apply Y. apply existsb_exists. exists b. split; [exact J|apply Z.eqb_refl].
      * clear -G. induction G as [|? ? ? ? [W _] G IH]; constructor; auto.
    + intros z I. clear E. assert (forall L, Forall2 (fun hl z => (z_high z = fst hl /\ z_low z = snd hl) /\ In hl (runs d d d (d :: l))) L zs -> exists hl, z_high z = fst hl /\ z_low z = snd hl /\ In hl (runs d d d (d :: l))) as Q.
      { intros L Q. clear G. induction Q as [|hl z' L zs' W Q IH]; [destruct I|]. destruct I as [->|I]; [exists hl; tauto|auto]. }
      destruct (Q _ G) as ([h k] & -> & -> & J). destruct (runs_of_missing _ _ _ _ _ _ F M J) as (R1 & R2 & _). cbn. lia.
Qed.
(* and it succeeds for ports up to 64 bits, of which whole elements are driven, unless several
   assignments to parts together drive all bits *)
Theorem C26_zeroing_succeeds : forall n vw s ds, 0 < n -> 0 < vw -> n * vw <= 64 -> Forall (inside (n * vw)) ds -> n = 1 \/ Forall (aligned vw) ds ->
  In Whole ds \/ (exists b, 0 <= b < n * vw /\ driven ds b = false) ->
  exists zs, zero_input (declare [n] vw false) s ds = Ok zs.
Proof.
  intros n vw s ds N V S F A H. unfold zero_input. assert (v_width (declare [n] vw false) = n * vw) as Wd by (unfold v_width; cbn; lia). rewrite Wd.
  destruct (fst (connected (n * vw) ds)) eqn:C.
  - pose proof (whole_count (n * vw) ds ltac:(nia) F C) as K. destruct (connected (n * vw) ds) as [c bits]. cbn in C, K. subst c. rewrite K, Z.eqb_refl. cbn. eauto.
  - destruct H as [H|(b & B & D)].
    { exfalso. clear -C H. induction ds as [|d ds IH]; [destruct H|]. destruct d; cbn in C; try discriminate; (destruct H as [H|H]; [discriminate|]; destruct (connected (n * vw) ds); apply IH; auto). }
    destruct (connected (n * vw) ds) as [c bits] eqn:Cn. cbn in C. subst c. cbn [andb]. assert (bits = snd (connected (n * vw) ds)) as -> by now rewrite Cn. fold (missing (n * vw) ds).
    destruct (missing (n * vw) ds) as [|d l] eqn:M.
    { exfalso. assert (In b (missing (n * vw) ds)) as J by (apply missing_in; auto). rewrite M in J. destruct J. }
    apply omapM_Ok. intros [h k] I. destruct (runs_of_missing _ _ _ _ _ _ F M I) as (R1 & R2 & D1 & D2 & D3 & D4). cbn [fst snd].
    apply wire_zero_total; auto. destruct A as [A|A]; [now left|right]. split.
    + destruct (Z.eq_dec k 0) as [->|K]; [now rewrite Z.mod_0_l by lia|]. assert (driven ds (k - 1) = true) as X by (apply D3; lia).
      pose proof (boundary vw ds (k - 1) V A) as Q. replace (k - 1 + 1) with k in Q by lia. apply Q. congruence.
    + destruct (Z.eq_dec (h + 1) (n * vw)) as [->|K]; [apply Z.mod_mul; lia|]. apply (boundary vw ds h V A). rewrite D4 by lia. congruence.
Qed.
Example C26_zeroes_ex : zero_input (declare [1] 8 false) false [Bits 1 2; Bits 6 6]
    = Ok [{| z_owner := Child; z_high := 0; z_low := 0 |}; {| z_owner := Child; z_high := 5; z_low := 3 |}; {| z_owner := Child; z_high := 7; z_low := 7 |}]
  /\ zero_input (declare [4] 2 false) false [Bits 4 5] = Ok [{| z_owner := Child; z_high := 3; z_low := 0 |}; {| z_owner := Child; z_high := 7; z_low := 6 |}]
  /\ zero_input (declare [4] 2 false) false [] = Ok [{| z_owner := Child; z_high := 7; z_low := 0 |}].
Proof. repeat split; reflexivity. Qed.

(* C142: an input all of whose bits are driven by parts, or that is indexed by a variable, makes it read
   the first element of an empty list *)
Theorem C142_fully_driven_by_parts_refuted : forall n vw s ds, 0 < n -> 0 < vw -> Forall (inside (n * vw)) ds -> ~ In Whole ds ->
  (forall b, 0 <= b < n * vw -> driven ds b = true) -> zero_input (declare [n] vw false) s ds = UB.
Proof.
  intros n vw s ds N V F W D. unfold zero_input. assert (v_width (declare [n] vw false) = n * vw) as Wd by (unfold v_width; cbn; lia). rewrite Wd.
  assert (fst (connected (n * vw) ds) = false) as C.
  { clear -W. induction ds as [|d ds IH]; [reflexivity|]. destruct d; cbn; [exfalso; apply W; now left| |]; (destruct (connected (n * vw) ds); cbn in *; apply IH; intros H; apply W; now right). }
  destruct (connected (n * vw) ds) as [c bits] eqn:Cn. cbn in C. subst c. cbn [andb]. assert (bits = snd (connected (n * vw) ds)) as -> by now rewrite Cn. fold (missing (n * vw) ds).
  destruct (missing (n * vw) ds) as [|d l] eqn:M; [reflexivity|]. exfalso. assert (In d (missing (n * vw) ds)) as J by (rewrite M; now left). apply missing_in in J as [B J]; [|exact F]. rewrite D in J by exact B. discriminate.
Qed.
Example C142_fully_driven_ex : Forall (inside (1 * 4)) [Bits 0 1; Bits 2 3] /\ ~ In Whole [Bits 0 1; Bits 2 3] /\ (forall b, 0 <= b < 1 * 4 -> driven [Bits 0 1; Bits 2 3] b = true).
Proof. split; [repeat constructor; cbn; lia|]. split; [cbn; intuition discriminate|]. intros b B. cbn. lia. Qed.

(* C143: inputs of more than 64 bits that nothing drives *)
Theorem C143_wide_inputs_refuted : forall w, 64 < w < 2 ^ 32 -> zero_input (declare [1] w false) false [] = UB.
Proof.
  intros w W. unfold zero_input. cbn [connected andb].
  assert (v_width (declare [1] w false) = w) as Wd by (unfold v_width; cbn; lia). rewrite Wd.
  change (filter (fun i => negb (existsb (Z.eqb i) [])) (range 0 (w - 1))) with (missing w []). destruct (missing w []) as [|d l] eqn:M; [reflexivity|].
  assert (incr (-1) (missing w [])) as I by apply missing_incr. rewrite M in I.
  assert (d = 0) as ->.
  { assert (In 0 (missing w [])) as J by (apply missing_in; [constructor|cbn; split; [lia|reflexivity]]). rewrite M in J. destruct J as [J|J]; [exact J|]. destruct I as [I1 I2]. apply (incr_in _ _ _ I2) in J. lia. }
  assert (exists r, runs 0 0 0 (0 :: l) = [(w - 1, 0)] /\ r = tt) as (_ & -> & _).
  { exists tt. split; [|reflexivity].
    assert (forall hk, In hk (runs 0 0 0 (0 :: l)) -> hk = (w - 1, 0)) as U.
    { intros [h k] J. destruct (runs_of_missing w [] 0 l h k (Forall_nil _) M J) as (R1 & R2 & _ & _ & R3 & R4).
      cbn in R3, R4. assert (k = 0) by (destruct (Z.eq_dec k 0); [auto|discriminate R3; lia]). assert (h = w - 1) by (destruct (Z.eq_dec h (w - 1)); [auto|discriminate R4; lia]). congruence. }
    pose proof (runs_first 0 l 0 I) as C. unfold inb in C. cbn [existsb] in C. rewrite Z.eqb_refl in C. cbn [orb] in C.
    unfold hits in C. remember (runs 0 0 0 (0 :: l)) as R eqn:HR. clear HR. destruct R as [|a [|b R]]; [discriminate C|now rewrite (U a (or_introl eq_refl))|].
    exfalso. rewrite (U a (or_introl eq_refl)), (U b (or_intror (or_introl eq_refl))) in C. cbn [filter] in C. unfold covers at 1 3 in C. cbn [fst snd] in C. replace (0 <=? w - 1) with true in C by lia. cbn in C. replace (0 <=? w - 1) with true in C by lia. cbn in C. discriminate C. }
  cbn [omapM fst snd]. unfold wire_zero. change (scalar (declare [1] w false)) with true. cbn [obind]. rewrite Wd. replace ((0 =? 0) && (w - 1 =? w - 1)) with true by lia.
  unfold is_legal. replace (w =? 64) with false by lia. replace (w <? 64) with false by lia. reflexivity.
Qed.
Example C143_wide_inputs_ex : 64 < 65 < 2 ^ 32. Proof. lia. Qed.

(* C144: an array with two dimensions: with only its first element missing, the driven elements beside
   it are zeroed as well; with nothing connected it is rejected *)
Theorem C144_two_dimensions_refuted :
  (let ds := [Bits 2 7] in zero_input (declare [2; 2] 2 false) false ds = Ok [{| z_owner := Child; z_high := 3; z_low := 0 |}] /\ driven ds 2 = true /\ driven ds 3 = true)
  /\ zero_input (declare [2; 2] 2 false) false [] = Throw.
Proof. split; [repeat split|]; reflexivity. Qed.

(* C145: every zero is a statement of the instantiated module and not of the one that instantiates it *)
Theorem C145_zero_outside_the_parent_refuted : forall p s ds zs, zero_input p s ds = Ok zs -> Forall (fun z => z_owner z = Child) zs.
Proof.
  intros p s ds zs E. unfold zero_input in E. destruct (connected _ ds) as [c bits]. destruct (c && _); [injection E as <-; constructor|]. destruct (filter _ _) as [|d l]; [discriminate|].
  apply omapM_Forall2 in E. clear -E. remember (runs d d d (d :: l)) as R. clear HeqR. induction E as [|a z l' zs' W E IH]; constructor; auto.
  unfold wire_zero in W. destruct (if scalar p then _ else _) as [[hh ll]| |]; try discriminate. cbn [obind] in W. destruct (_ && _).
  - destruct (is_legal _ _ _); try discriminate. cbn in W. now injection W as <-.
  - destruct (select _ _ _) as [v| |]; try discriminate. cbn [obind] in W. destruct (is_legal _ _ _); try discriminate. cbn in W. now injection W as <-.
Qed.
Example C145_zero_outside_the_parent_ex : zero_input (declare [1] 2 false) false [Bits 0 0] = Ok [{| z_owner := Child; z_high := 1; z_low := 1 |}].
Proof. reflexivity. Qed.
Print Assumptions C26_zeroes_exactly_the_missing_bits.
Print Assumptions C26_zeroing_succeeds.
Print Assumptions C142_fully_driven_by_parts_refuted.
Print Assumptions C143_wide_inputs_refuted.
Print Assumptions C144_two_dimensions_refuted.
Print Assumptions C145_zero_outside_the_parent_refuted.
