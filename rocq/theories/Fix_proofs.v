From Coq Require Import Lia.
From Verif Require Import Base Const_spec Const_model Const_proofs Loop_spec Loop_model Loop_props Fix_spec Fix_model.
Local Open Scope Z_scope.
Local Open Scope list_scope.

Lemma has_iter_over s : has_iter s = true <-> exists i, over s i.
Proof.
  induction s as [i|c|x w|w s IH|w s IH|o sg a IHa b IHb]; cbn [has_iter].
  - split; [exists i; constructor|reflexivity].
  - split; [discriminate|intros (i & H); inversion H].
  - split; [discriminate|intros (i & H); inversion H].
  - split; [discriminate|intros (i & H); inversion H].
  - rewrite IH. split; intros (i & H); exists i; [constructor; exact H|inversion H; assumption].
  - rewrite Bool.orb_true_iff, IHa, IHb. split.
    + intros [(i & H)|(i & H)]; exists i; [apply O_left|apply O_right]; exact H.
    + intros (i & H). inversion H; subst; [left|right]; exists i; assumption.
Qed.
Lemma width_iff st s : forall w, width st s = Some w <-> has_width st s w.
Proof.
  induction s as [i|c|x v|v s IH|v s IH|o sg a IHa b IHb]; intros w; cbn [width].
  - split; [intros [= <-]; constructor|intros H; inversion H; reflexivity].
  - split; [intros [= <-]; constructor|intros H; inversion H; reflexivity].
  - split; [intros [= <-]; constructor|intros H; inversion H; reflexivity].
  - split; [intros [= <-]; constructor|intros H; inversion H; reflexivity].
  - split; [intros [= <-]; constructor|intros H; inversion H; reflexivity].
  - assert (G : o <> Lt -> (match width st a, width st b with Some x, Some y => if x =? y then Some x else None | _, _ => None end = Some w <-> has_width st (Op2 o sg a b) w)).
    { intros N. split.
      - destruct (width st a) as [x|] eqn:Ea; [|discriminate]. destruct (width st b) as [y|] eqn:Eb; [|discriminate].
        destruct (Z.eqb_spec x y) as [->|]; [|discriminate]. intros [= ->]. apply W_op; [exact N|apply IHa; reflexivity|apply IHb; reflexivity].
      - intros H. inversion H as [| | | | | |o' sg' a' b' w' N' Ha Hb]; subst; [congruence|]. apply IHa in Ha. apply IHb in Hb. rewrite Ha, Hb, Z.eqb_refl. reflexivity. }
    destruct o; try (apply G; discriminate). split; [intros [= <-]; constructor|intros H; inversion H; [reflexivity|congruence]].
Qed.
Lemma width_fun st s w w' : has_width st s w -> has_width st s w' -> w = w'.
Proof. intros A B. apply width_iff in A. apply width_iff in B. congruence. Qed.
Lemma safe_loop other i w sg : ordinary i -> l_signed i = sg -> 1 <= w <= 64 ->
  (safe other (Loop i) w sg = true <-> forall v, l_min i <= v < l_max i -> representable v w sg).
Proof.
  intros (L & Ia & Ib & N) <- W. unfold safe. cbn [ranges].
  assert (E : safe_to_resize (value other (Loop i)) [(l_min i, l_max i)] w (l_signed i) = (fits_width (Some (l_min i)) w (l_signed i) && fits_width (Some (l_max i - 1)) w (l_signed i))%bool).
  { unfold safe_to_resize. cbn [map fst snd length seq forallb set_at nth value]. rewrite Bool.andb_true_r. reflexivity. }
  rewrite E, Bool.andb_true_iff.
  assert (Ic : int64 (l_max i - 1)) by (unfold int64 in *; revert Ia Ib; generalize (2 ^ 63); intros; lia).
  rewrite (fits_iff _ _ _ Ia W), (fits_iff _ _ _ Ic W).
  assert (Mn : forall v, l_min i <= v < l_max i -> meant v (l_signed i) = v).
  { intros v Hv. unfold meant. destruct (l_signed i); [reflexivity|]. specialize (N eq_refl). apply Z.mod_small. unfold int64 in *.
    assert (2 ^ 63 < 2 ^ 64) by reflexivity. revert Ia Ib H. generalize (2 ^ 63), (2 ^ 64). intros. lia. }
  rewrite !Mn by lia. split.
  - intros (A & B) v Hv. destruct (l_signed i); cbn [representable] in *; lia.
  - intros H. split; apply H; lia.
Qed.
Lemma ranges_loops s : ranges s = map (fun i => (l_min i, l_max i)) (loops s).
Proof. induction s as [i|c|x v|v s IH|v s IH|o sg a IHa b IHb]; cbn [ranges loops]; try reflexivity. rewrite IHa, IHb, map_app. reflexivity. Qed.
Lemma set_at_taken (l : list loop) : Forall (fun i => l_min i < l_max i) l -> forall k,
  Forall2 (fun v i => l_min i <= v < l_max i) (set_at (map (fun r => snd r - 1) (map (fun i => (l_min i, l_max i)) l)) k (fst (nth k (map (fun i => (l_min i, l_max i)) l) (0, 0)))) l.
Proof.
  assert (T : forall l, Forall (fun i => l_min i < l_max i) l -> Forall2 (fun v i => l_min i <= v < l_max i) (map (fun r => snd r - 1) (map (fun i => (l_min i, l_max i)) l)) l).
  { induction 1 as [|i r H F IH]; [constructor|]. cbn [map snd]. constructor; [lia|exact IH]. }
  induction l as [|i r IH]; intros F k; [destruct k; constructor|]. assert (Hi : l_min i < l_max i) by (inversion F; assumption). assert (Fr : Forall (fun i => l_min i < l_max i) r) by (inversion F; assumption).
  destruct k; cbn [map set_at nth fst snd]; constructor; [lia|apply T, Fr|lia|apply IH, Fr].
Qed.
Lemma top_taken (l : list loop) : Forall (fun i => l_min i < l_max i) l -> Forall2 (fun v i => l_min i <= v < l_max i) (map (fun r => snd r - 1) (map (fun i => (l_min i, l_max i)) l)) l.
Proof. induction 1 as [|i r H F IH]; [constructor|]. cbn [map snd]. constructor; [lia|exact IH]. Qed.
Lemma fits_word x w : 0 <= w <= 64 -> int64 x -> 0 <= x < 2 ^ w -> fits_width (Some x) w false = true.
Proof.
  intros W I H. unfold fits_width. rewrite is_legal_unsigned by exact W.
  assert (E : of_i64 x = x). { unfold of_i64, u64. apply Z.mod_small. unfold int64 in I. assert (2 ^ 63 < 2 ^ 64) by reflexivity. revert I H0. generalize (2 ^ 63), (2 ^ 64). intros. lia. }
  rewrite E. rewrite Z.gtb_ltb. destruct (Z.ltb_spec (2 ^ w - 1) x); [lia|reflexivity].
Qed.
Lemma safe_of other s w : (forall i, s <> Loop i) -> Forall (fun i => l_min i < l_max i) (loops s) -> 0 <= w <= 64 ->
  (forall l, taken l s -> exists x, other s l = Some x /\ int64 x /\ 0 <= x < 2 ^ w) -> safe other s w false = true.
Proof.
  intros Ns F W H. unfold safe. rewrite ranges_loops. destruct (map _ (loops s)) as [|r0 rs] eqn:E; [reflexivity|]. rewrite <- E. clear E r0 rs.
  assert (V : forall l, value other s l = other s l) by (intros l; unfold value; destruct s; try reflexivity; congruence).
  unfold safe_to_resize. apply forallb_forall. intros k _. rewrite !V. apply andb_true_intro. split.
  - destruct (H _ (set_at_taken (loops s) F k)) as (x & -> & A & B). apply fits_word; assumption.
  - destruct (H _ (top_taken (loops s) F)) as (x & -> & A & B). apply fits_word; assumption.
Qed.
Lemma set_width_unsigned c w : c_signed c = false -> int64 (c_value c) -> 0 <= c_value c -> 0 <= w <= 64 ->
  set_width c w = if c_value c <? 2 ^ w then Ok {| c_value := c_value c; c_width := w; c_signed := c_signed c |} else Throw.
Proof.
  intros Sg Iv P W. unfold set_width. rewrite Sg, is_legal_unsigned by exact W.
  assert (E : of_i64 (c_value c) = c_value c). { unfold of_i64, u64. apply Z.mod_small. unfold int64 in Iv. assert (2 ^ 63 < 2 ^ 64) by reflexivity. revert Iv H. generalize (2 ^ 63), (2 ^ 64). intros. lia. }
  rewrite E, Z.gtb_ltb. cbn [obind]. destruct (Z.ltb_spec (2 ^ w - 1) (c_value c)), (Z.ltb_spec (c_value c) (2 ^ w)); try lia; reflexivity.
Qed.

(* some constants of a sound store have been given the width w *)
Definition rewidth (w : Z) (st st' : store) : Prop :=
  sound st' /\ forall c, st' c = st c \/ st' c = {| c_value := c_value (st c); c_width := w; c_signed := c_signed (st c) |}.
Lemma rewidth_refl w st : sound st -> rewidth w st st. Proof. intros H. split; [exact H|]. intros c. left. reflexivity. Qed.
Lemma rewidth_trans w a b c : rewidth w a b -> rewidth w b c -> rewidth w a c.
Proof.
  intros (_ & H) (Sc & H'). split; [exact Sc|]. intros x. destruct (H' x) as [->|E]; [apply H|]. right. rewrite E. destruct (H x) as [-> | ->]; reflexivity.
Qed.
Lemma rewidth_same w st st' c : rewidth w st st' -> c_width (st c) = w -> st' c = st c.
Proof. intros (_ & H) E. destruct (H c) as [X|X]; [exact X|]. rewrite X, <- E. destruct (st c); reflexivity. Qed.
Lemma rewidth_width w st st' s v : rewidth w st st' -> (forall c, uses s c -> c_width (st c) = w) -> has_width st s v -> has_width st' s v.
Proof.
  intros R U H. induction H as [i|c|x v|v s|v s|sg a b|o sg a b v N Ha IHa Hb IHb]; try constructor.
  - rewrite <- (rewidth_same w st st' c R (U c (U_lit c))). constructor.
  - exact N.
  - apply IHa. intros c Hc. apply U, U_left, Hc.
  - apply IHb. intros c Hc. apply U, U_right, Hc.
Qed.
Lemma rewidth_bits w st st' env sv s v : rewidth w st st' -> (forall c, uses s c -> c_width (st c) = w) -> bits st env sv s v -> bits st' env sv s v.
Proof.
  intros R U H. induction H as [i|c|x v|v s x B IH|v s x B IH|o sg a b v x y W Ba IHa Bb IHb]; try (constructor; fail).
  - rewrite <- (rewidth_same w st st' c R (U c (U_lit c))). constructor.
  - constructor. apply IH. intros c Hc. apply U, U_sized, Hc.
  - constructor. apply IH. intros c Hc. apply U, U_part, Hc.
  - apply B_op; [eapply rewidth_width; eassumption|apply IHa; intros c Hc; apply U, U_left, Hc|apply IHb; intros c Hc; apply U, U_right, Hc].
Qed.
Lemma fix_rewidth st s w : sound st -> 0 <= w <= 64 -> forall st1 r1 o, fix_width st s w = (st1, r1, o) -> rewidth w st st1 /\ o <> UB.
Proof.
  intros Sd W. revert st Sd. induction s as [i|c|x v|v s IH|v s IH|op sg a IHa b IHb]; intros st Sd st1 r1 o E; cbn [fix_width] in E.
  - injection E as <- _ <-. split; [apply rewidth_refl, Sd|discriminate].
  - destruct (Sd c) as (Sg & V & Iv). rewrite (set_width_unsigned (st c) w Sg Iv (proj1 V) W) in E.
    destruct (Z.ltb_spec (c_value (st c)) (2 ^ w)) as [L|L].
    + injection E as <- _ <-. split; [|discriminate]. split.
      * intros d. unfold upd. destruct (Nat.eqb d c); [cbn; split; [exact Sg|split; [lia|exact Iv]]|apply Sd].
      * intros d. unfold upd. destruct (Nat.eqb_spec d c) as [->|N]; [right; reflexivity|left; reflexivity].
    + injection E as <- _ <-. split; [apply rewidth_refl, Sd|discriminate].
  - injection E as <- _ <-. split; [apply rewidth_refl, Sd|discriminate].
  - injection E as <- _ <-. split; [apply rewidth_refl, Sd|discriminate].
  - injection E as <- _ <-. split; [apply rewidth_refl, Sd|discriminate].
  - destruct (fix_width st a w) as ((st2 & a1) & oa) eqn:Ea. destruct (IHa st Sd _ _ _ Ea) as (Ra & Na).
    destruct oa as [u| |]; [|injection E as <- _ <-; split; [exact Ra|discriminate]|congruence].
    destruct (fix_width st2 b w) as ((st3 & b1) & ob) eqn:Eb. destruct (IHb st2 (proj1 Ra) _ _ _ Eb) as (Rb & Nb).
    injection E as <- _ <-. split; [exact (rewidth_trans _ _ _ _ Ra Rb)|exact Nb].
Qed.
Lemma fix_uses st s w : closed s -> forall st1 r1 u, sound st -> 0 <= w <= 64 -> fix_width st s w = (st1, r1, Ok u) ->
  (forall c, uses r1 c -> c_width (st1 c) = w) /\ (forall c, uses s c -> c_value (st c) < 2 ^ w).
Proof.
  intros Cs. revert st. induction Cs as [i|c|o sg a b Ca IHa Cb IHb]; intros st st1 r1 u Sd W E; cbn [fix_width] in E.
  - injection E as <- <- _. split; intros c H; inversion H; subst. match goal with X : uses (Loop _) _ |- _ => inversion X end.
  - destruct (Sd c) as (Sg & V & Iv). rewrite (set_width_unsigned (st c) w Sg Iv (proj1 V) W) in E.
    destruct (Z.ltb_spec (c_value (st c)) (2 ^ w)) as [L|L]; [|discriminate E]. injection E as <- <- _.
    split; intros d H; inversion H; subst; [unfold upd; rewrite Nat.eqb_refl; reflexivity|exact L].
  - destruct (fix_width st a w) as ((st2 & a1) & oa) eqn:Ea. destruct (fix_rewidth st a w Sd W _ _ _ Ea) as (Ra & _). destruct oa as [ua| |]; [|discriminate E|discriminate E].
    destruct (fix_width st2 b w) as ((st3 & b1) & ob) eqn:Eb. destruct (fix_rewidth st2 b w (proj1 Ra) W _ _ _ Eb) as (Rb & _). injection E as <- <- ->.
    destruct (IHa st st2 a1 ua Sd W Ea) as (A1 & A2). destruct (IHb st2 st3 b1 u (proj1 Ra) W Eb) as (B1 & B2).
    split; intros c H; inversion H; subst.
    + match goal with X : uses a1 c |- _ => specialize (A1 c X) end. rewrite (rewidth_same w st2 st3 c Rb A1). exact A1.
    + match goal with X : uses b1 c |- _ => exact (B1 c X) end.
    + match goal with X : uses a c |- _ => exact (A2 c X) end.
    + match goal with X : uses b c |- _ => specialize (B2 c X) end. destruct (proj2 Ra c) as [Y|Y]; rewrite Y in B2; exact B2.
Qed.
Lemma fix_ok st s w : closed s -> sound st -> 0 <= w <= 64 -> (forall c, uses s c -> c_value (st c) < 2 ^ w) -> exists st1 r1, fix_width st s w = (st1, r1, Ok tt).
Proof.
  intros Cs. revert st. induction Cs as [i|c|o sg a b Ca IHa Cb IHb]; intros st Sd W U; cbn [fix_width].
  - eexists. eexists. reflexivity.
  - destruct (Sd c) as (Sg & V & Iv). rewrite (set_width_unsigned (st c) w Sg Iv (proj1 V) W). specialize (U c (U_lit c)).
    destruct (Z.ltb_spec (c_value (st c)) (2 ^ w)); [|lia]. eexists. eexists. reflexivity.
  - destruct (IHa st Sd W (fun c H => U c (U_left _ _ _ _ _ H))) as (st1 & a1 & Ea). rewrite Ea. destruct (fix_rewidth st a w Sd W _ _ _ Ea) as (Ra & _).
    destruct (IHb st1 (proj1 Ra) W) as (st2 & b1 & Eb).
    { intros c H. specialize (U c (U_right _ _ _ _ _ H)). destruct (proj2 Ra c) as [-> | ->]; exact U. }
    rewrite Eb. eexists. eexists. reflexivity.
Qed.
Lemma apply_mod o x y x' y' m k : o = Add \/ o = Sub \/ o = Mul -> 0 <= m <= k -> x' = x mod 2 ^ m -> y' = y mod 2 ^ m -> apply o x' y' mod 2 ^ m = (apply o x y mod 2 ^ k) mod 2 ^ m.
Proof.
  intros O M -> ->.
  assert (K : forall z, (z mod 2 ^ k) mod 2 ^ m = z mod 2 ^ m).
  { intros z. replace k with (m + (k - m)) by lia. rewrite Z.pow_add_r by lia. rewrite Z.rem_mul_r by (try apply Z.pow_nonzero; try apply Z.pow_pos_nonneg; lia).
    rewrite Z.mul_comm, Z.mod_add by (apply Z.pow_nonzero; lia). apply Z.mod_mod. apply Z.pow_nonzero; lia. }
  rewrite K. destruct O as [->|[->| ->]]; cbn [apply].
  - symmetry. apply Z.add_mod. apply Z.pow_nonzero; lia.
  - symmetry. apply Zminus_mod.
  - symmetry. apply Z.mul_mod. apply Z.pow_nonzero; lia.
Qed.
Lemma ring_closed s : ring s -> closed s. Proof. induction 1; constructor; assumption. Qed.
Lemma fix_ring st0 s w env sv k : ring s -> sound st0 -> 0 <= w <= 64 -> w <= k -> has_width st0 s k -> forall st st1 r1 u, rewidth w st0 st ->
  fix_width st s w = (st1, r1, Ok u) -> has_width st1 r1 w /\ forall v, bits st0 env sv s v -> bits st1 env sv r1 (v mod 2 ^ w).
Proof.
  intros R Sd0 W K. induction R as [i|c|o sg a b Ho Ra IHa Rb IHb]; intros Hk st st1 r1 u Rw E; pose proof (proj1 Rw) as Sd; cbn [fix_width] in E.
  - injection E as <- <- _. split; [constructor|]. intros v B. inversion B; subst. constructor. constructor.
  - destruct (Sd c) as (Sg & V & Iv). rewrite (set_width_unsigned (st c) w Sg Iv (proj1 V) W) in E.
    destruct (Z.ltb_spec (c_value (st c)) (2 ^ w)) as [L|L]; [|discriminate E]. injection E as <- <- _.
    assert (X : upd st c {| c_value := c_value (st c); c_width := w; c_signed := c_signed (st c) |} c = {| c_value := c_value (st c); c_width := w; c_signed := c_signed (st c) |}) by (unfold upd; rewrite Nat.eqb_refl; reflexivity).
    split; [pose proof (W_lit (upd st c {| c_value := c_value (st c); c_width := w; c_signed := c_signed (st c) |}) c) as Y; rewrite X in Y; exact Y|].
    intros v B. destruct (Sd0 c) as (_ & V0 & _). inversion B; subst. rewrite (Z.mod_small (c_value (st0 c)) (2 ^ c_width (st0 c))) by lia.
    pose proof (B_lit (upd st c {| c_value := c_value (st c); c_width := w; c_signed := c_signed (st c) |}) env sv c) as Y. rewrite X in Y. cbn [c_value c_width] in Y.
    replace (c_value (st0 c)) with (c_value (st c)); [exact Y|]. destruct (proj2 Rw c) as [-> | ->]; reflexivity.
  - destruct (fix_width st a w) as ((st2 & a1) & oa) eqn:Ea. destruct (fix_rewidth st a w Sd W _ _ _ Ea) as (Rwa & _). destruct oa as [ua| |]; [|discriminate E|discriminate E].
    destruct (fix_width st2 b w) as ((st3 & b1) & ob) eqn:Eb. destruct (fix_rewidth st2 b w (proj1 Rwa) W _ _ _ Eb) as (Rwb & _). injection E as <- <- ->.
    assert (No : o <> Lt) by (destruct Ho as [->|[->| ->]]; discriminate).
    assert (Wa : has_width st0 a k) by (inversion Hk; subst; [congruence|assumption]). assert (Wb : has_width st0 b k) by (inversion Hk; subst; [congruence|assumption]).
    destruct (IHa Wa st st2 a1 ua Rw Ea) as (A1 & A2).
    destruct (IHb Wb st2 st3 b1 u (rewidth_trans _ _ _ _ Rw Rwa) Eb) as (B1 & B2).
    destruct (fix_uses st a w (ring_closed a Ra) st2 a1 ua Sd W Ea) as (Ua & _).
    assert (A1' : has_width st3 a1 w) by exact (rewidth_width w st2 st3 a1 w Rwb Ua A1).
    assert (Wr : has_width st3 (Op2 o sg a1 b1) w) by (apply W_op; assumption).
    split; [exact Wr|]. intros v B. inversion B as [| | | | |o' sg' a' b' w' x y Hw Bx By]; subst.
    assert (w' = k) by exact (width_fun _ _ _ _ Hw Hk). subst w'.
    rewrite <- (apply_mod o x y (x mod 2 ^ w) (y mod 2 ^ w) w k Ho (conj (proj1 W) K) eq_refl eq_refl).
    apply B_op; [exact Wr| |exact (B2 y By)]. exact (rewidth_bits w st2 st3 env sv a1 _ Rwb Ua (A2 x Bx)).
Qed.
