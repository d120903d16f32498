(* C366-C375: arrays in the simulator. *)
From Coq Require Import Lia.
From Verif Require Import Base Eval_model Eval_proofs Sim_proofs Arr_model.
Local Open Scope Z_scope.

Lemma bits_in w mask i fill n : forall bit, 0 <= bit -> bit + Z.of_nat n <= 32 ->
  exists r, bits_of w mask i fill bit n = Ok r /\ forall k, In k r <-> exists b, bit <= b < bit + Z.of_nat n /\ (Z.testbit mask b = true \/ fill = true) /\ k = u32 (b + w * i).
Proof.
  induction n as [|n IH]; intros bit H0 H; cbn [bits_of].
  - exists []. split; trivial. intros k. split; [intros []|intros [b [B _]]; lia].
  - destruct (Z.leb_spec 32 bit) as [L|L]; [lia|]. destruct (IH (bit + 1)) as [r [E R]]; [lia|lia|]. rewrite E. cbn [obind]. eexists. split; [reflexivity|]. intros k.
    destruct (Z.testbit mask bit || fill) eqn:T.
    + cbn [In]. rewrite R. apply orb_true_iff in T. split.
      * intros [<-|[b [B K]]]; [exists bit; split; [lia|now split]|exists b; split; [lia|trivial]].
      * intros [b [B [K1 K2]]]. destruct (Z.eq_dec b bit) as [->|N]; [left; now symmetry|right; exists b; split; [lia|now split]].
    + rewrite R. apply orb_false_iff in T. destruct T as [T1 T2]. split.
      * intros [b [B K]]. exists b. split; [lia|trivial].
      * intros [b [B [K1 K2]]]. exists b. split; [|now split]. destruct (Z.eq_dec b bit) as [->|N]; [|lia]. destruct K1; congruence.
Qed.
Lemma bits_ub w mask i fill n : forall bit, bit <= 32 < bit + Z.of_nat n -> bits_of w mask i fill bit n = UB.
Proof.
  induction n as [|n IH]; intros bit H; [lia|]. cbn [bits_of]. destruct (Z.leb_spec 32 bit); trivial. rewrite IH by lia. reflexivity.
Qed.
(* the bits of an array that are not the same in two of its values *)
Definition differ (w : Z) (fresh : Prop) (old new : list Z) (k : Z) : Prop :=
  exists i b c n, nth_error old i = Some c /\ nth_error new i = Some n /\ 0 <= b < w /\ k = b + w * Z.of_nat i /\ (fresh \/ Z.testbit c b <> Z.testbit n b).
Lemma store_ok w fill : 0 < w <= 32 -> forall cur new i, 0 <= i -> length cur = length new -> (i + Z.of_nat (length cur)) * w < 2 ^ 32 ->
  exists bits, store w fill i cur new = Ok (new, bits) /\ forall k, In k bits <-> differ w (fill = true) cur new (k - w * i).
Proof.
  intros W. induction cur as [|c cur IH]; intros [|n new] i Hi L B; try discriminate.
  - exists []. split; trivial. intros k. split; [intros []|intros [j [b [x [y [X _]]]]]; destruct j; discriminate].
  - injection L as L. destruct (IH new (i + 1)) as [bits [E R]]; [lia|trivial|cbn [length] in B; rewrite Nat2Z.inj_succ in B; replace (i + 1 + Z.of_nat (length cur)) with (i + Z.succ (Z.of_nat (length cur))) by lia; exact B|]. cbn [store].
    assert (EB : exists bs, (if negb (c =? n) || fill then bits_of w (u32 (Z.lxor c n)) i fill 0 (Z.to_nat w) else Ok []) = Ok bs /\
      forall k, In k bs <-> exists b, 0 <= b < w /\ k = b + w * i /\ (fill = true \/ Z.testbit c b <> Z.testbit n b)).
    { assert (U : forall b, 0 <= b < w -> u32 (b + w * i) = b + w * i) by (intros b Hb; unfold u32; apply Z.mod_small; cbn [length] in B; nia).
      assert (M : forall b, 0 <= b < w -> Z.testbit (u32 (Z.lxor c n)) b = xorb (Z.testbit c b) (Z.testbit n b)) by (intros b Hb; unfold u32; rewrite Z.mod_pow2_bits_low by lia; apply Z.lxor_spec).
      destruct (negb (c =? n) || fill) eqn:T.
      - destruct (bits_in w (u32 (Z.lxor c n)) i fill (Z.to_nat w) 0) as [r [E' R']]; [lia|lia|]. exists r. split; trivial. intros k. rewrite R'. rewrite Z2Nat.id by lia. split.
        + intros [b [Hb [K1 ->]]]. exists b. split; [lia|]. rewrite U by lia. split; trivial. destruct K1 as [K|K]; [right|now left]. rewrite M in K by lia. destruct (Z.testbit c b), (Z.testbit n b); cbn in K; congruence.
        + intros [b [Hb [-> K]]]. exists b. split; [lia|]. rewrite U by lia. split; trivial. destruct K as [K|K]; [now right|left]. rewrite M by lia. destruct (Z.testbit c b), (Z.testbit n b); cbn; congruence.
      - exists []. split; trivial. apply orb_false_iff in T. destruct T as [T1 T2]. apply negb_false_iff, Z.eqb_eq in T1. subst n. intros k. split; [intros []|]. intros [b [_ [_ [K|K]]]]; congruence. }
    destruct EB as [bs [-> RB]]. cbn [obind]. rewrite E. cbn [obind fst snd]. eexists. split; [reflexivity|]. intros k. rewrite in_app_iff, RB, R. split.
    + intros [[b [Hb [-> K]]]|[j [b [x [y [X [Y [Hb [K1 K2]]]]]]]]].
      * exists 0%nat, b, c, n. repeat split; trivial; lia.
      * exists (S j), b, x, y. repeat split; trivial; lia.
    + intros [j [b [x [y [X [Y [Hb [K1 K2]]]]]]]]. destruct j as [|j]; cbn in X, Y.
      * left. inversion X; inversion Y; subst. exists b. repeat split; trivial; lia.
      * right. exists j, b, x, y. repeat split; trivial; lia.
Qed.
(* a value that an array can have: a number for each element *)
Definition fits (v : array) (old : option (list Z)) : Prop := match old with None => True | Some l => length l = Z.to_nat (count v) end.
Definition known (v : array) (old : option (list Z)) : list Z := match old with Some l => l | None => repeat 0 (Z.to_nat (count v)) end.

(* C366: the values are read back, and the bits that changed are those that differ; all of them for a first value *)
Theorem C366_set v old value : 0 < a_width v <= 32 -> 0 <= count v -> count v * a_width v < 2 ^ 32 -> fits v old -> length value = Z.to_nat (count v) ->
  exists bits, set_array v old value = (Some value, Ok bits) /\ get_array (fst (set_array v old value)) = Some value /\
  forall k, In k bits <-> differ (a_width v) (old = None) (known v old) value k.
Proof.
  intros W C B F L. unfold set_array. fold (known v old).
  assert (LK : length (known v old) = Z.to_nat (count v)) by (destruct old; cbn; [exact F|apply repeat_length]). change (match old with Some l => l | None => repeat 0 (Z.to_nat (count v)) end) with (known v old). rewrite LK, L, Nat.eqb_refl. cbn [obind].
  destruct (store_ok (a_width v) (match old with Some _ => false | None => true end) W (known v old) value 0) as [bits [E R]]; [lia|congruence|rewrite LK; lia|].
  rewrite E. exists bits. split; trivial. split; trivial. intros k. rewrite R. replace (k - a_width v * 0) with k by lia.
  unfold differ. destruct old; split; intros [i [b [c [n [X [Y [Hb [K1 K2]]]]]]]]; exists i, b, c, n; repeat split; trivial; try lia; destruct K2 as [K2|K2]; try discriminate; try (now right); now left.
Qed.
Definition mem4 : array := {| a_width := 8; a_size := [2; 2]; a_packed := false |}.
Example C366_ex : set_array mem4 (Some [1; 2; 3; 4]) [1; 3; 3; 6] = (Some [1; 3; 3; 6], Ok [8; 25]).
Proof. reflexivity. Qed.
(* C367: elements of more than 32 bits *)
Theorem C367_wide_refuted v l value i c n : 32 < a_width v -> length l = length value -> nth_error l i = Some c -> nth_error value i = Some n -> c <> n ->
  snd (set_array v (Some l) value) = UB.
Proof.
  intros W L X Y D. unfold set_array. rewrite L, Nat.eqb_refl. cbn [obind].
  assert (G : forall l value j i, nth_error l i = Some c -> nth_error value i = Some n -> store (a_width v) false j l value = UB).
  { clear X Y L i l value. induction l as [|x l IH]; intros [|y value] j [|i] X Y; try discriminate; cbn [store].
    - inversion X; inversion Y; subst. destruct (Z.eqb_spec c n); [contradiction|]. cbn [negb orb]. rewrite bits_ub by lia. reflexivity.
    - cbn in X, Y. destruct (negb (x =? y) || false); [rewrite bits_ub by lia; reflexivity|]. cbn [obind]. rewrite (IH value (j + 1) i X Y). reflexivity. }
  rewrite (G l value 0 i X Y). reflexivity.
Qed.
Example C367_ex : snd (set_array {| a_width := 40; a_size := [2]; a_packed := false |} (Some [0; 0]) [1; 0]) = UB.
Proof. reflexivity. Qed.
(* C368: one number for a packed array *)
Lemma spread_ok w x n : 0 < w < 64 -> 0 <= x < 2 ^ 64 -> forall i, 0 <= i -> w * (i + Z.of_nat n - 1) < 64 ->
  exists l, spread w x i n = Ok l /\ length l = n /\ forall j, (j < n)%nat -> nth_error l j = Some ((x / 2 ^ (w * (i + Z.of_nat j))) mod 2 ^ w).
Proof.
  intros W X. induction n as [|n IH]; intros i Hi H; cbn [spread]; [exists []; repeat split; trivial; intros j J; lia|].
  rewrite shr64_ok by nia. rewrite shl64_ok by lia. cbn [obind]. destruct (Nat.eq_dec n 0) as [->|N].
  - cbn [spread obind]. eexists. split; [reflexivity|]. split; trivial. intros j J. assert (j = 0%nat) as -> by lia. cbn [nth_error]. f_equal. rewrite not64_high by lia. rewrite Z.land_ones, Z.shiftr_div_pow2 by nia. do 3 f_equal. lia.
  - destruct (IH (i + 1)) as [l [E [L R]]]; [lia|nia|]. rewrite E. cbn [obind]. eexists. split; [reflexivity|]. split; [cbn; now rewrite L|]. intros [|j] J.
    + cbn [nth_error]. f_equal. rewrite not64_high by lia. rewrite Z.land_ones, Z.shiftr_div_pow2 by nia. do 3 f_equal. lia.
    + cbn [nth_error]. rewrite R by lia. do 5 f_equal. lia.
Qed.
Theorem C368_packed v old x : a_packed v = true -> 0 < a_width v <= 32 -> 1 < count v -> count v * a_width v <= 64 -> fits v old -> 0 <= x < 2 ^ 64 ->
  exists l bits, set_array v old [x] = (Some l, Ok bits) /\ length l = Z.to_nat (count v) /\
  forall i, (i < Z.to_nat (count v))%nat -> nth_error l i = Some ((x / 2 ^ (a_width v * Z.of_nat i)) mod 2 ^ a_width v).
Proof.
  intros P W C B F X. unfold set_array. change (match old with Some l => l | None => repeat 0 (Z.to_nat (count v)) end) with (known v old).
  assert (LK : length (known v old) = Z.to_nat (count v)) by (destruct old; cbn; [exact F|apply repeat_length]). rewrite LK. cbn [length]. destruct (Nat.eqb_spec (Z.to_nat (count v)) 1); [lia|]. rewrite P.
  destruct (spread_ok (a_width v) x (Z.to_nat (count v))) with (i := 0) as [l [E [L R]]]; [lia|lia|lia|nia|]. rewrite E. cbn [obind].
  destruct (store_ok (a_width v) (match old with Some _ => false | None => true end) W (known v old) l 0) as [bits [ES _]]; [lia|congruence|rewrite LK; change (2 ^ 32) with 4294967296; nia|].
  rewrite ES. exists l, bits. split; trivial. split; trivial.
Qed.
Example C368_ex : set_array {| a_width := 4; a_size := [4]; a_packed := true |} (Some [0; 0; 0; 0]) [53255] = (Some [7; 0; 0; 13], Ok [0; 1; 2; 12; 14; 15]).
Proof. reflexivity. Qed.
(* C369: arrays of more than 64 bits *)
Theorem C369_large_refuted v l x : a_packed v = true -> 0 < a_width v -> length l <> 1%nat -> 64 <= a_width v * (Z.of_nat (length l) - 1) -> snd (set_array v (Some l) [x]) = UB.
Proof.
  intros P W N B. unfold set_array. cbn [length]. destruct (Nat.eqb_spec (length l) 1); [contradiction|clear n]. rewrite P.
  assert (G : forall n i, 0 <= i -> 64 <= a_width v * (i + Z.of_nat n - 1) -> (0 < n)%nat -> spread (a_width v) x i n = UB).
  { induction n as [|n IH]; intros i Hi H H0; [lia|]. cbn [spread]. unfold shr64 at 1. destruct ((0 <=? a_width v * i) && (a_width v * i <? 64)) eqn:T.
    - cbn [obind]. apply andb_true_iff in T. destruct T as [_ T]. apply Z.ltb_lt in T. destruct (shl64 UINT64_MASK (a_width v)) eqn:S; cbn [obind]; trivial; [|unfold shl64 in S; destruct (_ && _); discriminate].
      rewrite IH; [reflexivity|lia|nia|]. destruct n; [nia|lia].
    - reflexivity. }
  rewrite G; [reflexivity|lia|nia|]. destruct (length l); [nia|lia].
Qed.
Example C369_ex : snd (set_array {| a_width := 32; a_size := [3]; a_packed := true |} (Some [0; 0; 0]) [1]) = UB.
Proof. reflexivity. Qed.
(* C370: a call that throws *)
Theorem C370_thrown_refuted v value : a_packed v = false -> length value <> Z.to_nat (count v) ->
  set_array v None value = (Some (repeat 0 (Z.to_nat (count v))), Throw) /\ get_array None <> get_array (fst (set_array v None value)).
Proof.
  intros P N. assert (E : set_array v None value = (Some (repeat 0 (Z.to_nat (count v))), Throw)).
  { unfold set_array. rewrite repeat_length, P. destruct (Nat.eqb_spec (Z.to_nat (count v)) (length value)); [congruence|reflexivity]. }
  rewrite E. split; trivial. discriminate.
Qed.
Example C370_ex : set_array mem4 None [1; 2] = (Some [0; 0; 0; 0], Throw).
Proof. reflexivity. Qed.
(* C371: parts of arrays that have a value *)
Theorem C371_part_refuted v l lo hi : 0 < a_width v -> 0 <= lo <= hi -> get_part v (Some l) (a_width v * (hi + 1) - 1) (a_width v * lo) = UB.
Proof.
  intros W H. unfold get_part. rewrite Z.mul_comm, Z.mod_mul, Z.eqb_refl by lia. cbn [negb orb].
  replace ((a_width v * (hi + 1) - 1) mod a_width v) with (a_width v - 1); [now rewrite Z.eqb_refl|].
  replace (a_width v * (hi + 1) - 1) with (a_width v - 1 + hi * a_width v) by lia. rewrite Z.mod_add, Z.mod_small by lia. reflexivity.
Qed.
Example C371_ex : get_part mem4 (Some [1; 2; 3; 4]) 31 16 = UB.
Proof. reflexivity. Qed.
(* C372: assigning its elements to a part of an array *)
Theorem C372_part_refuted v old hi lo value : a_packed v = false -> (forall l, old = Some l -> length value <> length l) -> set_part v old hi lo value = Throw.
Proof.
  intros P N. unfold set_part. destruct (_ || _); trivial. destruct old as [l|]; trivial. rewrite P. destruct (Nat.eqb_spec (length l) (length value)) as [E|]; [now destruct (N l eq_refl)|reflexivity].
Qed.
Example C372_ex : set_part mem4 (Some [1; 2; 3; 4]) 31 16 [7; 8] = Throw /\ set_part mem4 None 31 16 [7; 8] = Throw.
Proof. split; reflexivity. Qed.
(* C373: what is stored has the width of an element *)
Theorem C373_width_refuted : ~ (forall v old value l bits, fits v old -> Forall (fun x => 0 <= x < 2 ^ 64) value -> set_array v old value = (Some l, Ok bits) -> Forall (fun x => 0 <= x < 2 ^ a_width v) l).
Proof.
  intros H. assert (F : Forall (fun x => 0 <= x < 2 ^ 64) [300; 0; 0; 0]) by (apply Forall_cons; [lia|apply Forall_cons; [lia|apply Forall_cons; [lia|apply Forall_cons; [lia|apply Forall_nil]]]]).
  specialize (H mem4 (Some [0; 0; 0; 0]) [300; 0; 0; 0] [300; 0; 0; 0] [2; 3; 5] eq_refl F eq_refl). inversion H as [|? ? [_ X] _]; subst. cbn in X. lia.
Qed.
(* C374: signed numbers *)
Theorem C374_signed w v : 1 <= w <= 64 -> set_i w v = Ok (v mod 2 ^ w).
Proof.
  intros W. unfold set_i, truncate. rewrite low_mask_ok by trivial. cbn [obind]. f_equal. rewrite Z.land_ones by lia. unfold u64. symmetry. apply Znumtheory.Zmod_div_mod; [apply Z.pow_pos_nonneg; lia|reflexivity|].
  exists (2 ^ (64 - w)). rewrite <- Z.pow_add_r by lia. f_equal. lia.
Qed.
Example C374_ex : set_i 8 (-3) = Ok 253.
Proof. reflexivity. Qed.
(* C375: signed numbers for an array *)
Theorem C375_signed_array_refuted x l : set_i_array (x :: l) = UB.
Proof. reflexivity. Qed.
Print Assumptions C366_set.
Print Assumptions C367_wide_refuted.
Print Assumptions C368_packed.
Print Assumptions C369_large_refuted.
Print Assumptions C370_thrown_refuted.
Print Assumptions C371_part_refuted.
Print Assumptions C372_part_refuted.
Print Assumptions C373_width_refuted.
Print Assumptions C374_signed.
Print Assumptions C375_signed_array_refuted.
