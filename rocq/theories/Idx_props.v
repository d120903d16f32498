(* C384-C387 *)
From Coq Require Import Lia.
From Verif Require Import Base Util_model Util_proofs Idx_model.
Local Open Scope Z_scope.

(* how many things an index chooses from *)
Definition choices (s : shape) : Z := if scalar s then v_width s else hd 0 (v_size s).
Definition fixed (s : shape) : Prop := v_wparam s = None /\ v_sparam s = None /\ v_size s <> [] /\ 1 <= choices s.
Definition size_of (r : Z * list Z) : Z := fst r * fold_right Z.mul 1 (snd r).
Lemma required_fixed s : fixed s -> required s = clog2 (choices s).
Proof.
  intros [H1 [H2 [H3 H4]]]. unfold required, choices in *. rewrite H1, H2. destruct (scalar s) eqn:E; trivial. unfold total. unfold scalar in E. destruct (v_size s) as [|n [|m l]]; try discriminate. apply andb_true_iff in E. destruct E as [E _]. apply Z.eqb_eq in E. subst n. cbn [fold_right]. f_equal. lia.
Qed.
(* C384: the index is accepted if all of its bits but the first are needed, and what it selects is one of the equal parts *)
Theorem C384_index s w : fixed s -> 1 <= w -> (index s w = Ok (selected s) /\ (w = 1 \/ 2 ^ (w - 1) < choices s)) \/ (index s w = Throw /\ choices s <= 2 ^ (w - 1)).
Proof.
  intros F W. unfold index. rewrite (required_fixed s F). destruct F as [_ [_ [_ C]]]. destruct (clog2_ok _ C) as [k [-> [K1 [K2 K3]]]]. cbn [obind]. destruct (Z.ltb_spec k w) as [L|L].
  - right. split; trivial. apply (Z.le_trans _ (2 ^ k)); trivial. apply Z.pow_le_mono_r; lia.
  - left. split; trivial. destruct (Z.eq_dec w 1) as [->|N]; [now left|right]. destruct (Z.ltb_spec (2 ^ (w - 1)) (choices s)) as [M|M]; trivial. specialize (K3 (w - 1) ltac:(lia) M). lia.
Qed.
Theorem C384_part s : fixed s -> choices s * size_of (selected s) = total s.
Proof.
  intros [_ [_ [N C]]]. unfold choices, selected, total, size_of in *. destruct (scalar s) eqn:E.
  - unfold scalar in E. destruct (v_size s) as [|n [|m l]]; try discriminate. apply andb_true_iff in E. destruct E as [E _]. apply Z.eqb_eq in E. subst n. cbn [fold_right fst snd]. lia.
  - destruct (v_size s) as [|n [|m l]]; [now destruct N| |]; cbn [fold_right fst snd hd] in *; nia.
Qed.
(* what is selected: a bit of a variable that is no array, an element of an array *)
Theorem C384_selected s :
  (v_size s = [1] -> v_explicit s = false -> selected s = (1, [1])) /\
  (forall n, v_size s = [n] -> n <> 1 \/ v_explicit s = true -> selected s = (v_width s, [1])) /\
  (forall n m l, v_size s = n :: m :: l -> selected s = (v_width s, m :: l)).
Proof.
  unfold selected, scalar. split; [intros -> ->; reflexivity|]. split.
  - intros n -> H. destruct (Z.eqb_spec n 1) as [E|E]; cbn [andb negb]; [|reflexivity]. destruct H as [H| ->]; [contradiction|reflexivity].
  - intros n m l ->. reflexivity.
Qed.
(* and of an array whose size is a parameter the same, for the value of the parameter *)
Theorem C384_size_param s p w : v_size s <> [1] \/ v_explicit s = true -> v_sparam s = Some p -> 1 <= p -> 1 <= w ->
  (index s w = Ok (selected s) /\ (w = 1 \/ 2 ^ (w - 1) < p)) \/ (index s w = Throw /\ p <= 2 ^ (w - 1)).
Proof.
  intros SC' E C W.
  assert (SC : scalar s = false).
  { unfold scalar. destruct (v_size s) as [|n [|m l]]; try reflexivity. destruct (Z.eqb_spec n 1) as [->|N]; [|reflexivity]. destruct SC' as [X| ->]; [now destruct X|reflexivity]. }
  unfold index, required. rewrite SC, E. destruct (clog2_ok _ C) as [k [-> [K1 [K2 K3]]]]. cbn [obind]. destruct (Z.ltb_spec k w) as [L|L].
  - right. split; trivial. apply (Z.le_trans _ (2 ^ k)); trivial. apply Z.pow_le_mono_r; lia.
  - left. split; trivial. destruct (Z.eq_dec w 1) as [->|N]; [now left|right]. destruct (Z.ltb_spec (2 ^ (w - 1)) p) as [M|M]; trivial. specialize (K3 (w - 1) ltac:(lia) M). lia.
Qed.
Definition plain (w : Z) (size : list Z) : shape := {| v_width := w; v_size := size; v_explicit := false; v_wparam := None; v_sparam := None |}.
Example C384_ex : fixed (plain 8 [5; 2]) /\ index (plain 8 [5; 2]) 3 = Ok (8, [2]) /\ index (plain 8 [5; 2]) 4 = Throw /\ index (plain 8 [1]) 3 = Ok (1, [1]).
Proof. repeat split; cbn; try discriminate; try reflexivity. Qed.
(* C385: every value of an accepted index selects something *)
Theorem C385_range_refuted s : fixed s -> 2 <= choices s -> (forall k, 0 <= k -> choices s <> 2 ^ k) -> exists w, 1 <= w /\ index s w = Ok (selected s) /\ choices s < 2 ^ w.
Proof.
  intros F C P. pose proof F as [_ [_ [_ C1]]]. destruct (clog2_ok _ C1) as [k [E [K1 [K2 K3]]]]. exists k. split; [lia|]. unfold index. rewrite (required_fixed s F), E. cbn [obind]. rewrite Z.ltb_irrefl. split; trivial. specialize (P k ltac:(lia)). lia.
Qed.
Example C385_ex : fixed (plain 8 [5]) /\ index (plain 8 [5]) 3 = Ok (8, [1]) /\ forall k, 0 <= k -> 5 <> 2 ^ k.
Proof.
  split; [repeat split; cbn; discriminate|]. split; [reflexivity|]. intros k K E. assert (k < 3) by (apply (Z.pow_lt_mono_r_iff 2); lia). assert (Q : k = 0 \/ k = 1 \/ k = 2) by lia. destruct Q as [->|[->| ->]]; discriminate.
Qed.
(* C386: an accepted index can select everything *)
Theorem C386_all_refuted s : fixed s -> 2 < choices s -> index s 1 = Ok (selected s) /\ 2 ^ 1 < choices s.
Proof.
  intros F C. split; [|lia]. destruct (C384_index s 1 F ltac:(lia)) as [[E _]|[_ L]]; trivial. change (2 ^ (1 - 1)) with 1 in L. lia.
Qed.
(* C387: an index of the width that a variable with a width parameter allows *)
Theorem C387_param_refuted s p : v_size s = [1] -> v_explicit s = false -> v_wparam s = Some p -> 3 <= p -> index s p = Ok (selected s) /\ p < 2 ^ (p - 1).
Proof.
  intros S1 S2 W P. assert (SC : scalar s = true) by (unfold scalar; rewrite S1, S2; reflexivity). unfold index, required. rewrite SC, W. cbn [obind]. rewrite Z.ltb_irrefl. split; trivial.
  clear W. revert p P. apply (Zlt_lower_bound_ind (fun p => p < 2 ^ (p - 1)) 3). intros x IH X. destruct (Z.eq_dec x 3) as [->|N]; [reflexivity|]. specialize (IH (x - 1) ltac:(lia)).
  replace (x - 1) with (Z.succ (x - 1 - 1)) by lia. rewrite Z.pow_succ_r by lia. lia.
Qed.
Example C387_ex : index {| v_width := 8; v_size := [1]; v_explicit := false; v_wparam := Some 8; v_sparam := None |} 8 = Ok (1, [1]) /\ index (plain 8 [1]) 8 = Throw.
Proof. split; reflexivity. Qed.
Print Assumptions C384_index.
Print Assumptions C384_part.
Print Assumptions C384_selected.
Print Assumptions C384_size_param.
Print Assumptions C385_range_refuted.
Print Assumptions C386_all_refuted.
Print Assumptions C387_param_refuted.
