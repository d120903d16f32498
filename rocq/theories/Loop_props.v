From Verif Require Import Base Const_spec Const_model Const_proofs Loop_spec Loop_model.
Local Open Scope Z_scope.

Lemma fits_as : forall t v, fits t v -> as_type t v = v.
Proof. intros [] v H; cbn in *; [|apply Z.mod_small; exact H|]; rewrite Z.mod_small; lia. Qed.
Lemma as_fits : forall t v, fits t (as_type t v).
Proof. intros [] v; cbn; [pose proof (Z.mod_pos_bound (v + 2 ^ 31) (2 ^ 32) ltac:(lia)); lia|apply Z.mod_pos_bound; lia|pose proof (Z.mod_pos_bound (v + 2 ^ 31) (2 ^ 32) ltac:(lia)); lia]. Qed.
Lemma range_det : forall stop step v l l', range stop step v l -> range stop step v l' -> l = l'.
Proof. intros stop step v l l' H. revert l'. induction H; intros l' H'; inversion H'; subst; try contradiction; [reflexivity|]. f_equal. now apply IHrange. Qed.
Lemma iterates_det : forall h v l l', iterates h v l -> iterates h v l' -> l = l'.
Proof. intros h v l l' H. revert l'. induction H; intros l' H'; inversion H'; subst; try contradiction; [reflexivity|]. f_equal. now apply IHiterates. Qed.
Lemma advance_eq : forall g start stop step v, step <> 0 -> fits (h_type (print_for g start stop step)) (v + step) -> advance (print_for g start stop step) v = v + step.
Proof.
  intros g start stop step v N F. unfold advance. assert ((if h_plus (print_for g start stop step) then v + h_step (print_for g start stop step) else v - h_step (print_for g start stop step)) = v + step) as ->.
  { cbn [print_for h_plus h_step]. destruct (step >? 0) eqn:E; [apply Z.gtb_lt in E|rewrite Z.gtb_ltb in E; apply Z.ltb_ge in E]; lia. }
  now apply fits_as.
Qed.
Lemma goes_iff : forall g start stop step v, step <> 0 -> (0 < step -> start < stop) -> (step < 0 -> stop < start) -> fits (h_type (print_for g start stop step)) stop ->
  (goes_on (print_for g start stop step) v <-> before step v stop).
Proof.
  intros g start stop step v N A B F. unfold goes_on, before. change (h_stop (print_for g start stop step)) with stop. rewrite fits_as by exact F. cbn [print_for h_less].
  destruct (Z.ltb_spec 0 step).
  - assert ((stop >? start) = true) as -> by (apply Z.gtb_lt; auto). reflexivity.
  - assert ((stop >? start) = false) as -> by (rewrite Z.gtb_ltb; apply Z.ltb_ge; specialize (B ltac:(lia)); lia). reflexivity.
Qed.
Lemma between : forall stop step v w, ends stop step v w -> step <> 0 -> (0 < step -> v <= w) /\ (step < 0 -> w <= v).
Proof. induction 1; intros N; [lia|]. specialize (IHends N). lia. Qed.
Lemma fits_between : forall t a b v, fits t a -> fits t b -> (a <= v <= b \/ b <= v <= a) -> fits t v.
Proof. intros [] a b v; cbn; lia. Qed.
Lemma run_ok : forall g start stop step v l, step <> 0 -> (0 < step -> start < stop) -> (step < 0 -> stop < start) -> let t := h_type (print_for g start stop step) in
  fits t stop -> range stop step v l -> forall w, ends stop step v w -> fits t v -> fits t w -> iterates (print_for g start stop step) v l.
Proof.
  intros g start stop step v l N A B t F R. induction R as [v Nb|v l Hb R IH]; intros w E Fv Fw.
  - apply it_nil. now rewrite (goes_iff g start stop step v N A B F).
  - inversion E as [|? ? _ E']; subst; [contradiction|]. apply it_cons; [now rewrite (goes_iff g start stop step v N A B F)|].
    assert (fits t (v + step)) as Fs. { destruct (between _ _ _ _ E' N) as [X Y]. apply (fits_between t v w); auto. lia. }
    rewrite (advance_eq g start stop step v N Fs). now apply (IH w).
Qed.

(* C32: the printed loop runs its body for the values declared, if they run in the direction of the
   step, and the bounds and the value after the last one fit the loop variable *)
Theorem C32_loop_runs_the_declared_values : forall genvar start stop step l last, step <> 0 -> (0 < step -> start < stop) -> (step < 0 -> stop < start) ->
  let h := print_for genvar start stop step in
  range stop step start l -> ends stop step start last -> fits (h_type h) start -> fits (h_type h) stop -> fits (h_type h) last ->
  runs h l /\ forall l', runs h l' -> l' = l.
Proof.
  intros g start stop step l w N A B h R E F1 F2 F3. assert (runs h l) as Q. { unfold runs. change (h_start h) with start. rewrite fits_as by exact F1. now apply (run_ok g start stop step start l N A B F2 R w E F1 F3). }
  split; [exact Q|]. intros l' Q'. exact (iterates_det _ _ _ _ Q' Q).
Qed.
(* in numbers: bounds and last value of 31 bits, and a countdown that leaves the unsigned range has a negative bound *)
Theorem C32_loop_of_31_bits : forall start stop step l last, step <> 0 -> (0 < step -> start < stop) -> (step < 0 -> stop < start) ->
  range stop step start l -> ends stop step start last ->
  - 2 ^ 31 <= start < 2 ^ 31 -> - 2 ^ 31 <= stop < 2 ^ 31 -> - 2 ^ 31 <= last < 2 ^ 31 -> (0 <= last \/ start < 0 \/ stop < 0) ->
  runs (print_for false start stop step) l /\ forall l', runs (print_for false start stop step) l' -> l' = l.
Proof.
  intros start stop step l w N A B R E F1 F2 F3 D.
  assert (h_type (print_for false start stop step) = if (start <? 0) || (stop <? 0) then TInt else TUnsigned) as T by reflexivity.
  apply (C32_loop_runs_the_declared_values false start stop step l w N A B R E); rewrite T;
    destruct (Z.ltb_spec start 0), (Z.ltb_spec stop 0); cbn [orb fits]; lia.
Qed.
Lemma range_dec : range (-1) (-3) 7 [7; 4; 1] /\ ends (-1) (-3) 7 (-2).
Proof. split; [do 3 (apply rg_cons; [unfold before; cbn; lia|]); apply rg_nil; unfold before; cbn; lia|]. do 3 (apply en_cons; [unfold before; cbn; lia|]). apply (en_nil (-1) (-3) (-2)). unfold before; cbn; lia. Qed.
Example C32_loop_runs_the_declared_values_ex : exists l, l = [7; 4; 1] /\ range (-1) (-3) 7 l /\ runs (print_for false 7 (-1) (-3)) l.
Proof.
  exists [7; 4; 1]. destruct range_dec as [R E]. split; [reflexivity|]. split; [exact R|]. apply (C32_loop_runs_the_declared_values false 7 (-1) (-3) [7; 4; 1] (-2)); cbv; intuition (discriminate || lia).
Qed.

(* C32: an empty range between equal bounds runs nothing *)
Theorem C32_equal_bounds_run_nothing : forall genvar start step, fits (h_type (print_for genvar start start step)) start ->
  runs (print_for genvar start start step) [].
Proof.
  intros g start step F. unfold runs. change (h_start _) with start. rewrite fits_as by exact F. apply it_nil. unfold goes_on. change (h_stop _) with start. rewrite fits_as by exact F. cbn [print_for h_less].
  rewrite Z.gtb_ltb, Z.ltb_irrefl. lia.
Qed.
Example C32_equal_bounds_run_nothing_ex : fits (h_type (print_for false 4 4 1)) 4.
Proof. cbv. split; [discriminate|reflexivity]. Qed.

(* C138: a loop counting down to a bound from zero on has an unsigned variable: when a step leads
   below zero the variable becomes large and the body runs again *)
Lemma under_ok : forall start stop step v l last, step < 0 -> 0 <= stop < start -> start < 2 ^ 32 -> - step < 2 ^ 32 - stop ->
  range stop step v l -> ends stop step v last -> last < 0 -> stop < v -> v < 2 ^ 32 ->
  forall l', iterates (print_for false start stop step) v l' -> exists m, l' = l ++ (last + 2 ^ 32) :: m.
Proof.
  intros start stop step v l last Ns Hs Hb Hm R. revert last. assert (fits (h_type (print_for false start stop step)) stop) as F.
  { cbn [print_for h_type]. unfold loop_signed. destruct (Z.ltb_spec start 0); [lia|]. destruct (Z.ltb_spec stop 0); [lia|]. cbn. lia. }
  assert (h_type (print_for false start stop step) = TUnsigned) as Ht.
  { cbn [print_for h_type]. unfold loop_signed. destruct (Z.ltb_spec start 0); [lia|]. destruct (Z.ltb_spec stop 0); [lia|]. reflexivity. }
  assert (forall v, goes_on (print_for false start stop step) v <-> before step v stop) as G by (intros; apply goes_iff; auto; lia).
  induction R as [v Nb|v l Hv R IH]; intros last E L Lv Bv l' I.
  - unfold before in Nb. destruct (Z.ltb_spec 0 step); lia.
  - inversion E as [|? ? _ E']; subst; [contradiction|]. inversion I as [v0 Ng|v0 m Hg I']; subst; [rewrite G in Ng; contradiction|].
    destruct (Z.lt_ge_cases (v + step) 0) as [Neg|Pos].
    + assert (R' := R). inversion R as [|? ? Hb' _]; subst; [|unfold before in Hb'; destruct (Z.ltb_spec 0 step); lia].
      inversion E' as [|? ? Hb' _]; subst; [|unfold before in Hb'; destruct (Z.ltb_spec 0 step); lia].
      assert (advance (print_for false start stop step) v = v + step + 2 ^ 32) as Ea.
      { unfold advance. rewrite Ht. cbn [print_for h_plus h_step as_type]. assert ((step >? 0) = false) as -> by (rewrite Z.gtb_ltb; apply Z.ltb_ge; lia). rewrite Z.abs_neq by lia.
        rewrite <- (Z.mod_small (v + step + 2 ^ 32) (2 ^ 32)) by lia. replace (v - - step) with (v + step) by lia. rewrite <- (Z.mod_add (v + step) 1 (2 ^ 32)) by lia. f_equal. }
      rewrite Ea in I'. inversion I' as [? Ng|? m' _ _]; subst; [rewrite G in Ng; unfold before in Ng; destruct (Z.ltb_spec 0 step); lia|]. exists m'. reflexivity.
    + rewrite (advance_eq false start stop step v) in I' by (try lia; rewrite Ht; cbn; lia).
      destruct (Z.lt_ge_cases stop (v + step)) as [X|X].
      * destruct (IH last E' L X ltac:(lia) m I') as (m' & ->). exists m'. reflexivity.
      * inversion E' as [|? ? Hb' _]; subst; [lia|]. unfold before in Hb'. destruct (Z.ltb_spec 0 step); lia.
Qed.
Theorem C138_counting_down_past_zero_refuted : forall start stop step l last, step < 0 -> 0 <= stop < start -> start < 2 ^ 32 -> - step < 2 ^ 32 - stop ->
  range stop step start l -> ends stop step start last -> last < 0 ->
  forall l', runs (print_for false start stop step) l' -> exists m, l' = l ++ (last + 2 ^ 32) :: m.
Proof.
  intros start stop step l last Ns Hs Hb Hm R E L l' Q. unfold runs in Q. change (h_start (print_for false start stop step)) with start in Q.
  assert (as_type (h_type (print_for false start stop step)) start = start) as X.
  { apply fits_as. cbn [print_for h_type]. unfold loop_signed. destruct (Z.ltb_spec start 0); [lia|]. destruct (Z.ltb_spec stop 0); [lia|]. cbn. lia. }
  rewrite X in Q. apply (under_ok start stop step start l last); auto; lia.
Qed.
Example C138_counting_down_past_zero_ex : range 0 (-2) 5 [5; 3; 1] /\ ends 0 (-2) 5 (-1).
Proof. split; [do 3 (apply rg_cons; [unfold before; cbn; lia|]); apply rg_nil; unfold before; cbn; lia|]. do 3 (apply en_cons; [unfold before; cbn; lia|]). apply (en_nil 0 (-2) (-1)). unfold before; cbn; lia. Qed.

(* C138: counting down to zero in steps of two from an odd number never ends *)
Theorem C138_odd_countdown_never_ends_refuted : forall k l, 0 <= k < 2 ^ 31 -> ~ runs (print_for false (2 * k + 1) 0 (-2)) l.
Proof.
  intros k l Hk Q. unfold runs in Q. set (h := print_for false (2 * k + 1) 0 (-2)) in *.
  assert (h_type h = TUnsigned) as Ht. { unfold h. cbn [print_for h_type]. unfold loop_signed. destruct (Z.ltb_spec (2 * k + 1) 0); [lia|]. reflexivity. }
  assert (h_less h = false) as Hl. { unfold h. cbn [print_for h_less]. rewrite Z.gtb_ltb. apply Z.ltb_ge. lia. }
  rewrite Ht in Q. change (h_start h) with (2 * k + 1) in Q. cbn [as_type] in Q. rewrite Z.mod_small in Q by lia.
  assert (h_stop h = 0 /\ h_plus h = false /\ h_step h = 2) as (H1 & H2 & H3) by (repeat split). clearbody h.
  remember (2 * k + 1) as v eqn:Ev. assert (exists j, v = 2 * j + 1 /\ 0 <= j < 2 ^ 31) as J by eauto. clear Ev Hk k. 
  induction Q as [v Ng|v l Hg Q IH].
  - apply Ng. unfold goes_on. rewrite Hl, Ht, H1. cbn [as_type]. rewrite Z.mod_0_l by lia. destruct J as (j & -> & B). lia.
  - apply IH. destruct J as (j & -> & B). unfold advance. rewrite Ht, H2, H3. cbn [as_type].
    destruct (Z.eq_dec j 0) as [->|Nj].
    + exists (2 ^ 31 - 1). split; [reflexivity|lia].
    + exists (j - 1). split; [rewrite Z.mod_small; lia|lia].
Qed.
Example C138_odd_countdown_never_ends_ex : exists l, range 0 (-2) (2 * 2 + 1) l.
Proof. exists [5; 3; 1]. apply C138_counting_down_past_zero_ex. Qed.

(* C139: the comparison follows the bounds and not the step: a loop whose step leads away from the
   end declares nothing but runs its body *)
Theorem C139_step_away_from_the_end_refuted : forall genvar start stop step l, (0 < step /\ stop < start) \/ (step < 0 /\ start < stop) ->
  let h := print_for genvar start stop step in
  fits (h_type h) start -> fits (h_type h) stop -> range stop step start [] /\ (runs h l -> exists m, l = start :: m).
Proof.
  intros g start stop step l D h F1 F2. split.
  - apply rg_nil. unfold before. destruct (Z.ltb_spec 0 step); lia.
  - intros Q. unfold runs in Q. change (h_start h) with start in Q. rewrite fits_as in Q by exact F1. inversion Q as [? N|? m _ _]; subst; [|now exists m]. destruct N.
    unfold goes_on. change (h_stop h) with stop. rewrite fits_as by exact F2. unfold h. cbn [print_for h_less]. rewrite Z.gtb_ltb. destruct (Z.ltb_spec start stop); lia.
Qed.
Example C139_step_away_from_the_end_ex : goes_on (print_for false 5 2 1) 5 /\ range 2 1 5 [].
Proof. split; [cbv; reflexivity|]. apply rg_nil. unfold before; cbn; lia. Qed.

(* C140: with one loop variable, an expression that rises or falls with it and is accepted fits the
   width for every value of the variable *)
Lemma fits_iff : forall v w s, int64 v -> 1 <= w <= 64 -> (fits_width (Some v) w s = true <-> representable (meant v s) w s).
Proof.
  intros v w s I W. destruct (is_legal_iff v w s I W) as (k & E & K). unfold fits_width. rewrite E. rewrite <- K. destruct k; split; congruence.
Qed.
Lemma rep_between : forall a b v w s, int64 a -> int64 b -> 1 <= w <= 64 -> representable (meant a s) w s -> representable (meant b s) w s -> a <= v <= b -> (s = false -> 0 <= a) -> representable (meant v s) w s.
Proof.
  intros a b v w s Ia Ib W Ra Rb B N. destruct s; cbn [meant representable] in *; [lia|]. specialize (N eq_refl). unfold int64, of_i64 in *. rewrite Z.mod_small in * by lia. lia.
Qed.
Theorem C140_accepted_index_fits : forall f a b w s, a < b -> 1 <= w <= 64 -> (forall v, a <= v < b -> int64 (f v)) -> (s = false -> forall v, a <= v < b -> 0 <= f v) ->
  ((forall u v, a <= u <= v -> v < b -> f u <= f v) \/ (forall u v, a <= u <= v -> v < b -> f v <= f u)) ->
  safe_to_resize (fun l => match l with [v] => Some (f v) | _ => None end) [(a, b)] w s = true ->
  forall v, a <= v < b -> representable (meant (f v) s) w s.
Proof.
  intros f a b w s L W I N M S v B. unfold safe_to_resize in S. cbn [map fst snd length seq forallb set_at nth] in S. rewrite andb_true_r in S. apply andb_true_iff in S as [Sa Sb].
  apply fits_iff in Sa; [|apply I; lia|exact W]. apply fits_iff in Sb; [|apply I; lia|exact W].
  destruct M as [M|M].
  - apply (rep_between (f a) (f (b - 1))); auto; try (apply I; lia); [|intros E; apply N; auto; lia]. split; apply M; lia.
  - apply (rep_between (f (b - 1)) (f a)); auto; try (apply I; lia); [|intros E; apply N; auto; lia]. split; apply M; lia.
Qed.
Example C140_accepted_index_fits_ex : safe_to_resize (fun l => match l with [v] => Some (9 - 2 * v) | _ => None end) [(0, 5)] 4 false = true
  /\ safe_to_resize (fun l => match l with [v] => Some (17 - 2 * v) | _ => None end) [(0, 5)] 4 false = false.
Proof. split; reflexivity. Qed.

(* C141: with two loop variables the case that both are lowest is not tried *)
Theorem C141_two_loop_variables_refuted : forall w, 2 <= w <= 62 ->
  let a := - 2 ^ (w - 1) in
  safe_to_resize (fun l => match l with [u; v] => Some (u + v) | _ => None end) [(a, 1); (a, 1)] w true = true /\ ~ representable (meant (a + a) true) w true.
Proof.
  intros w W a. assert (2 ^ (w - 1) <= 2 ^ 61) as P by (apply Z.pow_le_mono_r; lia). assert (1 < 2 ^ (w - 1)) as Q by (apply (Z.pow_gt_1 2 (w - 1)); lia).
  split.
  - unfold safe_to_resize. cbn [map fst snd length seq forallb set_at nth]. change (1 - 1) with 0. rewrite Z.add_0_r, Z.add_0_l, Z.add_0_l.
    assert (fits_width (Some a) w true = true) as X by (apply fits_iff; [unfold int64, a; lia|lia|cbn; unfold a; lia]).
    assert (fits_width (Some 0) w true = true) as Y by (apply fits_iff; [unfold int64; lia|lia|cbn; lia]). now rewrite X, Y.
  - cbn [meant representable]. unfold a. lia.
Qed.
Example C141_two_loop_variables_ex : 2 <= 4 <= 62. Proof. lia. Qed.
Print Assumptions C32_loop_runs_the_declared_values.
Print Assumptions C32_equal_bounds_run_nothing.
Print Assumptions C138_counting_down_past_zero_refuted.
Print Assumptions C138_odd_countdown_never_ends_refuted.
Print Assumptions C139_step_away_from_the_end_refuted.
Print Assumptions C140_accepted_index_fits.
Print Assumptions C141_two_loop_variables_refuted.
Print Assumptions C32_loop_of_31_bits.
