From Coq Require Import Lia.
From Verif Require Import Base Const_spec Const_model Const_proofs Loop_spec Loop_model Loop_props Fix_spec Fix_model Fix_proofs.
Local Open Scope Z_scope.
Local Open Scope list_scope.

(* C490: a loop variable is assigned to a signal of another width exactly if the signs are the same and all of its values fit, and it is
   then resized to that width; the constants are left alone. *)
Theorem C490_loop : forall other st lw sg i, ordinary i -> 1 <= lw <= 64 -> lw <> 32 ->
  let r := assign other st lw sg (Loop i) in
  (snd r = Ok (Sized lw (Loop i)) <-> sg = l_signed i /\ forall v, l_min i <= v < l_max i -> representable v lw sg)
  /\ (snd r = Throw <-> ~ (sg = l_signed i /\ forall v, l_min i <= v < l_max i -> representable v lw sg))
  /\ fst r = (st, Loop i).
Proof.
  intros other st lw sg i Oi W Nw. cbv zeta. unfold assign. cbn [signed width has_iter fix_width].
  destruct (Bool.eqb sg (l_signed i)) eqn:Es; cbn [negb].
  - apply Bool.eqb_prop in Es. destruct (Z.eqb_spec lw 32) as [E|_]; [contradiction|].
    pose proof (safe_loop other i lw sg Oi (eq_sym Es) W) as Sf. destruct (safe other (Loop i) lw sg); cbn [width same_width].
    + rewrite Z.eqb_refl. cbn [fst snd]. assert (A : forall v, l_min i <= v < l_max i -> representable v lw sg) by (apply Sf; reflexivity).
      split; [split; [intros _; split; assumption|reflexivity]|]. split; [|reflexivity]. split; [discriminate|]. intros H. exfalso. apply H. split; assumption.
    + cbn [fst snd]. assert (A : ~ forall v, l_min i <= v < l_max i -> representable v lw sg) by (intros H; apply Sf in H; discriminate H).
      split; [split; [discriminate|intros (_ & H); contradiction]|]. split; [|reflexivity]. split; [intros _ (_ & H); contradiction|reflexivity].
  - cbn [fst snd]. assert (A : sg <> l_signed i) by (intros ->; rewrite Bool.eqb_reflx in Es; discriminate Es).
    split; [split; [discriminate|intros (H & _); contradiction]|]. split; [|reflexivity]. split; [intros _ (H & _); contradiction|reflexivity].
Qed.
(* ... and an expression without loop variables is assigned only if it has the width and sign of the signal. *)
Theorem C490_other : forall other st lw sg s, (forall i, ~ over s i) -> (forall c, s <> Lit c) ->
  fst (assign other st lw sg s) = (st, s)
  /\ (snd (assign other st lw sg s) = Ok s <-> sg = signed st s /\ has_width st s lw)
  /\ (snd (assign other st lw sg s) = Throw <-> ~ (sg = signed st s /\ has_width st s lw)).
Proof.
  intros other st lw sg s N L. unfold assign. destruct (Bool.eqb sg (signed st s)) eqn:Es; cbn [negb].
  - apply Bool.eqb_prop in Es. assert (Hi : has_iter s = false) by (destruct (has_iter s) eqn:E; [|reflexivity]; apply has_iter_over in E; destruct E as (i & H); exfalso; exact (N i H)).
    rewrite Hi. pose proof (width_iff st s) as Wi. destruct (width st s) as [w|].
    + destruct (Z.eqb_spec lw w) as [->|Nw]; cbn [fst snd].
      * assert (Hw : has_width st s w) by (apply Wi; reflexivity). split; [reflexivity|]. split; [split; [intros _; split; assumption|reflexivity]|].
        split; [discriminate|intros H; exfalso; apply H; split; assumption].
      * assert (Hw : ~ has_width st s lw) by (intros H; apply Wi in H; congruence).
        split; [reflexivity|]. split; [split; [discriminate|intros (_ & H); contradiction]|]. split; [intros _ (_ & H); contradiction|reflexivity].
    + cbn [fst snd]. assert (Hw : ~ has_width st s lw) by (intros H; apply Wi in H; discriminate H).
      split; [reflexivity|]. split; [split; [discriminate|intros (_ & H); contradiction]|]. split; [intros _ (_ & H); contradiction|reflexivity].
  - cbn [fst snd]. assert (A : sg <> signed st s) by (intros ->; rewrite Bool.eqb_reflx in Es; discriminate Es).
    split; [reflexivity|]. split; [split; [discriminate|intros (H & _); contradiction]|]. split; [intros _ (H & _); contradiction|reflexivity].
Qed.

Definition i4 : loop := {| l_id := 0; l_min := 0; l_max := 4; l_signed := false |}.
Definition i10 : loop := {| l_id := 0; l_min := 0; l_max := 10; l_signed := false |}.
Lemma i4_ordinary : ordinary i4.
Proof. unfold ordinary, int64. cbn. repeat split; intros; discriminate. Qed.
Definition consts (l : list Z) : store := fun c => {| c_value := nth c l 0; c_width := 32; c_signed := false |}.
Lemma consts_sound l : Forall (fun v => 0 <= v < 2 ^ 32) l -> sound (consts l).
Proof.
  intros F c. cbn [consts c_signed c_value c_width]. assert (A : 0 <= nth c l 0 < 2 ^ 32).
  { destruct (nth_in_or_default c l 0) as [H|H]; [rewrite Forall_forall in F; apply F, H|rewrite H; split; reflexivity || discriminate]. }
  split; [reflexivity|]. split; [exact A|]. unfold int64. assert (2 ^ 32 < 2 ^ 63) by reflexivity. revert A H. generalize (2 ^ 32), (2 ^ 63). intros. lia.
Qed.
Example C490_ex : snd (assign (fun _ _ => None) (consts []) 2 false (Loop i4)) = Ok (Sized 2 (Loop i4))
  /\ snd (assign (fun _ _ => None) (consts []) 1 false (Loop i4)) = Throw.
Proof. split; reflexivity. Qed.

(* C491: a sum, difference or product of loop variables and constants whose values all fit a narrower signal is assigned to it, if the
   constants fit too; its bits are the low bits of what it was. *)
Theorem C491_narrowed : forall other st lw s k, ring s -> (forall i, s <> Loop i) -> (exists i, over s i) -> signed st s = false ->
  Forall (fun i => l_min i < l_max i) (loops s) -> sound st -> has_width st s k -> 1 <= lw <= 64 -> lw < k ->
  (forall l, taken l s -> exists x, other s l = Some x /\ int64 x /\ 0 <= x < 2 ^ lw) ->
  (forall c, uses s c -> c_value (st c) < 2 ^ lw) ->
  exists st1 r1, assign other st lw false s = (st1, r1, Ok r1) /\ has_width st1 r1 lw
    /\ forall env sv v, bits st env sv s v -> bits st1 env sv r1 (v mod 2 ^ lw).
Proof.
  intros other st lw s k R Ns Ho Sg F Sd Hk W K Sm U. destruct (fix_ok st s lw (ring_closed s R) Sd ltac:(lia) U) as (st1 & r1 & E). exists st1, r1.
  assert (X : forall env sv, has_width st1 r1 lw /\ forall v, bits st env sv s v -> bits st1 env sv r1 (v mod 2 ^ lw)).
  { intros env sv. exact (fix_ring st s lw env sv k R Sd ltac:(lia) ltac:(lia) Hk st st1 r1 tt (rewidth_refl lw st Sd) E). }
  split; [|split; [exact (proj1 (X (fun _ => 0) (fun _ => 0)))|intros env sv; apply X]].
  unfold assign. rewrite Sg. cbn [Bool.eqb negb]. rewrite (proj2 (width_iff st s k) Hk). destruct (Z.eqb_spec lw k); [lia|].
  rewrite (proj2 (has_iter_over s) Ho), (safe_of other s lw Ns F ltac:(lia) Sm), E.
  rewrite (proj2 (width_iff st1 r1 lw) (proj1 (X (fun _ => 0) (fun _ => 0)))). cbn [same_width]. rewrite Z.eqb_refl. destruct s; try reflexivity. congruence.
Qed.
Definition sum : sig := Op2 Add false (Loop i4) (Lit 0).
Definition eval_sum (s : sig) (l : list Z) : option Z := match l with [v] => Some (v + 1) | _ => None end.
Lemma taken_one l s i : loops s = [i] -> taken l s -> exists v, l = [v] /\ l_min i <= v < l_max i.
Proof. unfold taken. intros -> H. inversion H as [|v i' l' r Hv Hr]; subst. inversion Hr; subst. exists v. split; [reflexivity|exact Hv]. Qed.
Example C491_ex : ring sum /\ has_width (consts [1]) sum 32 /\ (forall l, taken l sum -> exists x, eval_sum sum l = Some x /\ int64 x /\ 0 <= x < 2 ^ 3)
  /\ snd (assign eval_sum (consts [1]) 3 false sum) = Ok (Op2 Add false (Sized 3 (Loop i4)) (Lit 0)).
Proof.
  split; [apply R_op; [left; reflexivity|constructor|constructor]|]. split; [apply W_op; [discriminate|constructor|apply (W_lit (consts [1]) 0)]|]. split; [|reflexivity].
  intros l H. destruct (taken_one l sum i4 eq_refl H) as (v & -> & B). cbn [i4 l_min l_max] in B. exists (v + 1). split; [reflexivity|]. split; [|change (2 ^ 3) with 8; lia].
  unfold int64. assert (8 < 2 ^ 63) by reflexivity. revert H0. generalize (2 ^ 63). intros. lia.
Qed.

Lemma bits_fun st env sv s x : bits st env sv s x -> forall y, bits st env sv s y -> y = x.
Proof.
  induction 1; intros y' B'; inversion B'; subst; try reflexivity;
    try (match goal with IH : forall y, bits _ _ _ ?a y -> y = _, X : bits _ _ _ ?a _ |- _ => rewrite (IH _ X); reflexivity end).
  repeat match goal with IH : forall y, bits _ _ _ ?a y -> y = _, X : bits _ _ _ ?a ?y |- context [?y] => rewrite (IH _ X); clear X end.
  match goal with X : has_width _ ?e ?u, Y : has_width _ ?e ?v |- _ => rewrite (width_fun _ _ _ X _ Y) || rewrite (width_fun _ _ _ _ X Y) end; reflexivity.
Qed.
Definition shifted : sig := Op2 Shr false (Op2 Mul false (Loop i10) (Lit 0)) (Lit 1).
Definition shifted' : sig := Op2 Shr false (Op2 Mul false (Sized 8 (Loop i10)) (Lit 0)) (Lit 1).
Definition eval_shifted (s : sig) (l : list Z) : option Z := match l with [v] => Some (v * 100 / 16) | _ => None end.
Definition st8 : store := upd (upd (consts [100; 4]) 0 {| c_value := 100; c_width := 8; c_signed := false |}) 1 {| c_value := 4; c_width := 8; c_signed := false |}.
(* C492: with a shift or a division the bits are not those of what it was. *)
Theorem C492_shift_refuted :
  ~ (forall other st lw s k st1 r1, closed s -> sound st -> has_width st s k -> 1 <= lw <= 64 -> lw < k ->
       (forall l, taken l s -> exists x, other s l = Some x /\ int64 x /\ 0 <= x < 2 ^ lw) ->
       assign other st lw false s = (st1, r1, Ok r1) ->
       forall env sv v, (forall i, l_min i <= env i < l_max i \/ ~ over s i) -> bits st env sv s v -> 0 <= v < 2 ^ lw -> bits st1 env sv r1 v).
Proof.
  intros H.
  assert (Sd : sound (consts [100; 4])) by (apply consts_sound; constructor; [split; [discriminate|reflexivity]|constructor; [split; [discriminate|reflexivity]|constructor]]).
  assert (Wm : has_width (consts [100; 4]) (Op2 Mul false (Loop i10) (Lit 0)) 32) by (apply W_op; [discriminate|constructor|apply (W_lit (consts [100; 4]) 0)]).
  assert (Ws : has_width (consts [100; 4]) shifted 32) by (apply W_op; [discriminate|exact Wm|apply (W_lit (consts [100; 4]) 1)]).
  assert (Wm8 : has_width st8 (Op2 Mul false (Sized 8 (Loop i10)) (Lit 0)) 8) by (apply W_op; [discriminate|constructor|apply (W_lit st8 0)]).
  assert (Ws8 : has_width st8 shifted' 8) by (apply W_op; [discriminate|exact Wm8|apply (W_lit st8 1)]).
  assert (B : bits (consts [100; 4]) (fun _ => 9) (fun _ => 0) shifted 56).
  { apply (B_op (consts [100; 4]) (fun _ => 9) (fun _ => 0) Shr false _ _ 32 900 4 Ws); [|apply (B_lit (consts [100; 4]) _ _ 1)].
    apply (B_op (consts [100; 4]) (fun _ => 9) (fun _ => 0) Mul false _ _ 32 9 100 Wm); [apply (B_loop _ (fun _ => 9) _ i10)|apply (B_lit (consts [100; 4]) _ _ 0)]. }
  assert (B8 : bits st8 (fun _ => 9) (fun _ => 0) shifted' 8).
  { apply (B_op st8 (fun _ => 9) (fun _ => 0) Shr false _ _ 8 132 4 Ws8); [|apply (B_lit st8 _ _ 1)].
    apply (B_op st8 (fun _ => 9) (fun _ => 0) Mul false _ _ 8 9 100 Wm8); [exact (B_sized st8 (fun _ => 9) (fun _ => 0) 8 (Loop i10) 9 (B_loop st8 (fun _ => 9) (fun _ => 0) i10))|apply (B_lit st8 _ _ 0)]. }
  assert (C : bits st8 (fun _ => 9) (fun _ => 0) shifted' 56).
  { apply (H eval_shifted (consts [100; 4]) 8 shifted 32 st8 shifted'); try assumption; try lia.
    - repeat constructor.
    - intros l T. destruct (taken_one l shifted i10 eq_refl T) as (v & -> & Bv). cbn [i10 l_min l_max] in Bv. exists (v * 100 / 16). split; [reflexivity|].
      assert (0 <= v * 100 / 16 < 2 ^ 8) by (split; [apply Z.div_pos; lia|apply Z.div_lt_upper_bound; [lia|]; change (2 ^ 8) with 256; lia]).
      split; [|assumption]. unfold int64. assert (2 ^ 8 < 2 ^ 63) by reflexivity. revert H0 H1. generalize (v * 100 / 16), (2 ^ 8), (2 ^ 63). intros. lia.
    - reflexivity.
    - intros i. destruct (Z.le_gt_cases (l_min i) 9), (Z.le_gt_cases (l_max i) 9); try (left; lia); right; intros O; inversion O; subst;
        repeat match goal with X : over (Op2 _ _ _ _) _ |- _ => inversion X; clear X; subst | X : over (Lit _) _ |- _ => inversion X | X : over (Loop _) _ |- _ => inversion X; clear X; subst end; cbn [i10 l_min l_max] in *; lia. }
  pose proof (bits_fun _ _ _ _ _ B8 _ C) as D. discriminate D.
Qed.

Definition back : sig := Op2 Sub false (Op2 Add false (Loop i4) (Lit 0)) (Lit 0).
Definition eval_back (s : sig) (l : list Z) : option Z := match l with [v] => Some v | _ => None end.
(* C493: an expression with a constant that does not fit is refused, whatever its values. *)
Theorem C493_constant_refuted :
  (forall other st lw s k c, closed s -> sound st -> (forall d, s <> Lit d) -> 1 <= lw <= 64 -> has_width st s k -> lw <> k -> uses s c -> 2 ^ lw <= c_value (st c) ->
     snd (assign other st lw false s) = Throw)
  /\ ~ (forall other st lw s k, ring s -> (exists i, over s i) -> signed st s = false -> sound st -> has_width st s k -> 1 <= lw <= 64 -> lw < k ->
          (forall l, taken l s -> exists x, other s l = Some x /\ int64 x /\ 0 <= x < 2 ^ lw) -> snd (assign other st lw false s) <> Throw).
Proof.
  split.
  - intros other st lw s k c Cs Sd Nl W Hk Nk Uc V. unfold assign. destruct (negb _); [reflexivity|]. rewrite (proj2 (width_iff st s k) Hk).
    destruct (Z.eqb_spec lw k); [contradiction|]. destruct (has_iter s); [|reflexivity]. destruct (safe other s lw false); [|reflexivity].
    destruct (fix_width st s lw) as ((st1 & r1) & o) eqn:E. destruct (fix_rewidth st s lw Sd ltac:(lia) _ _ _ E) as (_ & Nu).
    destruct o as [u| |]; [|reflexivity|congruence]. destruct (fix_uses st s lw Cs st1 r1 u Sd ltac:(lia) E) as (_ & X). specialize (X c Uc). lia.
  - intros H. apply (H eval_back (consts [300]) 8 back 32); try lia; try reflexivity.
    + apply R_op; [right; left; reflexivity|apply R_op; [left; reflexivity|constructor|constructor]|constructor].
    + exists i4. apply O_left, O_left, O_loop.
    + apply consts_sound. constructor; [split; [discriminate|reflexivity]|constructor].
    + apply W_op; [discriminate|apply W_op; [discriminate|constructor|apply (W_lit (consts [300]) 0)]|apply (W_lit (consts [300]) 0)].
    + intros l T. destruct (taken_one l back i4 eq_refl T) as (v & -> & B). cbn [i4 l_min l_max] in B. exists v. split; [reflexivity|].
      split; [|change (2 ^ 8) with 256; lia]. unfold int64. assert (4 < 2 ^ 63) by reflexivity. revert H0. generalize (2 ^ 63). intros. lia.
Qed.

Definition less : sig := Op2 Lt false (Loop i4) (Lit 0).
Definition eval_less (s : sig) (l : list Z) : option Z := match l with [v] => Some (if v <? 2 then 1 else 0) | _ => None end.
(* C494: an assignment that is refused has changed the operands and the constants. *)
Theorem C494_changed_refuted :
  (forall other st lw i c, sound st -> 1 < lw <= 64 -> l_min i < l_max i -> c_value (st c) < 2 ^ lw ->
     let s := Op2 Lt false (Loop i) (Lit c) in
     (forall l, taken l s -> exists x, other s l = Some x /\ int64 x /\ 0 <= x < 2 ^ lw) ->
     exists st', assign other st lw false s = (st', Op2 Lt false (Sized lw (Loop i)) (Lit c), Throw)
       /\ c_width (st' c) = lw /\ c_value (st' c) = c_value (st c) /\ forall d, d <> c -> st' d = st d)
  /\ ~ (forall other st lw sg s, snd (assign other st lw sg s) = Throw -> fst (assign other st lw sg s) = (st, s)).
Proof.
  split.
  - intros other st lw i c Sd W L V s Sm. subst s. unfold assign. cbn [signed width has_iter orb Bool.eqb negb].
    destruct (Z.eqb_spec lw 1) as [E|_]; [lia|]. rewrite safe_of; [|discriminate|cbn [loops app]; constructor; [exact L|constructor]|lia|exact Sm].
    cbn [fix_width]. destruct (Sd c) as (Sg & Vc & Iv). rewrite (set_width_unsigned (st c) lw Sg Iv (proj1 Vc) ltac:(lia)).
    destruct (Z.ltb_spec (c_value (st c)) (2 ^ lw)); [|lia]. cbn [width same_width]. destruct (Z.eqb_spec lw 1) as [E|_]; [lia|].
    eexists. split; [reflexivity|]. unfold upd. rewrite Nat.eqb_refl. split; [reflexivity|]. split; [reflexivity|].
    intros d Nd. destruct (Nat.eqb_spec d c); [contradiction|reflexivity].
  - intros H. specialize (H eval_less (consts [2]) 8 false less eq_refl). apply (f_equal snd) in H. discriminate H.
Qed.
Example C494_ex : snd (fst (assign eval_less (consts [2]) 8 false less)) = Op2 Lt false (Sized 8 (Loop i4)) (Lit 0).
Proof. reflexivity. Qed.

(* C495: an assignment that is taken gives a constant another width, and another expression with that constant has no width any more. *)
Theorem C495_shared_refuted :
  (forall st st' c x w sg, c_width (st c) = w -> c_width (st' c) <> w -> has_width st (Op2 Add sg (Signal x w) (Lit c)) w /\ forall v, ~ has_width st' (Op2 Add sg (Signal x w) (Lit c)) v)
  /\ ~ (forall other st lw s st1 r1 s' w, sound st -> assign other st lw false s = (st1, r1, Ok r1) -> has_width st s' w -> has_width st1 s' w).
Proof.
  assert (A : forall st st' c x w sg, c_width (st c) = w -> c_width (st' c) <> w -> has_width st (Op2 Add sg (Signal x w) (Lit c)) w /\ forall v, ~ has_width st' (Op2 Add sg (Signal x w) (Lit c)) v).
  { intros st st' c x w sg E N. split; [apply W_op; [discriminate|constructor|rewrite <- E; constructor]|]. intros v H. inversion H as [| | | | | |o sg' a b v' No Ha Hb]; subst.
    inversion Ha; subst. inversion Hb; subst. congruence. }
  split; [exact A|]. intros H.
  set (st1 := upd (consts [1]) 0 {| c_value := 1; c_width := 3; c_signed := false |}).
  destruct (A (consts [1]) st1 0%nat 7%nat 32 false eq_refl ltac:(discriminate)) as (X & Y).
  apply (Y 32). apply (H eval_sum (consts [1]) 3 sum st1 (Op2 Add false (Sized 3 (Loop i4)) (Lit 0))); [|reflexivity|exact X].
  apply consts_sound. constructor; [split; [discriminate|reflexivity]|constructor].
Qed.
Print Assumptions C490_loop.
Print Assumptions C490_other.
Print Assumptions C491_narrowed.
Print Assumptions C492_shift_refuted.
Print Assumptions C493_constant_refuted.
Print Assumptions C494_changed_refuted.
Print Assumptions C495_shared_refuted.
