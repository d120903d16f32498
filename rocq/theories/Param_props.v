(* C48, C153..C158: parameters and what depends on them *)
From Coq Require Import Relations.
From Verif Require Import Base IR IRSem_spec Eval_model Sim_model Const_model Param_model Param_spec Param_proofs.
Local Open Scope Z_scope.

(* C48: setting a parameter gives exactly the parameters that follow it the new value *)
Theorem C48_parameters_that_follow : forall pow G slices st fuel p v st', history pow G slices st -> set_value pow G slices fuel p v st = Ok st' ->
  forall q, (follows st p q -> value st' q = v) /\ (~ follows st p q -> value st' q = value st q).
Proof.
  intros pow G slices st fuel p v st' H E q. apply history_inv in H as [So _ _]. apply set_value_spec in E as (_ & _ & A & B & _); [|exact So]. split; [apply A|apply B].
Qed.
(* at every time a parameter has the value of the one it was set from *)
Theorem C48_values_along_a_chain : forall pow G slices st p q, history pow G slices st -> follows st p q -> value st q = value st p.
Proof.
  intros pow G slices st p q H F. apply history_inv in H as [_ _ Q]. induction F as [a b I| |a b c _ IH1 _ IH2]; [now apply Q|reflexivity|congruence].
Qed.
(* at every time a dimension given by an expression has the value the expression has now *)
Theorem C48_dimensions_follow : forall pow G slices st x i e, history pow G slices st -> sparam st x i = Some e ->
  exists d, static_eval pow G (value st) e = Ok d /\ nth_error (sizes st x) i = Some (u32 d).
Proof. intros pow G slices st x i e H E. apply history_inv in H as [[_ Zs _ _] _ _]. now apply Zs. Qed.
Theorem C48_dimension_of_one_parameter : forall pow G slices st x i p, history pow G slices st -> sparam st x i = Some (EVar p) ->
  nth_error (sizes st x) i = Some (u32 (value st p)).
Proof.
  intros pow G slices st x i p H E. destruct (C48_dimensions_follow _ _ _ _ _ _ _ H E) as (d & D & ->). apply seval_var in D as ->. now rewrite u32_u64.
Qed.
(* an element width given by a parameter is its value *)
Theorem C48_width_of_one_parameter : forall pow G slices st x p, history pow G slices st -> wparam st x = Some (EVar p) -> vwidth st x = u32 (value st p).
Proof. intros pow G slices st x p H E. apply history_inv in H as [[_ _ _ W] _ _]. now apply W. Qed.
(* the width of an array is that of its element, given by an expression, times its dimensions *)
Theorem C48_width_of_an_array : forall pow G slices st x e w n f, history pow G slices st ->
  wparam st x = Some e -> static_eval pow G (value st) e = Ok w -> sizes st x = [n] -> sparam st x 0%nat = Some f ->
  exists d, static_eval pow G (value st) f = Ok d /\ width pow G st x = Ok (u32 (w * d)).
Proof.
  intros pow G slices st x e w n f H E W N F. destruct (C48_dimensions_follow _ _ _ _ _ _ _ H F) as (d & D & L). exists d. split; [exact D|].
  rewrite N in L. injection L as ->. unfold width. rewrite E, W, N. cbn [omap obind fold_left]. f_equal. unfold u32. now rewrite <- Zmult_mod.
Qed.
(* giving a dimension an expression is refused if a slice taken of the variable would not be inside any more *)
Theorem C48_slices_stay_inside : forall pow G slices fuel st x i e st', act pow G slices fuel (SetSize x i (Some e)) st = Ok st' ->
  forall sl hi lo, In sl (slices x) -> nth_error sl i = Some (hi, lo) ->
  exists d, static_eval pow G (value st) e = Ok d /\ hi < d /\ lo < d.
Proof.
  intros pow G slices fuel st x i e st' H sl hi lo Is En. cbn [act] in H. unfold set_size_param in H.
  destruct (List.length (sizes st x) <=? i)%nat; [discriminate H|]. destruct (static_eval pow G (value st) e) as [d| |]; cbn [obind] in H; try discriminate H.
  exists d. split; [reflexivity|]. destruct (existsb (too_small i d) (slices x)) eqn:X; [discriminate H|].
  assert (too_small i d sl = false) as T. { destruct (too_small i d sl) eqn:T; [|reflexivity]. rewrite <- X. symmetry. apply existsb_exists. eauto. }
  unfold too_small in T. rewrite En in T. lia.
Qed.

Definition ex_pow : Z -> Z -> outcome Z := fun _ _ => Throw.
Definition ex_G : tenv := fun _ => {| d_width := 32; d_signed := false |}.
Definition ex_slices : xid -> list (list (Z * Z)) := fun _ => [].
Definition ex_start : pstate :=
  {| value := fun _ => 1; wvars := fun _ => []; svars := fun _ => []; links := fun _ => []; parent := fun _ => None;
     vwidth := fun _ => 8; wparam := fun _ => None; sizes := fun _ => [1; 1]; sparam := fun _ _ => None |}.
Definition ex_run (l : list action) (st : pstate) : outcome pstate := fold_left (fun o a => olet st := o in act ex_pow ex_G ex_slices 10 a st) l (Ok st).
Example C48_slices_ex : act ex_pow ex_G (fun _ => [[(3, 2)]]) 3 (SetSize 5%nat 0%nat (Some (EConst 4 32 false))) ex_start <> Throw
  /\ act ex_pow ex_G (fun _ => [[(3, 2)]]) 3 (SetSize 5%nat 0%nat (Some (EConst 3 32 false))) ex_start = Throw.
Proof. split; [intros H; vm_compute in H; discriminate H|vm_compute; reflexivity]. Qed.
Definition plus1 (p : param) : expr := EBin Add (EVar p) (EConst 1 32 false).
Arguments plus1 p%nat_scope.
Arguments SetValue p%nat_scope v%Z_scope.
Arguments SetFrom (q p)%nat_scope.
Arguments SetWidth x%nat_scope e.
Arguments SetSize (x i)%nat_scope e.
(* parameter 2 set from 1 set from 0; variable 5 with the dimensions 2 + 1 and 1 and the width 1 *)
Definition ex_actions : list action :=
  [SetFrom 1 0; SetFrom 2 1; SetSize 5 0 (Some (plus1 2)); SetSize 5 1 (Some (EVar 1)); SetWidth 5 (Some (EVar 1)); SetValue 0 7].
Lemma ex_steps : forall l st st', history ex_pow ex_G ex_slices st ->
  (forall l1 a l2 s, l = l1 ++ a :: l2 -> ex_run l1 st = Ok s -> disciplined s a) -> ex_run l st = Ok st' -> history ex_pow ex_G ex_slices st'.
Proof.
  induction l as [|a l IH]; intros st st' H D R; [apply Ok_inj in R as <-; exact H|]. unfold ex_run in R. cbn [fold_left obind] in R.
  destruct (act ex_pow ex_G ex_slices 10 a st) as [s| |] eqn:E.
  - apply (IH s st'); [eapply Step; [exact H| |exact E]; now apply (D [] a l st)| |exact R].
    intros l1 b l2 s2 -> R2. apply (D (a :: l1) b l2 s2); [reflexivity|]. unfold ex_run. cbn [fold_left obind]. rewrite E. exact R2.
  - exfalso. clear - R. induction l as [|b l IH]; [discriminate R|now apply IH].
  - exfalso. clear - R. induction l as [|b l IH]; [discriminate R|now apply IH].
Qed.
(* looking at the state a run ends in *)
Lemma look : forall A (f : pstate -> A) l a, omap f (ex_run l ex_start) = Ok a -> forall st, ex_run l ex_start = Ok st -> f st = a.
Proof. intros A f l a H st E. rewrite E in H. now apply Ok_inj in H. Qed.
Lemma runs : forall A (f : pstate -> A) l a, omap f (ex_run l ex_start) = Ok a -> exists st, ex_run l ex_start = Ok st /\ f st = a.
Proof. intros A f l a H. destruct (ex_run l ex_start) as [st| |]; [|discriminate H|discriminate H]. exists st. split; [reflexivity|]. now apply Ok_inj in H. Qed.
Example C48_ex : exists st, ex_run ex_actions ex_start = Ok st /\ history ex_pow ex_G ex_slices st
  /\ (value st 2%nat, sizes st 5%nat, vwidth st 5%nat, width ex_pow ex_G st 5%nat) = (7, [8; 7], 7, Ok 392)
  /\ sparam st 5%nat 0%nat = Some (plus1 2) /\ wparam st 5%nat = Some (EVar 1%nat).
Proof.
  assert (fresh_state ex_start) as F by (repeat split).
  destruct (runs _ (fun st => ((value st 2%nat, sizes st 5%nat, vwidth st 5%nat, width ex_pow ex_G st 5%nat), sparam st 5%nat 0%nat, wparam st 5%nat)) ex_actions (7, [8; 7], 7, Ok 392, Some (plus1 2), Some (EVar 1%nat))) as (st & E & L); [vm_compute; reflexivity|].
  exists st. split; [exact E|]. split.
  - apply (ex_steps ex_actions ex_start); [now constructor| |exact E].
    intros l1 a l2 s L1 R. unfold ex_actions in L1.
    destruct l1 as [|b l1]; cbn [app] in L1; injection L1 as <- L1.
    { cbn [disciplined]. split; [|lia]. refine (look _ (fun st => parent st 1%nat) [] None _ s R). vm_compute; reflexivity. }
    destruct l1 as [|b l1]; cbn [app] in L1; injection L1 as <- L1.
    { cbn [disciplined]. split; [|lia]. refine (look _ (fun st => parent st 2%nat) _ None _ s R). vm_compute; reflexivity. }
    destruct l1 as [|b l1]; cbn [app] in L1; injection L1 as <- L1.
    { cbn [disciplined]. right. refine (look _ (fun st => sparam st 5%nat 0%nat) _ None _ s R). vm_compute; reflexivity. }
    destruct l1 as [|b l1]; cbn [app] in L1; injection L1 as <- L1.
    { cbn [disciplined]. right. refine (look _ (fun st => sparam st 5%nat 1%nat) _ None _ s R). vm_compute; reflexivity. }
    destruct l1 as [|b l1]; cbn [app] in L1; injection L1 as <- L1.
    { cbn [disciplined]. refine (look _ (fun st => wparam st 5%nat) _ None _ s R). vm_compute; reflexivity. }
    destruct l1 as [|b l1]; cbn [app] in L1; injection L1 as <- L1.
    { cbn [disciplined]. refine (look _ (fun st => parent st 0%nat) _ None _ s R). vm_compute; reflexivity. }
    destruct l1; discriminate L1.
  - injection L as L1 L2 L3 L4 L5 L6. repeat split; try assumption. congruence.
Qed.

(* C153: the element width of a variable whose width is an expression becomes the value of the parameter *)
Theorem C153_element_width_refuted : exists st, ex_run [SetWidth 5 (Some (plus1 0)); SetValue 0 4] ex_start = Ok st
  /\ (vwidth st 5%nat, static_eval ex_pow ex_G (value st) (plus1 0)) = (4, Ok 5).
Proof. apply (runs _ (fun st => (vwidth st 5%nat, static_eval ex_pow ex_G (value st) (plus1 0)))). vm_compute; reflexivity. Qed.
(* whatever the expression *)
Theorem C153_value_of_the_parameter_refuted : forall pow G slices fuel st x p v st', links st p = [] -> svars st p = [] -> In x (wvars st p) ->
  set_value pow G slices fuel p v st = Ok st' -> vwidth st' x = u32 v.
Proof.
  intros pow G slices fuel st x p v st' L Sv I H. destruct fuel as [|fuel]; [discriminate H|]. apply setv_inv in H as (st3 & H1 & H2 & _). rewrite Sv in H1.
  cbn [refresh] in H1. apply Ok_inj in H1 as <-. change (links (started p v st) p) with (links st p) in H2. rewrite L in H2. apply Ok_inj in H2 as <-. cbn. rewrite fold_width. now destruct (in_dec Nat.eq_dec x (wvars st p)).
Qed.

(* C154: a variable whose width parameter was taken away still changes its width with the parameter *)
Theorem C154_width_parameter_taken_away_refuted : exists st, ex_run [SetWidth 5 (Some (EVar 0%nat)); SetWidth 5 None; SetValue 0 4] ex_start = Ok st
  /\ (wparam st 5%nat, width ex_pow ex_G st 5%nat) = (None, Ok 4).
Proof. apply (runs _ (fun st => (wparam st 5%nat, width ex_pow ex_G st 5%nat))). vm_compute; reflexivity. Qed.
Theorem C154_stays_registered_refuted : forall pow G st x p e, wparam st x = Some e -> In p (evars e) ->
  exists st', set_width_param pow G st x None = Ok st' /\ In x (wvars st' p).
Proof.
  intros pow G st x p e E I. eexists. split; [reflexivity|]. rewrite E. cbn. unfold on_params. destruct (in_dec Nat.eq_dec p (evars e)); [|contradiction]. apply in_add_nat. now left.
Qed.

(* C155: a dimension given to another parameter goes back to the first one when that is set *)
Theorem C155_dimension_given_to_another_parameter_refuted : exists st,
  ex_run [SetSize 5 0 (Some (EVar 0%nat)); SetSize 5 0 (Some (EVar 1%nat)); SetValue 1 3; SetValue 0 7] ex_start = Ok st
  /\ (sizes st 5%nat, sparam st 5%nat 0%nat, value st 1%nat) = ([7; 1], Some (EVar 0%nat), 3).
Proof. apply (runs _ (fun st => (sizes st 5%nat, sparam st 5%nat 0%nat, value st 1%nat))). vm_compute; reflexivity. Qed.

(* C156: a parameter set from another one still follows the first one *)
Theorem C156_parameter_set_from_another_refuted : exists st,
  ex_run [SetFrom 2 0; SetFrom 2 1; SetValue 1 3; SetValue 0 7] ex_start = Ok st
  /\ (parent st 2%nat, value st 1%nat, value st 2%nat) = (Some 1%nat, 3, 7).
Proof. apply (runs _ (fun st => (parent st 2%nat, value st 1%nat, value st 2%nat))). vm_compute; reflexivity. Qed.

(* C157: a parameter set to a number keeps the parent whose name is printed for it (src/expr.cc:1201-1207) *)
Theorem C157_parameter_set_to_a_number_refuted : exists st,
  ex_run [SetFrom 2 0; SetValue 2 5] ex_start = Ok st
  /\ (parent st 2%nat, value st 0%nat, value st 2%nat) = (Some 0%nat, 1, 5).
Proof. apply (runs _ (fun st => (parent st 2%nat, value st 0%nat, value st 2%nat))). vm_compute; reflexivity. Qed.
Lemma chain_same : forall pow G slices fuel p v st st', sound pow G st -> set_value pow G slices fuel p v st = Ok st' -> forall q, parent st' q = parent st q.
Proof. intros pow G slices fuel p v st st' So H q. apply set_value_spec in H as ((E & _) & _); [|exact So]. now destruct (E q) as (_ & _ & _ & ->). Qed.
Theorem C157_parent_is_kept_refuted : forall pow G slices st fuel p v st', history pow G slices st -> set_value pow G slices fuel p v st = Ok st' ->
  parent st' p = parent st p /\ value st' p = v.
Proof.
  intros pow G slices st fuel p v st' H E. pose proof (C48_parameters_that_follow _ _ _ _ _ _ _ _ H E p) as [A _]. apply history_inv in H as [So _ _].
  split; [now apply (chain_same pow G slices fuel p v)|]. apply A. apply rt_refl.
Qed.

(* C158: parameters set from each other: the recursion does not end *)
Theorem C158_parameters_set_from_each_other_refuted : forall pow G slices fuel p v st, wvars st p = [] -> svars st p = [] -> links st p = [p] ->
  is_legal v (d_width (G p)) (d_signed (G p)) = Ok Legal -> set_value pow G slices fuel p v st = UB.
Proof.
  intros pow G slices fuel. induction fuel as [|fuel IH]; intros p v st W Sv L K; [reflexivity|]. cbn [set_value]. rewrite W, andb_false_r, K. cbn [obind].
  set (s := with_vwidth _ _). assert (svars s p = [] /\ links s p = [p] /\ wvars s p = []) as (E1 & E2 & E3) by auto. clearbody s.
  rewrite E1. cbn [refresh obind]. rewrite E2. cbn [obind]. now rewrite IH.
Qed.
Example C158_ex : ex_run [SetFrom 0 1; SetFrom 1 0] ex_start = UB /\ ex_run [SetFrom 0 0] ex_start = UB.
Proof. split; vm_compute; reflexivity. Qed.
Print Assumptions C48_parameters_that_follow.
Print Assumptions C48_values_along_a_chain.
Print Assumptions C48_dimensions_follow.
Print Assumptions C48_dimension_of_one_parameter.
Print Assumptions C48_width_of_one_parameter.
Print Assumptions C48_width_of_an_array.
Print Assumptions C153_element_width_refuted.
Print Assumptions C153_value_of_the_parameter_refuted.
Print Assumptions C154_width_parameter_taken_away_refuted.
Print Assumptions C154_stays_registered_refuted.
Print Assumptions C155_dimension_given_to_another_parameter_refuted.
Print Assumptions C156_parameter_set_from_another_refuted.
Print Assumptions C157_parameter_set_to_a_number_refuted.
Print Assumptions C157_parent_is_kept_refuted.
Print Assumptions C158_parameters_set_from_each_other_refuted.
Print Assumptions C48_slices_stay_inside.
