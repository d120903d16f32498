(* C171-C174: constants carried to ports of instances by variables. *)
From Verif Require Import Base SV_spec IR IRSem_spec IR_lemmas Design_spec Dce_spec Dce_model Design_proofs Dce_proofs Dce_props Fan_spec Fan_model Retarget_proofs Fan_proofs Fan_props
  Tie_spec Tie_model Tie_proofs.
Local Open Scope Z_scope.

(* C171: the design can do what it could do before, and nothing else, apart from the variables that are gone *)
Theorem C171_same_histories : forall G H d, tie_good G H d ->
  (forall h, Forall (in_range G) h -> history G d h -> history G (merge_const H d) h) /\
  (forall h', Forall (in_range G) h' -> history G (merge_const H d) h' ->
     exists h, Forall (in_range G) h /\ history G d h /\ Forall2 (agree (fun x => ~ untied H d (merge_const H d) x)) h h').
Proof. intros G H d TG. pose proof (merge_same G H (h_gens H) d TG) as S0. split; [apply (tsm_fwd _ _ _ _ S0)|apply (tsm_bwd _ _ _ _ S0)]. Qed.
(* every variable that carries a constant is gone, and its port is assigned the constant in the same generator *)
Theorem C171_port_gets_constant : forall G H d g x p it k l v w s, tie_good G H d -> In g (h_gens H) -> tied H d g x p ->
  only (writes_stmt x) d it (SAssign k l (EConst v w s)) ->
  ~ d_reads x (merge_const H d) /\ ~ d_assigns x (merge_const H d) /\
  exists it', In it' (merge_const H d) /\ i_gen it' = g /\ i_proc it' = PWire (LVar p) (EConst v w s).
Proof. intros G H d g x p it k l v w s TG Ig Td O. exact (tied_const G H (h_gens H) d g x p it k l v w s TG Ig Td O). Qed.
(* so that a second run finds nothing to do *)
Theorem C171_none_left : forall G H d, tie_good G H d ->
  tie_good G H (merge_const H d) /\ (forall g x p, In g (h_gens H) -> ~ tied H (merge_const H d) g x p) /\ merge_const H (merge_const H d) = merge_const H d.
Proof.
  intros G H d TG. assert (tie_good G H (merge_const H d)) as TG1 by apply (tsm_good _ _ _ _ (merge_same G H (h_gens H) d TG)).
  assert (forall g x p, In g (h_gens H) -> ~ tied H (merge_const H d) g x p) as N by (intros; now apply (tied_none G H (h_gens H) d TG)).
  split; [exact TG1|]. split; [exact N|]. exact (merge_again G H (h_gens H) _ TG1 N).
Qed.
(* nothing else is read or loses a driver *)
Theorem C171_drivers : forall G H d x, tie_good G H d -> (d_reads x (merge_const H d) -> d_reads x d) /\ (h_kind H x = KVar -> d_assigns x (merge_const H d) -> d_assigns x d).
Proof. intros G H d x TG. pose proof (merge_same G H (h_gens H) d TG) as S0. split; [apply (tsm_reads _ _ _ _ S0)|apply (tsm_assigns _ _ _ _ S0)]. Qed.

(* an example: generator 1 around instance 0; variable 0 carries a one to input 1, output 2 is the input inverted,
   and output 3 of generator 1 is output 2 *)
Definition H1 : hierarchy := {|
  h_gens := [0; 1]; h_parent := fun g => match g with 0 => Some 1 | _ => None end;
  h_vars := fun g => match g with 1 => [0] | _ => [] end; h_ports := fun g => match g with 0 => [1; 2] | _ => [3; 4] end;
  h_kind := fun x => match x with 0 => KVar | 1 | 4 => KIn | _ => KOut end; h_owner := fun x => match x with 1 | 2 => 0 | _ => 1 end |}%nat.
Definition give (i : nat) (g : nat) (x : var) (e : expr) : item := {| i_id := i; i_gen := g; i_proc := PWire (LVar x) e |}.
Definition one : expr := EConst 1 1 false.
Definition T1 : design := [give 0 1 0 one; give 1 1 1 (EVar 0); give 2 0 2 (EUn UInvert (EVar 1)); give 3 1 3 (EVar 2)]%nat.
Definition T1' : design := [give 2 0 2 (EUn UInvert (EVar 1)); give 3 1 3 (EVar 2); give 4 1 1 one]%nat.
Lemma H1_vars : forall g x, In x (h_vars H1 g) -> x = O /\ g = 1%nat.
Proof. intros [|[|g]] x I; cbn in I; cases; auto. Qed.
Lemma inside_collect : forall s b, inside s b -> In s (collect_body (fun s => [s]) b).
Proof. intros s b I. apply collect_in. exists s. split; [exact I|now left]. Qed.
Lemma T1_tied : forall g x p, tied H1 T1 g x p -> g = 1%nat /\ x = O /\ p = 1%nat.
Proof.
  intros g x p (Ix & _ & _ & _ & (it & k & e & (I & Is & R & _))). apply H1_vars in Ix. destruct Ix as [-> ->].
  split; [reflexivity|]. split; [reflexivity|]. apply inside_collect in Is. cbn in I. cases; subst it; vm_compute in Is; cases; injection Is as <- <- <-; try reflexivity;
    inversion R as [? ? ? R0| | |]; subst; vm_compute in R0; cases; discriminate.
Qed.
Lemma T1_good : tie_good G1 H1 T1.
Proof.
  constructor.
  - cbn. repeat constructor; cbn; intuition congruence.
  - intros g x I. apply H1_vars in I. destruct I as [-> ->]. auto.
  - intros g x p Td. apply T1_tied in Td. destruct Td as (-> & -> & ->). split; [reflexivity|]. split; [|split; [|split]].
    + intros (it & e & I & J & E). cbn in I. cases; subst it; cbn in J; cases.
    + intros it I (u & v & st & bd & J). apply inside_collect in J. cbn in I. cases; subst it; vm_compute in J; cases; discriminate.
    + intros it k l v w s (I & Is & W & _). apply inside_collect in Is. cbn in I. cases; subst it; vm_compute in Is; cases; try discriminate Is; injection Is as <- <- <- <- <-; repeat split.
    + intros it k e (I & Is & R & _). apply inside_collect in Is. cbn in I. cases; subst it; vm_compute in Is; cases; try discriminate Is; injection Is as <- <-; repeat split.
Qed.
Example C171_ex : tie_good G1 H1 T1 /\ tied H1 T1 1%nat 0%nat 1%nat /\ merge_const H1 T1 = T1' /\
  history G1 T1 [bits [1; 1; 0; 0; 0]] /\ (forall r, in_range G1 r -> settled G1 T1' r -> r 3%nat = 0).
Proof.
  split; [exact T1_good|]. split; [|split; [reflexivity|split]].
  - split; [now left|]. split; [discriminate|]. split; [reflexivity|]. split.
    + exists (give 0 1 0 one)%nat, Blocking, (LVar 0), 1, 1, false. split; [now left|]. split; [apply in_here; now left|]. split; [do 3 eexists; split; reflexivity|].
      intros it s I Is (k & l & e & -> & V). apply inside_collect in Is. cbn in I. cases; subst it; vm_compute in Is; cases; injection Is as <- <- <-; vm_compute in V; try discriminate V; auto.
    + exists (give 1 1 1 (EVar 0))%nat, Blocking, (EVar 0). split; [right; now left|]. split; [apply in_here; now left|]. split; [constructor; right; now left|].
      intros it s I Is R. apply inside_collect in Is. cbn in I. cases; subst it; vm_compute in Is; cases; subst s; auto; inversion R as [? ? ? R0| | |]; subst; vm_compute in R0; cases; discriminate.
  - apply h_first. intros it I E x. cbn in I. cases; subst it; destruct x as [|[|[|[|[|x]]]]]; try reflexivity; destruct x; reflexivity.
  - intros r R S0. assert (r 1%nat = 1) as E1.
    { apply (const_eq G1 1%nat 1 1 false r R eq_refl). apply (S0 (give 4 1 1 one)%nat); [right; right; now left|reflexivity]. }
    assert (r 3%nat = r 2%nat) as -> by (apply (settled_wire T1' r 3%nat 1%nat 2%nat 3%nat S0 R); right; now left).
    pose proof (S0 (give 2 0 2 (EUn UInvert (EVar 1)))%nat (or_introl eq_refl) eq_refl 2%nat) as X. revert X. pose proof (R 2%nat) as R2. change (2 ^ d_width (G1 2%nat)) with 2 in R2.
    unfold activate, commit, start_state. cbn. unfold upd. cbn. rewrite E1. assert (r 2%nat = 0 \/ r 2%nat = 1) as [-> | ->] by lia; vm_compute; congruence.
Qed.

(* C172: the pass looks at what the second assignment assigns, not at what it assigns to it *)
Definition at_ports (H : hierarchy) : list venv -> list venv -> Prop := Forall2 (agree (fun x => h_kind H x <> KVar)).
Definition T2 : design := [give 0 1 0 one; give 1 1 1 (EUn UInvert (EVar 0))]%nat.
Theorem C172_expression_lost_refuted :
  ~ forall G H d h, NoDup (map i_id d) -> one_driver d -> (forall it, In it d -> is_wire it = true) -> Forall (in_range G) h -> history G d h ->
      exists h', Forall (in_range G) h' /\ history G (merge_const H d) h' /\ at_ports H h h'.
Proof.
  intros C. destruct (C G1 H1 T2 [bits [1; 0; 0; 0; 0]]) as (h & R & Hh & A).
  - cbn. repeat constructor; cbn; intuition congruence.
  - apply one_driver_by. reflexivity.
  - intros it I. cbn in I. cases; subst it; reflexivity.
  - constructor; [|constructor]. apply bits_range. repeat constructor; lia.
  - apply h_first. intros it I E x. cbn in I. cases; subst it; destruct x as [|[|x]]; reflexivity.
  - inversion A as [|? r ? ? E A1]; subst. inversion A1; subst. inversion Hh as [? S0|]; subst. inversion R as [|? ? R0 _]; subst.
    assert (r 1%nat = 0) as E1 by (symmetry; apply (E 1%nat); discriminate).
    assert (r 1%nat = 1) as E2; [|congruence]. apply (const_eq G1 1%nat 1 1 false r R0 eq_refl). apply (S0 (give 2 1 1 one)%nat); [now left|reflexivity].
Qed.
Example C172_ex : merge_const H1 T2 = [give 2 1 1 one]%nat.
Proof. reflexivity. Qed.

(* C173: nor at when the constant is assigned: a register that starts with 0, and an assignment under a condition *)
Definition T3 : design := [{| i_id := 0; i_gen := 1; i_proc := PFf [(true, 4)] [SAssign NonBlocking (LVar 0) one] |}; give 1 1 1 (EVar 0)]%nat.
Definition T4 : design := [{| i_id := 0; i_gen := 1; i_proc := PComb [SIf (EVar 4) [SAssign Blocking (LVar 0) one] []] |}; give 1 1 1 (EVar 0)]%nat.
Lemma tied_off : forall d, merge_const H1 d = [hd (give 0 0 0 one) d; give 2 1 1 one]%nat ->
  ~ exists h', Forall (in_range G1) h' /\ history G1 (merge_const H1 d) h' /\ at_ports H1 [bits [0; 0; 0; 0; 0]] h'.
Proof.
  intros d X (h & R & Hh & A). rewrite X in Hh. inversion A as [|? r ? ? E A1]; subst. inversion A1; subst. inversion Hh as [? S0|]; subst. inversion R as [|? ? R0 _]; subst.
  assert (r 1%nat = 0) as E1 by (symmetry; apply (E 1%nat); discriminate).
  assert (r 1%nat = 1) as E2; [|congruence]. apply (const_eq G1 1%nat 1 1 false r R0 eq_refl). apply (S0 (give 2 1 1 one)%nat); [right; now left|reflexivity].
Qed.
Theorem C173_register_refuted :
  ~ forall G H d h, NoDup (map i_id d) -> (forall g x p, tied H d g x p -> exists it, In it d /\ i_proc it = PWire (LVar p) (EVar x)) -> Forall (in_range G) h -> history G d h ->
      exists h', Forall (in_range G) h' /\ history G (merge_const H d) h' /\ at_ports H h h'.
Proof.
  intros C. apply (tied_off T3 eq_refl). apply (C G1 H1 T3).
  - cbn. repeat constructor; cbn; intuition congruence.
  - intros g x p (Ix & _ & _ & _ & (it & k & e & (I & Is & R & _))). apply H1_vars in Ix. destruct Ix as [-> ->]. exists (give 1 1 1 (EVar 0))%nat. split; [right; now left|].
    apply inside_collect in Is. cbn in I. cases; subst it; vm_compute in Is; cases; injection Is as <- <- <-; try reflexivity. inversion R as [? ? ? R0| | |]; subst. vm_compute in R0. cases.
  - constructor; [|constructor]. apply bits_range. repeat constructor; lia.
  - apply h_first. intros it I E x. cbn in I. cases; subst it; [discriminate E|]. destruct x as [|[|x]]; reflexivity.
Qed.
Theorem C173_condition_refuted :
  ~ forall G H d h, NoDup (map i_id d) -> (forall it, In it d -> events_of (i_proc it) = []) -> (forall g x p, tied H d g x p -> exists it, In it d /\ i_proc it = PWire (LVar p) (EVar x)) ->
      Forall (in_range G) h -> history G d h -> exists h', Forall (in_range G) h' /\ history G (merge_const H d) h' /\ at_ports H h h'.
Proof.
  intros C. apply (tied_off T4 eq_refl). apply (C G1 H1 T4).
  - cbn. repeat constructor; cbn; intuition congruence.
  - intros it I. cbn in I. cases; subst it; reflexivity.
  - intros g x p (Ix & _ & _ & _ & (it & k & e & (I & Is & R & _))). apply H1_vars in Ix. destruct Ix as [-> ->]. exists (give 1 1 1 (EVar 0))%nat. split; [right; now left|].
    apply inside_collect in Is. cbn in I. cases; subst it; vm_compute in Is; cases; try discriminate Is; injection Is as <- <- <-; try reflexivity. inversion R as [? ? ? R0| | |]; subst. vm_compute in R0. cases.
  - constructor; [|constructor]. apply bits_range. repeat constructor; lia.
  - apply h_first. intros it I E x. cbn in I. cases; subst it; destruct x as [|[|x]]; reflexivity.
Qed.
Example C173_ex : merge_const H1 T3 = [hd (give 0 0 0 one) T3; give 2 1 1 one]%nat /\ merge_const H1 T4 = [hd (give 0 0 0 one) T4; give 2 1 1 one]%nat.
Proof. split; reflexivity. Qed.

(* C174: a variable that is also the clock of a process *)
Definition ff3 : item := {| i_id := 2; i_gen := 1; i_proc := PFf [(true, 0)] [SAssign NonBlocking (LVar 3) one] |}%nat.
Definition T5 : design := [give 0 1 0 one; give 1 1 1 (EVar 0); ff3]%nat.
Definition T5' : design := [ff3; give 3 1 1 one]%nat.
Theorem C174_clock_lost_refuted :
  ~ forall G H d h', NoDup (map i_id d) -> (forall it, In it d -> events_of (i_proc it) = [] -> is_wire it = true) -> Forall (in_range G) h' -> history G (merge_const H d) h' ->
      exists h, Forall (in_range G) h /\ history G d h /\ at_ports H h h'.
Proof.
  intros C. destruct (C G1 H1 T5 [bits [1; 1; 0; 1]; bits [0; 1; 0; 0]]) as (h & R & Hh & A).
  - cbn. repeat constructor; cbn; intuition congruence.
  - intros it I E. cbn in I. cases; subst it; try reflexivity. discriminate E.
  - apply Forall_cons; [|apply Forall_cons; [|constructor]]; apply bits_range; repeat constructor; lia.
  - change (merge_const H1 T5) with T5'. apply h_next; [apply h_first|split].
    + intros it I E x. cbn in I. cases; subst it; try discriminate E; destruct x as [|[|x]]; reflexivity.
    + intros it I E x. cbn in I. cases; subst it; try discriminate E; destruct x as [|[|x]]; reflexivity.
    + intros x (it & I & E & As). cbn in I. cases; subst it; try (now destruct E).
      assert (touches x [SAssign NonBlocking (LVar 3) one]) as Tx by now left. apply touches_in in Tx. vm_compute in Tx. cases. subst x. reflexivity.
  - inversion A as [|r2 ? ? ? E2 A1]; subst. inversion A1 as [|r1 ? ? ? E1 A0]; subst. inversion A0; subst.
    inversion R as [|? ? R2 R1]; subst. inversion R1 as [|? ? R1' _]; subst. inversion Hh as [|? ? ? Hh1 N]; subst. destruct N as [S2 N]. inversion Hh1 as [? S1|]; subst.
    assert (forall r, in_range G1 r -> settled G1 T5 r -> r 0%nat = 1) as K.
    { intros r Rr Sr. apply (const_eq G1 0%nat 1 1 false r Rr eq_refl). apply (Sr (give 0 1 0 one)%nat); [now left|reflexivity]. }
    pose proof (K r1 R1' S1) as Y1. pose proof (K r2 R2 S2) as Y2.
    assert (r1 3%nat = 0) as X3 by (apply (E1 3%nat); discriminate). assert (r2 3%nat = 1) as X4 by (apply (E2 3%nat); discriminate).
    assert (clocked T5 3%nat) as Ck. { exists ff3. split; [right; right; now left|]. split; [discriminate|]. do 3 eexists. split; [apply in_here; left; reflexivity|reflexivity]. }
    specialize (N 3%nat Ck). assert (fired G1 T5 r1 r2 = []) as Fi. { unfold fired, T5, ff3, give. cbn [filter i_proc events_of existsb]. unfold edge. cbn [fst snd ev]. rewrite Y1, Y2. reflexivity. }
    rewrite Fi in N. cbn in N. congruence.
Qed.
Example C174_ex : merge_const H1 T5 = T5' /\ d_event 0%nat T5' /\ ~ d_assigns 0%nat T5'.
Proof.
  split; [reflexivity|]. split; [exists ff3, (true, 0%nat); split; [now left|]; split; [now left|reflexivity]|].
  intros (it & I & A). assert (T : touches 0%nat (body_of (i_proc it))) by now left. apply touches_in in T. cbn in I. cases; subst it; vm_compute in T; cases; discriminate.
Qed.
Print Assumptions C171_same_histories.
Print Assumptions C171_port_gets_constant.
Print Assumptions C171_none_left.
Print Assumptions C171_drivers.
Print Assumptions C172_expression_lost_refuted.
Print Assumptions C173_register_refuted.
Print Assumptions C173_condition_refuted.
Print Assumptions C174_clock_lost_refuted.
