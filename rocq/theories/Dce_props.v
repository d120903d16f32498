(* C159-C163: dead code elimination. *)
From Verif Require Import Base SV_spec IR IRSem_spec Design_spec Dce_spec Dce_model Dce_proofs Design_proofs.
Local Open Scope Z_scope.

(* C159: for every design, every schedule and all initial values, every signal that is left has the value it
   had without the pass, as long as no clock or reset was removed *)
Theorem C159_same_values : forall H d, good H d ->
  (forall x, d_event x d -> ~ In x (s_gone (eliminate H d))) ->
  forall G sched r x, ~ In x (s_gone (eliminate H d)) -> In (h_owner H x) (instances_left H d) ->
    c_cur (play G (s_design (eliminate H d)) sched (init r)) x = c_cur (play G d sched (init r)) x.
Proof. intros H d W Ev G sched r x Nx Ox. symmetry. exact (dce_agree H d W Ev G sched r x Nx Ox). Qed.
(* the ports of the top level stay and behave as before *)
Theorem C159_same_interface : forall H d, good H d ->
  (forall x, d_event x d -> ~ In x (s_gone (eliminate H d))) ->
  forall top x, In top (h_gens H) -> h_parent H top = None -> In x (h_ports H top) ->
    ~ In x (s_gone (eliminate H d)) /\
    forall G sched r, c_cur (play G (s_design (eliminate H d)) sched (init r)) x = c_cur (play G d sched (init r)) x.
Proof.
  intros H d W Ev top x It Pt Ix. destruct (g_ports _ _ W _ _ Ix) as [O K].
  assert (~ In x (s_gone (eliminate H d))) as N.
  { intros I. destruct (v_rem _ _ _ (dce_inv H d W) x I) as (g & [J|[J P]]).
    - destruct (g_vars _ _ W _ _ J) as [_ K2]. contradiction.
    - destruct (g_ports _ _ W _ _ J) as [O2 _]. congruence. }
  split; [exact N|]. intros G sched r. apply C159_same_values; auto. rewrite O.
  apply (proj2 (alive_spec H d W top It)). now rewrite Pt.
Qed.
(* nothing that is left refers to a removed signal *)
Theorem C159_nothing_dangles : forall H d, good H d -> forall x, In x (s_gone (eliminate H d)) ->
  ~ d_reads x (s_design (eliminate H d)) /\ ~ d_assigns x (s_design (eliminate H d)).
Proof.
  intros H d W x I. destruct (v_gone _ _ _ (dce_inv H d W) x I) as [A B].
  split; intros (it & J & R); apply filter_In in J; destruct J as [J _]; [apply A|apply B]; exists it; auto.
Qed.
(* C160: in a design without slices, a variable that is left is read *)
Theorem C160_no_dead_variable_left : forall H d, good H d -> no_slices d ->
  forall g x, In g (instances_left H d) -> In x (h_vars H g) -> ~ In x (s_gone (eliminate H d)) -> d_reads x (s_design (eliminate H d)).
Proof.
  intros H d W NS g x Ig Ix Nx. destruct (dce_complete H d W g x (alive_in _ _ _ _ Ig) Ix) as [C|[(it & I & E & R)|C]]; [contradiction| |].
  - exists it. split; auto. unfold eliminate, dce. cbn [s_design]. apply filter_In. split; auto. rewrite E. now apply mem_In.
  - unfold dce_vars in C. rewrite (slices_fold H d W NS) in C; [destruct C| |reflexivity]. now apply inv_start.
Qed.
(* an instance that is left has a port *)
Theorem C160_no_empty_instance_left : forall H d, good H d -> forall g, In g (instances_left H d) -> h_parent H g <> None ->
  exists x, In x (h_ports H g) /\ ~ In x (s_gone (eliminate H d)).
Proof.
  intros H d W g Ig P. pose proof (proj1 (alive_spec H d W g (alive_in _ _ _ _ Ig)) Ig) as A. destruct (h_parent H g) as [p|]; [|congruence].
  destruct A as [_ A]. unfold no_ports in A. destruct (left_over _ (h_ports H g)) as [|x l] eqn:E; [discriminate|].
  exists x. apply (left_in (dce_vars (h_kind H) (h_vars H) (h_ports H) (h_parent H) (h_gens H) d)). rewrite E. now left.
Qed.

(* an example: instance 1 passes its input to its output and has a dead variable, instance 2 has no output, the top
   level has a chain of two dead variables *)
Definition wire1 (i g : nat) (x y : var) : item := {| i_id := i; i_gen := g; i_proc := PWire (LVar x) (EVar y) |}.
Definition H1 : hierarchy := {|
  h_gens := [1; 2; 0]%nat;
  h_parent := fun g => match g with 1 | 2 => Some 0 | _ => None end%nat;
  h_vars := fun g => match g with 0 => [3; 4] | 1 => [12] | 2 => [21] | _ => [] end%nat;
  h_ports := fun g => match g with 0 => [0; 1; 2] | 1 => [10; 11] | 2 => [20] | _ => [] end%nat;
  h_kind := fun x => match x with 0 | 1 | 10 | 20 => KIn | 2 | 11 => KOut | _ => KVar end%nat;
  h_owner := fun x => match x with 10 | 11 | 12 => 1 | 20 | 21 => 2 | _ => 0 end%nat |}.
Definition D1 : design := [
  wire1 0 1 11 10; {| i_id := 1; i_gen := 1; i_proc := PComb [SIf (EVar 10) [SAssign Blocking (LVar 12) (EVar 10)] []] |};
  wire1 2 2 21 20; wire1 3 0 10 1; wire1 4 0 20 1; wire1 5 0 3 1; wire1 6 0 4 3;
  {| i_id := 7; i_gen := 0; i_proc := PFf [(true, 0%nat)] [SAssign NonBlocking (LVar 2) (EVar 11)] |} ]%nat.
Definition written (s : stmt) : list var := match s with SAssign _ l _ => [lhs_var l] | SFor i _ _ _ _ => [i] | _ => [] end.
Lemma touches_in : forall x b, touches x b -> In x (collect_body written b).
Proof.
  intros x b [(k & l & e & I & E)|(s & t & u & bd & I)]; apply collect_in; [exists (SAssign k l e)|exists (SFor x s t u bd)]; split; auto; cbn; auto.
Qed.
Lemma reads_in : forall x b, reads x b -> In x (collect_body stmt_sinks b).
Proof. intros x b (s & I & R). apply collect_in. exists s. split; auto. now apply reads_sinks. Qed.
Lemma list_order : forall (P : nat -> nat -> Prop) l, (forall l1 g l2, l = l1 ++ g :: l2 -> forall p, P g p -> In p l2) <->
  match l with [] => True | g :: r => (forall p, P g p -> In p r) /\ forall l1 g l2, r = l1 ++ g :: l2 -> forall p, P g p -> In p l2 end.
Proof.
  intros P [|g r]; split; auto.
  - intros _ [|? ?] ? ? E; discriminate.
  - intros A. split; [apply (A []); reflexivity|]. intros l1 g1 l2 ->. apply (A (g :: l1)). reflexivity.
  - intros [A B] [|a l1] g1 l2 E; cbn in E; injection E as -> ->; auto. apply (B l1). reflexivity.
Qed.
Ltac cases := repeat match goal with
  | H : In _ (_ :: _) |- _ => destruct H as [H|H]
  | H : In _ [] |- _ => destruct H
  | H : False |- _ => destruct H
  | H : _ \/ _ |- _ => destruct H as [H|H]
  end.
Lemma good1 : good H1 D1.
Proof.
  split.
  - cbn. repeat constructor; cbn; intuition congruence.
  - intros l1 g l2 p E P. revert l1 g l2 E p P. apply (list_order (fun g p => h_parent H1 g = Some p)). split; [cbn; intuition congruence|].
    apply (list_order (fun g p => h_parent H1 g = Some p)). split; [cbn; intuition congruence|].
    apply (list_order (fun g p => h_parent H1 g = Some p)). split; [cbn; intuition congruence|].
    intros [|? ?] ? ? E; discriminate.
  - vm_compute. repeat constructor; cbn; intuition congruence.
  - intros [|[|[|g]]] x I; cbn in I; cases; subst; cbn; auto.
  - intros [|[|[|g]]] x I; cbn in I; cases; subst; cbn; split; congruence.
  - intros it x I A. assert (In x (collect_body stmt_sinks (body_of (i_proc it))) \/ In x (collect_body written (body_of (i_proc it))) \/
      In x (map snd (events_of (i_proc it)))) as B.
    { destruct A as [A|[A|A]]; [left; now apply reads_in|right; left; now apply touches_in|auto]. }
    clear A. cbn in I. cases; subst it; vm_compute in B; cases; subst x; cbn; auto 10.
  - intros it x I A K O. assert (In x (collect_body written (body_of (i_proc it)))) as B by (apply touches_in; now left).
    clear A. cbn in I. cases; subst it; vm_compute in B; cases; subst x; cbn in *; congruence.
  - intros g x I K P _. destruct g as [|[|[|g]]]; cbn in I, P; cases; subst x; try discriminate K; try congruence.
    exists (wire1 0 1 11 10)%nat. split; [now left|]. do 3 eexists. split; [apply in_here; left; reflexivity|reflexivity].
Qed.
Example C159_ex : good H1 D1 /\ s_gone (eliminate H1 D1) = [3; 4; 20; 21; 12]%nat /\ instances_left H1 D1 = [1; 0]%nat /\
  map i_id (s_design (eliminate H1 D1)) = [0; 1; 3; 7]%nat /\ (forall x, d_event x D1 -> ~ In x (s_gone (eliminate H1 D1))) /\
  map i_proc (filter (fun it => Nat.eqb (i_id it) 1) (s_design (eliminate H1 D1))) = [PComb [SIf (EVar 10) [] []]] /\ no_slices D1.
Proof.
  split; [exact good1|]. repeat (split; [vm_compute; reflexivity|]). split; [|split; [vm_compute; reflexivity|]].
  - intros x (it & e & I & J & <-). cbn in I. cases; subst it; cbn in J; cases; subst e; vm_compute; intuition congruence.
  - intros it k l e I J. assert (In (l, e) (collect_body (fun s => match s with SAssign _ l e => [(l, e)] | _ => [] end) (body_of (i_proc it)))) as B
      by (apply collect_in; exists (SAssign k l e); split; auto; now left).
    cbn in I. cases; subst it; vm_compute in B; cases; injection B as <- <-; auto.
Qed.

(* C161: the clock of an instance.  An input port of an instance is removed, and its connection with it, when no
   statement reads it, even if it is the clock of a process *)
Definition H2 : hierarchy := {|
  h_gens := [1; 0]%nat;
  h_parent := fun g => match g with 1 => Some 0 | _ => None end%nat;
  h_vars := fun _ => [];
  h_ports := fun g => match g with 0 => [1; 2] | 1 => [10; 11] | _ => [] end%nat;
  h_kind := fun x => match x with 1 | 10 => KIn | 2 | 11 => KOut | _ => KVar end%nat;
  h_owner := fun x => match x with 10 | 11 => 1 | _ => 0 end%nat |}.
Definition D2 : design := [
  {| i_id := 0; i_gen := 1; i_proc := PFf [(true, 10%nat)] [SAssign NonBlocking (LVar 11) (EConst 1 1 false)] |};
  wire1 1 0 10 1; wire1 2 0 2 11 ]%nat.
Lemma good2 : good H2 D2.
Proof.
  split.
  - cbn. repeat constructor; cbn; intuition congruence.
  - intros l1 g l2 p E P. revert l1 g l2 E p P. apply (list_order (fun g p => h_parent H2 g = Some p)). split; [cbn; intuition congruence|].
    apply (list_order (fun g p => h_parent H2 g = Some p)). split; [cbn; intuition congruence|].
    intros [|? ?] ? ? E; discriminate.
  - vm_compute. repeat constructor; cbn; intuition congruence.
  - intros g x [].
  - intros [|[|[|g]]] x I; cbn in I; cases; subst; cbn; split; congruence.
  - intros it x I A. assert (In x (collect_body stmt_sinks (body_of (i_proc it))) \/ In x (collect_body written (body_of (i_proc it))) \/
      In x (map snd (events_of (i_proc it)))) as B.
    { destruct A as [A|[A|A]]; [left; now apply reads_in|right; left; now apply touches_in|auto]. }
    clear A. cbn in I. cases; subst it; vm_compute in B; cases; subst x; cbn; auto 10.
  - intros it x I A K O. assert (In x (collect_body written (body_of (i_proc it)))) as B by (apply touches_in; now left).
    clear A. cbn in I. cases; subst it; vm_compute in B; cases; subst x; cbn in *; congruence.
  - intros g x I K P _. destruct g as [|[|[|g]]]; cbn in I, P; cases; subst x; try discriminate K; try congruence.
    exists {| i_id := 0; i_gen := 1; i_proc := PFf [(true, 10%nat)] [SAssign NonBlocking (LVar 11) (EConst 1 1 false)] |}.
    split; [now left|]. do 3 eexists. split; [apply in_here; left; reflexivity|reflexivity].
Qed.
Definition bits1 : tenv := fun _ => {| d_width := 1; d_signed := false |}.
Theorem C161_instance_clock_refuted :
  (forall H d g x, good H d -> In g (h_gens H) -> h_parent H g <> None -> In x (h_ports H g) -> h_kind H x = KIn -> ~ d_reads x d ->
     In x (s_gone (eliminate H d)) /\ ~ d_assigns x (s_design (eliminate H d))) /\
  exists H d sched, good H d /\ (forall x, d_event x d -> exists g, In x (h_ports H g)) /\
    c_cur (play bits1 d sched (init (fun _ => 0))) 2%nat = 1 /\
    c_cur (play bits1 (s_design (eliminate H d)) sched (init (fun _ => 0))) 2%nat = 0.
Proof.
  split.
  - intros H d g x W Ig Pg Ix K N. assert (In x (s_gone (eliminate H d))) as I by (apply (port_gone H d W g x); auto).
    split; [exact I|]. now apply C159_nothing_dangles.
  - exists H2, D2, [Drive 1%nat 1; Run 1%nat; Run 0%nat; Flush; Run 2%nat]. split; [exact good2|]. split.
    + intros x (it & e & I & J & <-). cbn in I. cases; subst it; cbn in J; cases; subst e. exists 1%nat. cbn. auto.
    + split; vm_compute; reflexivity.
Qed.
Example C161_ex : s_gone (eliminate H2 D2) = [10]%nat /\ map i_id (s_design (eliminate H2 D2)) = [0; 2]%nat.
Proof. split; vm_compute; reflexivity. Qed.

(* C162: instances of modules that are given from outside have no statements *)
Definition H3 : hierarchy := {|
  h_gens := [1; 0]%nat;
  h_parent := fun g => match g with 1 => Some 0 | _ => None end%nat;
  h_vars := fun _ => [];
  h_ports := fun g => match g with 0 => [1; 2] | 1 => [10; 11] | _ => [] end%nat;
  h_kind := fun x => match x with 1 | 10 => KIn | 2 | 11 => KOut | _ => KVar end%nat;
  h_owner := fun x => match x with 10 | 11 => 1 | _ => 0 end%nat |}.
Definition D3 : design := [wire1 1 0 10 1; wire1 2 0 2 11]%nat.
Theorem C162_external_instance_refuted :
  (forall H d g, good H d -> In g (h_gens H) -> h_parent H g <> None ->
     (forall x, In x (h_ports H g) -> h_kind H x = KIn -> ~ d_reads x d) ->
     (forall x, In x (h_ports H g) -> h_kind H x = KOut -> ~ d_assigns x d) ->
     ~ In g (instances_left H d) /\ forall x, In x (h_ports H g) -> In x (s_gone (eliminate H d))) /\
  s_design (eliminate H3 D3) = [] /\ instances_left H3 D3 = [0]%nat /\ ~ In 2%nat (s_gone (eliminate H3 D3)).
Proof.
  split.
  - intros H d g W Ig Pg N1 N2. assert (forall x, In x (h_ports H g) -> In x (s_gone (eliminate H d))) as A.
    { intros x Ix. apply (port_gone H d W g x); auto. destruct (g_ports _ _ W _ _ Ix) as [_ K].
      destruct (h_kind H x) eqn:E; [congruence|left; auto|right; auto]. }
    split; [|exact A]. intros I. destruct (C160_no_empty_instance_left H d W g I Pg) as (x & Ix & Nx). auto.
  - repeat split; try (vm_compute; reflexivity). vm_compute. intuition congruence.
Qed.

(* C163: a variable that only dead code reads, but through a slice, is left *)
Definition H4 : hierarchy := {|
  h_gens := [0]%nat; h_parent := fun _ => None; h_vars := fun g => match g with 0 => [2; 3] | _ => [] end%nat;
  h_ports := fun g => match g with 0 => [1] | _ => [] end%nat;
  h_kind := fun x => match x with 1 => KIn | _ => KVar end%nat; h_owner := fun _ => 0%nat |}.
Definition D4 : design := [wire1 0 0 2 1; {| i_id := 1; i_gen := 0; i_proc := PWire (LVar 3) (ESlice (EVar 2) 0 0) |}]%nat.
Theorem C163_sliced_dead_variable_refuted :
  s_gone (eliminate H4 D4) = [3%nat] /\ map i_id (s_design (eliminate H4 D4)) = [0%nat] /\
  d_assigns 2%nat (s_design (eliminate H4 D4)) /\ ~ d_reads 2%nat (s_design (eliminate H4 D4)).
Proof.
  split; [vm_compute; reflexivity|]. split; [vm_compute; reflexivity|]. split.
  - apply sources_in. vm_compute. auto.
  - intros R. apply sinks_in in R. vm_compute in R. intuition congruence.
Qed.
(* the same design without the slice is emptied *)
Example C163_ex : s_gone (eliminate H4 [wire1 0 0 2 1; wire1 1 0 3 2]%nat) = [2; 3]%nat /\ s_design (eliminate H4 [wire1 0 0 2 1; wire1 1 0 3 2]%nat) = [].
Proof. split; vm_compute; reflexivity. Qed.
Print Assumptions C159_same_values.
Print Assumptions C159_same_interface.
Print Assumptions C159_nothing_dangles.
Print Assumptions C160_no_dead_variable_left.
Print Assumptions C160_no_empty_instance_left.
Print Assumptions C161_instance_clock_refuted.
Print Assumptions C162_external_instance_refuted.
Print Assumptions C163_sliced_dead_variable_refuted.
