(* Properties of the multiple-driver check. *)
From Coq Require Import Permutation.
From Verif Require Import Base SV_spec IR IRSem_spec IR_lemmas IfCase_proofs Driver_spec Driver_model Driver_proofs.
Local Open Scope Z_scope.

(* ---- C25: an accepted module has one top-level driver per bit ---- *)
Theorem C25_one_driver_per_bit :
  forall G m x sources b i j ki kj bi bj,
    Permutation sources (drivers G x m) -> check_var sources = Ok tt ->
    nth_error m i = Some (ki, bi) -> drives G x b bi ->
    nth_error m j = Some (kj, bj) -> drives G x b bj ->
    i = j.
Proof.
  intros G m x srcs b i j ki kj bi bj P H Ei Di Ej Dj.
  destruct (drives_in G x m i ki bi b Ei Di) as (d1 & <- & C1 & I1).
  destruct (drives_in G x m j kj bj b Ej Dj) as (d2 & <- & C2 & I2).
  apply (same_root srcs H b d1 d2); auto; eapply Permutation_in; try (apply Permutation_sym; exact P); auto.
Qed.
Print Assumptions C25_one_driver_per_bit.
(* a variable assigned, any number of times, in one combinational or latch process only is accepted *)
Theorem C25_one_process_accepted :
  forall G m x sources i kind body,
    Permutation sources (drivers G x m) ->
    nth_error m i = Some (kind, body) -> kind = TComb \/ kind = TLatch ->
    (forall j k b kk l e, nth_error m j = Some (k, b) -> inside (SAssign kk l e) b -> lhs_var l = x -> j = i) ->
    check_var sources = Ok tt.
Proof.
  intros G m x srcs i kind body P Ei Kd H.
  assert (forall d, In d srcs -> v_root d = i /\ v_kind d = kind) as K.
  { intros d I. apply (Permutation_in _ P), drivers_from_ok in I.
    destruct I as (j & k & b & A & B & C & kk & l & e & D & E). cbn in B. pose proof (H _ _ _ _ _ _ A D E) as ->.
    rewrite Ei in A. inversion A; subst. auto. }
  unfold check_var. destruct (drv_fold_accepts srcs (fun _ => None)) as [p E].
  - intros d1 d2 I1 I2. destruct (K d1 I1) as [A1 B1], (K d2 I2) as [A2 B2]. unfold conflict.
    rewrite A1, A2, Nat.eqb_refl, B1. cbn [negb]. destruct (same_path _ _), Kd as [-> | ->]; reflexivity.
  - discriminate.
  - rewrite E. reflexivity.
Qed.
Print Assumptions C25_one_process_accepted.

Definition G25 : tenv := fun x => {| d_width := 4; d_signed := false |}.
(* assign x[3:2] = y;  always_comb begin x[1:0] = y; if (y) x[0] = y; end *)
Definition m25 : module :=
  [(TAssign, [SAssign Blocking (LSlice 0 3 2) (EVar 1)]);
   (TComb, [SAssign Blocking (LSlice 0 1 0) (EVar 1); SIf (EVar 1) [SAssign Blocking (LSlice 0 0 0) (EVar 1)] []])].
Example C25_ex : check_var (drivers G25 0%nat m25) = Ok tt
  /\ drives G25 0%nat 3 [SAssign Blocking (LSlice 0 3 2) (EVar 1)]
  /\ check_var (drivers G25 0%nat (m25 ++ [(TSeq, [SIf (EVar 1) [SAssign NonBlocking (LSlice 0 2 2) (EVar 1)] []])])) = Throw.
Proof.
  split; [vm_compute; reflexivity|]. split; [|vm_compute; reflexivity].
  do 3 eexists. split; [apply pl_here; left; reflexivity|]. cbn. lia.
Qed.

(* ---- C88: loops and computed selections are not looked at ---- *)
Theorem C88_loops_are_not_checked_refuted :
  ~ (forall G m x sources i j ki kj bi bj kk l e kk' l' e',
       Permutation sources (drivers G x m) -> check_var sources = Ok tt ->
       nth_error m i = Some (ki, bi) -> inside (SAssign kk l e) bi -> l = LVar x ->
       nth_error m j = Some (kj, bj) -> inside (SAssign kk' l' e') bj -> l' = LVar x ->
       i = j).
Proof.
  intros H.
  assert (0 = 1)%nat as K; [|discriminate].
  apply (H G25 [(TComb, [SAssign Blocking (LVar 0) (EVar 1)]); (TComb, [SFor 2 0 2 1 [SAssign Blocking (LVar 0) (EVar 1)]])]
           0%nat _ 0%nat 1%nat TComb TComb [SAssign Blocking (LVar 0) (EVar 1)]
           [SFor 2 0 2 1 [SAssign Blocking (LVar 0) (EVar 1)]]
           Blocking (LVar 0) (EVar 1) Blocking (LVar 0) (EVar 1) (Permutation_refl _)); try reflexivity.
  - apply inside_self.
  - eapply in_for; [left; reflexivity|]. apply inside_self.
Qed.
Print Assumptions C88_loops_are_not_checked_refuted.

(* ---- C89: the verdict depends on the order of an unordered set ---- *)
(* always_ff: if (y) x <= y; else begin x <= y; x <= y; end *)
Definition m89 : module :=
  [(TSeq, [SIf (EVar 1) [SAssign NonBlocking (LVar 0) (EVar 1)]
             [SAssign NonBlocking (LVar 0) (EVar 1); SAssign NonBlocking (LVar 0) (EVar 1)]])].
Theorem C89_order_independent_refuted :
  ~ (forall G m x s1 s2, Permutation s1 (drivers G x m) -> Permutation s2 (drivers G x m) ->
       check_var s1 = check_var s2).
Proof.
  intros H. pose proof (H G25 m89 0%nat (drivers G25 0%nat m89) (rev (drivers G25 0%nat m89))) as K.
  assert (Throw = @Ok unit tt) as A; [|discriminate].
  symmetry. etransitivity; [|etransitivity; [apply K|]].
  - vm_compute. reflexivity.
  - apply Permutation_refl.
  - apply Permutation_sym, Permutation_rev.
  - vm_compute. reflexivity.
Qed.
Print Assumptions C89_order_independent_refuted.
