(* Properties of the control-flow checks. *)
From Verif Require Import Base SV_spec IR IRSem_spec IR_lemmas IfCase_proofs Flow_spec Flow_model Flow_proofs.
Local Open Scope Z_scope.

(* ---- C23: accepted by the latch check ---- *)
Theorem C23_assigned_on_every_path :
  forall G body k l e st,
    latch_check G body = Ok tt -> regular G body -> no_return body ->
    inside (SAssign k l e) body -> (forall x i w, l <> LDyn x i w) -> st_status st = Running ->
    hits G (assigns (lhs_var l)) body st.
Proof.
  intros G body k l e st H R N I D S.
  apply (block_hits G (is_assign_to (lhs_var l)) false); auto.
  - intros s Q. destruct s; try discriminate. cbn in Q. apply Nat.eqb_eq in Q. do 3 eexists. eauto.
  - eapply latch_all; eauto.
Qed.
Print Assumptions C23_assigned_on_every_path.
(* ... so the block has no memory: what it gives to a variable depends only on what it reads *)
Theorem C23_no_memory :
  forall G body x r1 r2,
    (forall y, 0 < d_width (G y)) ->
    latch_check G body = Ok tt -> regular G body -> no_return body -> combinational G body ->
    whole_target x body ->
    (forall y, reads body y -> seen G r1 y = seen G r2 y) ->
    seen G (st_cur (run G body (start_state r1))) x = seen G (st_cur (run G body (start_state r2))) x.
Proof.
  intros G body x r1 r2 pos H R N C [(k & e & I) W] A.
  apply (det_block G x body (proj2 (Forall_forall _ _) (fun s _ => det_all G pos x s))
           (conj R (conj N (conj C W))) (fun y => reads body y)); auto.
  - split; [reflexivity|]. split; [reflexivity|exact A].
  - apply (latch_all G body H k (LVar x) e I). discriminate.
Qed.
Print Assumptions C23_no_memory.

(* ... and a block whose shape alone shows that every variable it assigns is always assigned is accepted *)
Theorem C23_surely_assigned_is_accepted :
  forall G body, narrow G body ->
    (forall k l e, inside (SAssign k l e) body -> (forall y i w, l <> LDyn y i w) -> surely G (assigns (lhs_var l)) body) ->
    latch_check G body = Ok tt.
Proof.
  intros G body N H. unfold latch_check.
  assert (forall x, In x (assigned_block body) -> check_block G (is_assign_to x) false true body = Ok true) as K.
  { intros x I. apply assigned_from in I as (k & l & e & I & D & <-). apply (sure_true G _ (assigns (lhs_var l))); [|eauto|exact N].
    intros s (k' & l' & e' & -> & L). cbn. now apply Nat.eqb_eq. }
  revert K. generalize (assigned_block body). induction l as [|x l IH]; intros K; [reflexivity|]. cbn [fold_left obind]. rewrite K by now left. cbn [obind].
  apply IH. intros y I. apply K. now right.
Qed.
Print Assumptions C23_surely_assigned_is_accepted.

Definition G23 : tenv := fun x => {| d_width := match x with O => 1 | _ => 2 end; d_signed := false |}.
(* if (a) x = y; else case (y) 0: x = 1; 1: x = 2; 2: x = 3; 3: x = 0; endcase *)
Definition b23 : list stmt :=
  [SIf (EVar 0) [SAssign Blocking (LVar 2) (EVar 1)]
     [SSwitch (EVar 1)
        [(0, [SAssign Blocking (LVar 2) (EConst 1 2 false)]); (1, [SAssign Blocking (LVar 2) (EConst 2 2 false)]);
         (2, [SAssign Blocking (LVar 2) (EConst 3 2 false)]); (3, [SAssign Blocking (LVar 2) (EConst 0 2 false)])] None]].
Lemma b23_all : forall (P : stmt -> Prop), Forall P (subs b23) -> forall s, inside s b23 -> P s.
Proof. intros P H. apply inside_Forall. exact H. Qed.
Example C23_ex : latch_check G23 b23 = Ok tt /\ regular G23 b23 /\ no_return b23 /\ combinational G23 b23
  /\ whole_target 2%nat b23.
Proof.
  split; [vm_compute; reflexivity|]. split; [|split; [|split; [|split]]].
  - intros s. revert s. apply b23_all. cbn. each; cbn; auto.
    split; [lia|]. split; [lia|]. split; [|each; cbn; lia].
    repeat (constructor; [cbn; intuition lia|]). constructor.
  - intros e H. pattern (SReturn e) in H. apply inside_subs in H. cbn in H. intuition discriminate.
  - intros k l e H. apply inside_subs in H. cbn in H. intuition (try discriminate);
      match goal with K : SAssign _ _ _ = SAssign _ _ _ |- _ => inversion K; subst; (congruence || exact I) end.
  - do 2 eexists. eapply in_then; [left; reflexivity|]. apply inside_self.
  - intros k l e H. apply inside_subs in H. cbn in H. intuition (try discriminate);
      match goal with K : SAssign _ _ _ = SAssign _ _ _ |- _ => inversion K; subst; reflexivity end.
Qed.

Example C23_surely_ex : narrow G23 b23 /\ surely G23 (assigns 2%nat) b23.
Proof.
  split.
  - intros e cs d H. apply inside_subs in H. cbn in H. intuition (try discriminate);
      match goal with K : SSwitch _ _ _ = SSwitch _ _ _ |- _ => inversion K; subst; cbn; lia end.
  - eapply sure_if; [left; reflexivity| |].
    + eapply sure_here; [left; reflexivity|]. do 3 eexists. split; reflexivity.
    + eapply sure_cases; [left; reflexivity|discriminate| |reflexivity]. intros k b I. cbn in I. intuition (try congruence);
        match goal with K : (_, _) = (_, _) |- _ => inversion K; subst end; (eapply sure_here; [left; reflexivity|]; do 3 eexists; split; reflexivity).
Qed.

(* ---- C24: accepted by the return check ---- *)
Theorem C24_every_path_returns :
  forall G body st,
    check_return G body = Ok tt -> regular G body -> st_status st = Running ->
    exists v, st_status (run G body st) = Returned v.
Proof.
  intros G body st H R S. unfold check_return in H. apply obind_Ok in H as (b & E & H).
  destruct b; [|discriminate]. exact (return_sound G body R E st S).
Qed.
Print Assumptions C24_every_path_returns.
(* a function that returns at its end, and nowhere before, is accepted *)
Theorem C24_return_at_the_end_is_accepted :
  forall G l e, no_return l -> check_return G (l ++ [SReturn e]) = Ok tt.
Proof.
  intros G l e N. unfold check_return. assert (check_block G is_return true true (l ++ [SReturn e]) = Ok true) as ->; [|reflexivity].
  assert (forall x, inside x l -> is_return x = false) as Z by (intros x I; destruct x; try reflexivity; now elim (N e0)).
  clear N. induction l as [|s l IH]; [reflexivity|]. cbn [app check_block]. rewrite none_all by (intros x I; apply Z; now apply ins_hd). cbn [obind].
  apply IH. intros x I. apply Z. now apply ins_tl.
Qed.
Print Assumptions C24_return_at_the_end_is_accepted.
Definition b24 : list stmt :=
  [SIf (EVar 0) [SReturn (EVar 1)] []; SFor 3 0 4 1 [SAssign Blocking (LVar 2) (EVar 1)];
   SIf (EVar 0) [SReturn (EVar 2)] [SReturn (EConst 0 2 false)]].
Example C24_ex : check_return G23 b24 = Ok tt /\ regular G23 b24.
Proof.
  split; [vm_compute; reflexivity|]. intros s H. apply inside_subs in H. cbn in H.
  intuition subst; cbn; auto. discriminate.
Qed.

(* ---- C83: the reset check ---- *)
Theorem C83_reset_registers_are_driven :
  forall G t f k l e,
    reset_check G t f = Ok tt -> inside (SAssign k l e) t -> (forall x i w, l <> LDyn x i w) ->
    exists k' l' e', inside (SAssign k' l' e') f /\ lhs_var l' = lhs_var l.
Proof.
  intros G t f k l e H I D. unfold reset_check in H.
  apply (fold_throw _ (fun x => olet b := check_block G (is_assign_to x) false false f in
                          if b then Ok tt else Throw)) in H as [_ F].
  rewrite Forall_forall in F. specialize (F _ (assigned_inside _ _ _ _ I D)). cbv beta in F.
  apply obind_Ok in F as (b & E & F). destruct b; [|discriminate].
  destruct (proj1 (somewhere G _ f true E) eq_refl) as (s & Is & C). destruct s; try discriminate.
  cbn in C. apply Nat.eqb_eq in C. do 3 eexists. split; [exact Is|exact C].
Qed.
Print Assumptions C83_reset_registers_are_driven.
(* a rejection names a register that the else branch never assigns *)
Theorem C83_rejection_is_justified :
  forall G t f, reset_check G t f = Throw ->
    exists x, In x (assigned_block t) /\ forall k l e, inside (SAssign k l e) f -> lhs_var l <> x.
Proof.
  intros G t f H. unfold reset_check in H.
  assert (forall l acc, fold_left (fun acc x => olet _ := acc in
             olet b := check_block G (is_assign_to x) false false f in if b then Ok tt else Throw) l acc = Throw ->
           acc = Throw \/ exists x, In x l /\ forall k l e, inside (SAssign k l e) f -> lhs_var l <> x) as K.
  { induction l as [|x l IH]; intros acc Q; [auto|]. cbn [fold_left] in Q.
    destruct (IH _ Q) as [E|(y & I & N)]; [|right; exists y; split; [right; exact I|exact N]].
    destruct acc as [[]| |]; try (left; exact E). cbn [obind] in E. right. exists x. split; [left; reflexivity|].
    destruct (check_block G (is_assign_to x) false false f) as [b| |] eqn:Cb; cbn [obind] in E; try discriminate.
    - destruct b; [discriminate|]. intros k l' e I L.
      assert (false = true) as Bad; [|discriminate].
      apply (somewhere G _ f false Cb). exists (SAssign k l' e). split; [exact I|]. cbn. apply Nat.eqb_eq, L.
    - exfalso. clear - Cb. revert Cb. apply no_throw. }
  destruct (K _ _ H) as [E|E]; [discriminate|exact E].
Qed.
Print Assumptions C83_rejection_is_justified.
Example C83_ex :
  let t := [SAssign NonBlocking (LVar 1) (EConst 0 2 false)] in
  let f := [SIf (EVar 0) [SAssign NonBlocking (LVar 1) (EVar 2)] []] in
  reset_check G23 t f = Ok tt /\ reset_check G23 t [] = Throw.
Proof. split; reflexivity. Qed.

(* ---- what the checks let through ---- *)
(* a block that only ever assigns one bit of x is accepted; the other bit is a latch *)
Theorem C84_partial_assignment_is_a_latch_refuted :
  exists G body x r1 r2, latch_check G body = Ok tt /\ regular G body /\ no_return body
    /\ combinational G body /\ (exists k l e, inside (SAssign k l e) body /\ lhs_var l = x)
    /\ (forall y, reads body y -> seen G r1 y = seen G r2 y)
    /\ seen G (st_cur (run G body (start_state r1))) x <> seen G (st_cur (run G body (start_state r2))) x.
Proof.
  exists G23, [SAssign Blocking (LSlice 1 0 0) (EVar 0)], 1%nat, (fun _ => 0), (fun x => match x with 1%nat => 2 | _ => 0 end).
  split; [reflexivity|]. split; [intros s H; apply inside_subs in H; cbn in H; intuition subst; exact I|].
  split; [intros e H; apply inside_subs in H; cbn in H; intuition discriminate|].
  split; [intros k l e H; apply inside_subs in H; cbn in H; destruct H as [H|[]]; inversion H; subst; split; [discriminate|lia]|].
  split; [do 3 eexists; split; [apply inside_self|reflexivity]|].
  split; [|vm_compute; discriminate].
  intros y (s & H & K). apply inside_subs in H. cbn in H. destruct H as [<-|[]]. cbn in K. destruct K as [<-|[]]. reflexivity.
Qed.
Print Assumptions C84_partial_assignment_is_a_latch_refuted.
(* assignments under a loop that never iterates, or behind a break, count *)
Theorem C85_loops_in_latch_check_refuted :
  exists G b1 b2, latch_check G b1 = Ok tt /\ latch_check G b2 = Ok tt
    /\ (exists k e i n, b1 = [SFor i n n 1 [SAssign k (LVar 1) e]])
    /\ (exists k e i, b2 = [SFor i 0 4 1 [SBreak; SAssign k (LVar 1) e]])
    /\ forall r, st_cur (run G b1 (start_state r)) 1%nat = r 1%nat
              /\ st_cur (run G b2 (start_state r)) 1%nat = r 1%nat.
Proof.
  exists G23, [SFor 5 3 3 1 [SAssign Blocking (LVar 1) (EVar 0)]], [SFor 5 0 4 1 [SBreak; SAssign Blocking (LVar 1) (EVar 0)]].
  split; [reflexivity|]. split; [reflexivity|]. split; [eauto 8|]. split; [eauto 8|]. intros r. split; reflexivity.
Qed.
Print Assumptions C85_loops_in_latch_check_refuted.
Theorem C85_loops_in_return_check_refuted :
  exists G body r, check_return G body = Ok tt /\ st_status (run G body (start_state r)) = Running.
Proof. exists G23, [SFor 5 3 3 1 [SReturn (EVar 0)]], (fun _ => 0). split; reflexivity. Qed.
Print Assumptions C85_loops_in_return_check_refuted.
(* a case over 32 or more bits all of whose branches match is undefined behaviour *)
Theorem C86_wide_case_check_refuted :
  forall G cond unr full e b, ewidth G e >= 32 -> check_block G cond unr full b = Ok true ->
    cond (SSwitch e [] (Some b)) = false -> check G cond unr full (SSwitch e [] (Some b)) = UB.
Proof.
  intros G cond unr full e b W H C. rewrite check_eq, C, H. cbn [obind check_cases].
  unfold target_cases. replace (ewidth G e <? 32) with false by lia. reflexivity.
Qed.
Print Assumptions C86_wide_case_check_refuted.
