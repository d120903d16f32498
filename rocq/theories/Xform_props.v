From Verif Require Import Base SV_spec IR IRSem_spec IR_lemmas Xform_spec Xform_model Xform_proofs.
From Coq Require Import Permutation Sorted.
Local Open Scope Z_scope.

(* ---- C21 ---- *)
(* An error exactly when some explicit kind is not the one its block requires. *)
Theorem C21_conflicts_are_reported : forall m,
  fix_assignment_type m <> UB /\ (fix_assignment_type m = Throw <-> exists i, In i m /\ conflict i).
Proof.
  intros m. rewrite fix_types. destruct (existsb conflictb m) eqn:E.
  - split; [discriminate|]. split; [intros _|reflexivity]. apply existsb_exists in E as (i & Hi & Ci). exists i. split; [assumption|]. now apply conflict_iff.
  - split; [discriminate|]. split; [discriminate|]. intros (i & Hi & Ci). apply conflict_iff in Ci.
    assert (existsb conflictb m = true) as B by (apply existsb_exists; eauto). congruence.
Qed.
(* Otherwise only undecided kinds change, to the required kind or else to blocking. *)
Theorem C21_only_undecided_kinds_change : forall m m', fix_assignment_type m = Ok m' ->
  map item_forget m' = map item_forget m /\
  Forall2 (fun i i' => item_kinds i' = map (resolve (match required i with Some ty => ty | None => Blocking end)) (item_kinds i)) m m'.
Proof.
  intros m m' H. rewrite fix_types in H. destruct (existsb conflictb m); [discriminate|]. apply Ok_inj in H as <-. split.
  - rewrite map_map. apply map_in, Forall_forall. intros [k l e|b|n|o] _; try reflexivity. cbn. now rewrite forget_decide.
  - induction m as [|i m IH]; cbn; constructor; [|assumption]. destruct i as [k l e|b|n|o]; try reflexivity. cbn. rewrite kinds_decide. reflexivity.
Qed.
(* Nothing is left undecided, and every assignment has the kind its block requires. *)
Theorem C21_every_kind_is_decided : forall m m', fix_assignment_type m = Ok m' -> forall i, In i m' ->
  ~ In Undefined (item_kinds i) /\ forall ty, required i = Some ty -> forall k, In k (item_kinds i) -> k = ty.
Proof.
  intros m m' H i Hi. rewrite fix_types in H. destruct (existsb conflictb m) eqn:E; [discriminate|]. apply Ok_inj in H as <-.
  apply in_map_iff in Hi as (j & <- & Hj).
  assert (item_kinds (item_decide j) = map (resolve (item_type j)) (item_kinds j)) as K.
  { destruct j as [k l e|b|n|o]; try reflexivity. cbn. rewrite kinds_decide. reflexivity. }
  rewrite K. split.
  - intros J. apply in_map_iff in J as (k & R & _). pose proof (required_ne j). destruct k; cbn in R; congruence.
  - intros ty R k J. apply in_map_iff in J as (k0 & R0 & J).
    assert (required j = Some ty) as Rj by (destruct j; exact R).
    assert (item_type j = ty) as T by (unfold item_type; now rewrite Rj). rewrite T in R0.
    assert (conflictb j = false) as C.
    { destruct (conflictb j) eqn:B; [|reflexivity]. assert (existsb conflictb m = true) by (apply existsb_exists; eauto). congruence. }
    unfold conflictb in C. rewrite Rj in C. destruct (bad ty k0) eqn:B.
    + assert (existsb (bad ty) (item_kinds j) = true) by (apply existsb_exists; eauto). congruence.
    + destruct k0; cbn in R0, B; try congruence; destruct ty; cbn in B; congruence.
Qed.
Definition ex_seq (u : bool) (l : list stmt) : item := IBlock {| b_kind := KSeq; b_events := [{| e_async := false; e_sig := 0%nat; e_pos := true |}]; b_unchecked := u; b_body := l |}.
Definition ex_blk (k : bkind) (l : list stmt) : item := IBlock {| b_kind := k; b_events := []; b_unchecked := false; b_body := l |}.
Example C21_ex : fix_assignment_type [IAssign Undefined (LVar 1) (EVar 2); ex_seq false [SIf (EVar 1) [SAssign Undefined (LVar 3) (EVar 2)] [SAssign NonBlocking (LVar 3) (EVar 4)]]; ex_blk KComb [SAssign Undefined (LVar 4) (EVar 1)]]
  = Ok [IAssign Blocking (LVar 1) (EVar 2); ex_seq false [SIf (EVar 1) [SAssign NonBlocking (LVar 3) (EVar 2)] [SAssign NonBlocking (LVar 3) (EVar 4)]]; ex_blk KComb [SAssign Blocking (LVar 4) (EVar 1)]].
Proof. reflexivity. Qed.
Example C21_ex_conflict : fix_assignment_type [ex_blk KComb [SIf (EVar 1) [] [SAssign NonBlocking (LVar 3) (EVar 2)]]] = Throw
  /\ conflict (ex_blk KComb [SIf (EVar 1) [] [SAssign NonBlocking (LVar 3) (EVar 2)]]).
Proof. split; [reflexivity|]. exists Blocking, NonBlocking. cbn. intuition discriminate. Qed.
(* In a sequential block whose check is switched off, undecided assignments become blocking. *)
Theorem C107_unchecked_sequential_becomes_blocking_refuted : forall b, b_kind b = KSeq -> b_unchecked b = true ->
  In Undefined (kinds (b_body b)) -> (forall k, In k (kinds (b_body b)) -> k = Undefined) ->
  exists b', fix_assignment_type [IBlock b] = Ok [IBlock b'] /\ kinds (b_body b') <> [] /\ forall k, In k (kinds (b_body b')) -> k = Blocking.
Proof.
  intros b K U I A. rewrite fix_types. unfold conflictb. cbn [existsb required item_kinds map item_decide]. rewrite K, U. cbn [orb].
  eexists. split; [reflexivity|]. unfold item_type. cbn [required with_body b_body]. rewrite K, U, kinds_decide. split.
  - destruct (kinds (b_body b)); [destruct I|discriminate].
  - intros k J. apply in_map_iff in J as (k0 & R & J). rewrite (A k0 J) in R. cbn in R. congruence.
Qed.
Example C107_ex : fix_assignment_type [ex_seq true [SAssign Undefined (LVar 3) (EVar 2)]] = Ok [ex_seq true [SAssign Blocking (LVar 3) (EVar 2)]].
Proof. reflexivity. Qed.
(* Non-blocking assignments in initial and latch code pass. *)
Theorem C108_initial_and_latch_kinds_unchecked_refuted : forall b, b_kind b = KInit \/ b_kind b = KLatch ->
  exists b', fix_assignment_type [IBlock b] = Ok [IBlock b'] /\
    (In NonBlocking (kinds (b_body b)) -> In NonBlocking (kinds (b_body b'))).
Proof.
  intros b K. rewrite fix_types. unfold conflictb. cbn [existsb required item_kinds map item_decide].
  assert (match b_kind b with KComb | KFunc => Some Blocking | KSeq => if b_unchecked b then None else Some NonBlocking | _ => None end = None) as ->
    by (destruct K as [K|K]; rewrite K; reflexivity).
  cbn [orb]. eexists. split; [reflexivity|]. cbn [with_body b_body]. rewrite kinds_decide. intros J. apply in_map_iff. exists NonBlocking. auto.
Qed.
Example C108_ex : fix_assignment_type [ex_blk KInit [SAssign NonBlocking (LVar 3) (EVar 2)]] = Ok [ex_blk KInit [SAssign NonBlocking (LVar 3) (EVar 2)]].
Proof. reflexivity. Qed.

(* ---- C22 ---- *)
Theorem C22_sorting_is_stable : forall m, (forall i, In i m -> (item_rank i < 5)%nat) ->
  exists m', sort_stmts m = Ok m' /\ stably_sorted item_rank m m'.
Proof.
  intros m H. eexists. split; [apply sort_buckets|now apply buckets_ok].
  apply forallb_forall. intros i Hi. specialize (H i Hi). destruct i as [|[[] ]| |]; cbn in *; auto; lia.
Qed.
Theorem C22_initial_blocks_go_last : forall m, stably_sorted initial_rank m (sort_initial m).
Proof. exact sort_initial_ok. Qed.
Definition ex_items : list item := [ex_seq false []; IInst 3; ex_blk KComb []; IAssign Blocking (LVar 1) (EVar 2); IInst 4; ex_blk KLatch []; IAssign Blocking (LVar 2) (EVar 3)].
Example C22_ex : sort_stmts ex_items = Ok [IAssign Blocking (LVar 1) (EVar 2); IAssign Blocking (LVar 2) (EVar 3); IInst 3; IInst 4; ex_blk KLatch []; ex_blk KComb []; ex_seq false []].
Proof. reflexivity. Qed.
Example C22_ex_hyp : forall i, In i ex_items -> (item_rank i < 5)%nat.
Proof. intros i H. cbn in H. intuition (subst; cbn; lia). Qed.
Example C22_ex_initial : sort_initial [ex_blk KInit [SBreak]; IInst 3; ex_blk KInit []; IInst 4] = [IInst 3; IInst 4; ex_blk KInit [SBreak]; ex_blk KInit []].
Proof. reflexivity. Qed.
(* A module with an initial block, a function, a comment or an assertion cannot be sorted. *)
Theorem C109_sorting_rejects_other_statements_refuted : forall m,
  (exists i, In i m /\ item_rank i = 5%nat) -> sort_stmts m = Throw.
Proof.
  intros m (i & Hi & R). unfold sort_stmts. destruct (forallb sortable m) eqn:F; [|reflexivity].
  rewrite forallb_forall in F. specialize (F i Hi). destruct i as [|[[] ]| |]; cbn in *; discriminate.
Qed.
Example C109_ex : sort_stmts [IInst 3; IOther OComment] = Throw /\ sort_stmts [ex_blk KInit []] = Throw.
Proof. split; reflexivity. Qed.

(* ---- C46 ---- *)
Theorem C46_event_removal_removes_only_events : forall m,
  (forall b, In (IBlock b) m -> b_kind b <> KComb -> b_kind b <> KSeq -> Forall (fun s => is_event s = false) (b_body b)) ->
  items_stripped is_event m (remove_events m).
Proof.
  intros m H. apply strip_items_ok. intros b Hb S. cbn in S. apply H; [assumption| |]; intros E; rewrite E in S; exact S.
Qed.
Theorem C46_assertion_removal_removes_only_assertions : forall m,
  (forall b, In (IBlock b) m -> b_kind b = KSeq -> b_events b = []) ->
  (forall b, In (IBlock b) m -> b_kind b <> KComb -> b_kind b <> KSeq -> Forall (fun s => is_assertion s = false) (b_body b)) ->
  exists m', remove_assertions m = Ok m' /\ items_stripped is_assertion m m'.
Proof.
  intros m Q H. exists (strip_items is_assertion m). split.
  - unfold remove_assertions. destruct (existsb _ m) eqn:E; [|reflexivity]. apply existsb_exists in E as ([| b | |] & Hb & E); try discriminate.
    destruct (b_kind b) eqn:K; try discriminate. rewrite (Q b Hb K) in E. discriminate.
  - apply strip_items_ok. intros b Hb S. cbn in S. apply H; [assumption| |]; intros E; rewrite E in S; exact S.
Qed.
(* In a stripped block nothing of the kind is left, at any depth, and the block computes the same. *)
Theorem C46_stripped_block_is_clean : forall p l l', p = is_event \/ p = is_assertion -> stripped p l l' ->
  (forall s, inside s l' -> p s = false) /\ forall G r, activate G l' r = activate G l r.
Proof.
  intros p l l' Hp S.
  assert (only_other p) as O by (destruct Hp as [-> | ->]; intros [] E; cbn in E; try discriminate; eauto).
  split.
  - exact (proj1 (stripped_clean p O) l l' S).
  - intros G r. unfold activate. f_equal. exact (proj1 (stripped_exec G p O) l l' S (start_state r) eq_refl).
Qed.
Theorem C46_async_removal_removes_only_async_controls : forall m,
  Forall2 (fun i i' => match i, i' with
    | IBlock b, IBlock b' => b_kind b' = b_kind b /\ b_unchecked b' = b_unchecked b /\ b_body b' = b_body b /\
        b_events b' = match b_kind b with KSeq => filter (fun e => negb (e_async e)) (b_events b) | _ => b_events b end
    | _, _ => i' = i end) m (remove_async m).
Proof.
  induction m as [|i m IH]; cbn; constructor; [|assumption]. destruct i as [k l e|b|n|o]; try reflexivity.
  destruct b as [k ev u bd]. destruct k; cbn; auto.
Qed.
Definition ex_ev : list item := [IOther OEvent; ex_seq false [SIf (EVar 1) [SOther OEvent; SAssign NonBlocking (LVar 2) (EVar 3)] []; SOther OEvent]; IOther OComment].
Example C46_ex : remove_events ex_ev = [ex_seq false [SIf (EVar 1) [SAssign NonBlocking (LVar 2) (EVar 3)] []]; IOther OComment].
Proof. reflexivity. Qed.
Example C46_ex_hyp : forall b, In (IBlock b) ex_ev -> b_kind b <> KComb -> b_kind b <> KSeq -> Forall (fun s => is_event s = false) (b_body b).
Proof. intros b H C S. cbn in H. destruct H as [H|[H|[H|[]]]]; try discriminate. injection H as <-. destruct S. reflexivity. Qed.
Example C46_ex_assertions : remove_assertions [ex_blk KComb [SOther OAssertValue; SIf (EVar 1) [SOther OAssertProperty] [SBreak]]] = Ok [ex_blk KComb [SIf (EVar 1) [] [SBreak]]].
Proof. reflexivity. Qed.
Example C46_ex_async : remove_async [IBlock {| b_kind := KSeq; b_events := [{| e_async := false; e_sig := 0%nat; e_pos := true |}; {| e_async := true; e_sig := 1%nat; e_pos := false |}]; b_unchecked := false; b_body := [SBreak] |}]
  = [ex_seq false [SBreak]].
Proof. reflexivity. Qed.
(* Assertion removal treats the clock of a sequential block as a statement. *)
Theorem C110_assertion_removal_undefined_refuted : forall m b, In (IBlock b) m -> b_kind b = KSeq -> b_events b <> [] ->
  remove_assertions m = UB.
Proof.
  intros m b Hb K E. unfold remove_assertions.
  assert (existsb (fun i => match i with IBlock b => match b_kind b, b_events b with KSeq, _ :: _ => true | _, _ => false end | _ => false end) m = true) as ->; [|reflexivity].
  apply existsb_exists. exists (IBlock b). split; [assumption|]. rewrite K. destruct (b_events b); [congruence|reflexivity].
Qed.
Example C110_ex : remove_assertions [ex_seq false [SAssign NonBlocking (LVar 2) (EVar 3)]] = UB.
Proof. reflexivity. Qed.
(* Statements written directly in an initial, latch or function block are not removed. *)
Theorem C111_initial_latch_function_not_stripped_refuted : forall m b s,
  In (IBlock b) m -> b_kind b = KInit \/ b_kind b = KLatch \/ b_kind b = KFunc -> In s (b_body b) -> is_event s = true ->
  exists b', In (IBlock b') (remove_events m) /\ In s (b_body b').
Proof.
  intros m b s Hb K Hs E. exists (strip_block is_event b). split.
  - unfold remove_events, strip_items. apply in_map_iff. exists (IBlock b). split; [reflexivity|]. apply filter_In. auto.
  - destruct s as [| | | | | | |o]; try discriminate. unfold strip_block. destruct K as [K|[K|K]]; rewrite K; cbn [with_body b_body];
      apply in_map_iff; exists (SOther o); auto.
Qed.
Example C111_ex : remove_events [ex_blk KFunc [SOther OEvent; SBreak]] = [ex_blk KFunc [SOther OEvent; SBreak]].
Proof. reflexivity. Qed.

(* ---- C47 ---- *)
Theorem C47_deferred_removal : forall l rs, NoDup l ->
  clear_cache (fold_left edit_cached (map Remove rs) (l, [])) = fold_left edit_now (map Remove rs) l.
Proof.
  intros l rs N. rewrite deferred_ok by assumption. generalize (fold_left edit_now (map Remove rs) l). intros k.
  induction k as [|x k IH]; [reflexivity|]. change (x :: filter (fun x => negb (memb x [])) k = x :: k). now rewrite IH.
Qed.
(* hence in any order and with any repetitions *)
Theorem C47_order_does_not_matter : forall l rs rs', (forall x, In x rs <-> In x rs') ->
  clear_cache (fold_left edit_cached (map Remove rs) (l, [])) = clear_cache (fold_left edit_cached (map Remove rs') (l, [])).
Proof.
  intros l rs rs' H.
  assert (forall rs c, fold_left edit_cached (map Remove rs) (l, c) = (l, rev rs ++ c)) as F.
  { clear. induction rs as [|x r IH]; intros c; [reflexivity|]. cbn [map fold_left edit_cached fst snd]. rewrite IH. cbn [rev]. now rewrite <- app_assoc. }
  rewrite !F. unfold clear_cache. cbn [fst snd]. apply filter_eq. intros x _. f_equal.
  destruct (memb x (rev rs ++ [])) eqn:A, (memb x (rev rs' ++ [])) eqn:B; try reflexivity; exfalso.
  - rewrite app_nil_r in A. apply memb_in, in_rev, H, in_rev in A. apply memb_in in A. rewrite app_nil_r in B. congruence.
  - rewrite app_nil_r in B. apply memb_in, in_rev, H, in_rev in B. apply memb_in in B. rewrite app_nil_r in A. congruence.
Qed.
Example C47_ex : clear_cache (fold_left edit_cached (map Remove [3; 9; 1; 3]%nat) ([1; 2; 3; 4]%nat, [])) = [2; 4]%nat /\ NoDup [1; 2; 3; 4]%nat.
Proof. split; [reflexivity|]. repeat constructor; cbn; intuition discriminate. Qed.
(* A statement added twice loses both copies when removed once. *)
Theorem C112_deferred_removal_removes_all_copies_refuted : forall l x, (count_occ Nat.eq_dec l x >= 2)%nat ->
  In x (fold_left edit_now [Remove x] l) /\ ~ In x (clear_cache (fold_left edit_cached [Remove x] (l, []))).
Proof.
  intros l x H. split.
  - cbn [fold_left edit_now]. assert (count_occ Nat.eq_dec l x = S (count_occ Nat.eq_dec (remove_first x l) x)) as C.
    { assert (In x l) as J by (apply (count_occ_In Nat.eq_dec); lia). clear H. induction l as [|y r IH]; [destruct J|]. cbn [remove_first count_occ].
      destruct (Nat.eqb_spec x y) as [->|D]; [destruct (Nat.eq_dec y y); congruence|].
      destruct (Nat.eq_dec y x) as [->|_]; [congruence|]. cbn [count_occ]. destruct (Nat.eq_dec y x) as [->|_]; [congruence|].
      apply IH. destruct J as [->|J]; [congruence|assumption]. }
    apply (count_occ_In Nat.eq_dec). lia.
  - cbn [fold_left edit_cached fst snd]. unfold clear_cache. cbn [fst snd]. intros J. apply filter_In in J as [_ J].
    cbn in J. rewrite Nat.eqb_refl in J. discriminate.
Qed.
Example C112_ex : clear_cache (fold_left edit_cached [Remove 1%nat] ([1; 2; 1]%nat, [])) = [2]%nat /\ fold_left edit_now [Remove 1%nat] [1; 2; 1]%nat = [2; 1]%nat.
Proof. split; reflexivity. Qed.
(* A statement added again after its removal is lost. *)
Theorem C113_statement_added_again_is_lost_refuted : forall l x,
  In x (fold_left edit_now [Remove x; Add x] l) /\ ~ In x (clear_cache (fold_left edit_cached [Remove x; Add x] (l, []))).
Proof.
  intros l x. split; [cbn; apply in_or_app; right; now left|].
  cbn [fold_left edit_cached fst snd]. unfold clear_cache. cbn [fst snd]. intros J. apply filter_In in J as [_ J].
  cbn in J. rewrite Nat.eqb_refl in J. discriminate.
Qed.
Example C113_ex : clear_cache (fold_left edit_cached [Remove 1%nat; Add 1%nat] ([1; 2]%nat, [])) = [2]%nat.
Proof. reflexivity. Qed.

Print Assumptions C21_conflicts_are_reported.
Print Assumptions C21_only_undecided_kinds_change.
Print Assumptions C21_every_kind_is_decided.
Print Assumptions C107_unchecked_sequential_becomes_blocking_refuted.
Print Assumptions C108_initial_and_latch_kinds_unchecked_refuted.
Print Assumptions C22_sorting_is_stable.
Print Assumptions C22_initial_blocks_go_last.
Print Assumptions C109_sorting_rejects_other_statements_refuted.
Print Assumptions C46_event_removal_removes_only_events.
Print Assumptions C46_assertion_removal_removes_only_assertions.
Print Assumptions C46_stripped_block_is_clean.
Print Assumptions C46_async_removal_removes_only_async_controls.
Print Assumptions C110_assertion_removal_undefined_refuted.
Print Assumptions C111_initial_latch_function_not_stripped_refuted.
Print Assumptions C47_deferred_removal.
Print Assumptions C47_order_does_not_matter.
Print Assumptions C112_deferred_removal_removes_all_copies_refuted.
Print Assumptions C113_statement_added_again_is_lost_refuted.
