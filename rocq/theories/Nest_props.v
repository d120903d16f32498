From Verif Require Import Base IR Nest_spec Nest_model Nest_proofs.
From Coq Require Import Permutation.
Local Open Scope Z_scope.

(* C45: the text of a statement, read with the grammar of SystemVerilog, is that statement and no
   other: an else in particular belongs to its own if, whatever follows *)
Theorem C45_text_nests_as_built : forall s ts, plain s -> silent s = false -> toks s = Ok ts ->
  exists t, same t s /\ (forall r, no_else r -> parses (ts ++ r) t r) /\ forall r t' r', no_else r -> parses (ts ++ r) t' r' -> t' = t /\ r' = r.
Proof.
  intros s ts P S H. destruct (all_good s ts H P) as [[S' _]|[_ (t & St & Pt)]]; [congruence|]. exists t. split; [exact St|]. split; [exact Pt|].
  intros r t' r' N Q. destruct (proj1 parses_det _ _ _ (Pt r N) _ _ Q) as [-> ->]. auto.
Qed.
(* if (0) begin if (1) x = 2; end else if (3) x = 4; *)
Definition asg_ex (n : Z) : stmt := SAssign Blocking (LVar 0) (EConst n 8 false).
Definition nest_ex : stmt := SIf (EVar 1) [SIf (EVar 2) [asg_ex 1] []] [SIf (EVar 3) [SSwitch (EVar 4) [(3, [asg_ex 2]); (1, [asg_ex 3; asg_ex 4])] None] []].
Example C45_text_nests_as_built_ex : plain nest_ex /\ toks nest_ex = Ok
  [TIf (EVar 1); TBegin; TIf (EVar 2); TBegin; TAsg Blocking (LVar 0) (EConst 1 8 false); TEnd; TEnd;
   TElse; TIf (EVar 3); TBegin; TCase (EVar 4);
     TLabel 1; TBegin; TAsg Blocking (LVar 0) (EConst 3 8 false); TAsg Blocking (LVar 0) (EConst 4 8 false); TEnd;
     TLabel 3; TAsg Blocking (LVar 0) (EConst 2 8 false); TDefault; TBegin; TEnd; TEndcase; TEnd].
Proof. split; [|reflexivity]. unfold nest_ex, asg_ex. repeat (constructor || discriminate || (intros; discriminate)). Qed.

(* C45: the same for the statements of a block *)
Theorem C45_block_nests_as_built : forall l ts, Forall plain l -> toks_all l = Ok ts ->
  exists tl, same_list tl l /\ (forall r, parses_list (ts ++ TEnd :: r) tl r) /\ forall r tl' r', parses_list (ts ++ TEnd :: r) tl' r' -> tl' = tl /\ r' = r.
Proof.
  intros l ts P H. destruct (list_good l ts) as (tl & S & Q); auto; [apply Forall_forall; intros s _; apply all_good|]. exists tl. split; [exact S|]. split; [exact Q|].
  intros r tl' r' Q'. destruct (proj1 (proj2 parses_det) _ _ _ (Q r) _ _ Q') as [-> ->]. auto.
Qed.
Example C45_block_nests_as_built_ex : toks_all [nest_ex; SOther OComment; asg_ex 7] <> Throw.
Proof. vm_compute. discriminate. Qed.

(* C45: the branches of a case are printed in the order of their labels, and none is lost *)
Theorem C45_case_labels_sorted : forall (A : Type) (cs : list (Z * A)),
  Permutation cs (sort_cases cs) /\ forall i j a b, nth_error (sort_cases cs) i = Some a -> nth_error (sort_cases cs) j = Some b -> (i <= j)%nat -> fst a <= fst b.
Proof.
  intros A cs. split; [apply sort_perm|].
  assert (forall l : list (Z * A), (forall a b l1 l2 l3, l = l1 ++ a :: l2 ++ b :: l3 -> fst a <= fst b) -> forall c, forall a b l1 l2 l3, ins c l = l1 ++ a :: l2 ++ b :: l3 -> fst a <= fst b) as K.
  { induction l as [|d r IH]; intros H c a b l1 l2 l3 E.
    - destruct l1 as [|? [|]]; cbn in E; try discriminate. destruct l2; discriminate.
    - cbn [ins] in E. destruct (Z.ltb_spec (fst c) (fst d)) as [L|L].
      + destruct l1 as [|x l1].
        * injection E as -> E. assert (In b (d :: r)) as Ib by (rewrite E; apply in_or_app; right; now left). destruct Ib as [->|Ib]; [lia|].
          apply in_split in Ib as (m1 & m2 & ->). specialize (H d b [] m1 m2 eq_refl). lia.
        * injection E as _ E. now apply (H a b l1 l2 l3).
      + assert (forall a b l1 l2 l3, r = l1 ++ a :: l2 ++ b :: l3 -> fst a <= fst b) as Hr by (intros a' b' m1 m2 m3 Er; apply (H a' b' (d :: m1) m2 m3); now rewrite Er).
        destruct l1 as [|x l1].
        * injection E as -> E. assert (In b (ins c r)) as Ib by (rewrite E; apply in_or_app; right; now left).
          apply (Permutation_in _ (Permutation_sym (ins_perm c r))) in Ib as [<-|Ib]; [exact L|]. apply in_split in Ib as (m1 & m2 & ->). exact (H a b [] m1 m2 eq_refl).
        * injection E as _ E. exact (IH Hr c a b l1 l2 l3 E). }
  assert (forall l acc, (forall a b l1 l2 l3, acc = l1 ++ a :: l2 ++ b :: l3 -> fst a <= fst b) -> forall a b l1 l2 l3, fold_left (fun acc (c : Z * A) => ins c acc) l acc = l1 ++ a :: l2 ++ b :: l3 -> fst a <= fst b) as K2.
  { induction l as [|c l IH]; intros acc H; [exact H|]. cbn [fold_left]. apply IH. now apply K. }
  intros i j a b Ea Eb L. destruct (Nat.eq_dec i j) as [->|Ne]; [assert (a = b) as -> by congruence; lia|].
  destruct (nth_error_split _ _ Ea) as (l1 & l2 & El & Ll). rewrite El in Eb. rewrite nth_error_app2 in Eb by lia. destruct (j - List.length l1)%nat as [|k] eqn:Ek; [lia|]. cbn in Eb.
  apply nth_error_split in Eb as (m1 & m2 & -> & _). apply (K2 cs [] (fun a b l1 l2 l3 E => ltac:(destruct l1; discriminate)) a b l1 m1 m2). exact El.
Qed.
Example C45_case_labels_sorted_ex : sort_cases [(3, true); (1, false); (-2, true)] = [(-2, true); (1, false); (3, true)].
Proof. reflexivity. Qed.
Print Assumptions C45_text_nests_as_built.
Print Assumptions C45_block_nests_as_built.
Print Assumptions C45_case_labels_sorted.
