(* C16, C56-C58: merging sibling if statements. *)
From Coq Require Import Permutation.
From Verif Require Import Base SV_spec IR IRSem_spec IR_lemmas IR_frame IfCase_props.
From Verif Require Import MergeIf_spec MergeIf_model MergeIf_proofs.
Local Open Scope Z_scope.

(* In a marked block where, for every tested expression, the ifs that test it are adjacent,
   only the first has an else branch and none changes what they test, merging preserves the
   effect from every running state, in whatever order the groups are visited. *)
Theorem C16_merge_if_preserves_behaviour :
  forall (G : tenv) (l : list stmt) (gs : list expr),
    Permutation gs (targets l) ->
    (forall g, (exists s, In s l /\ tests g s) -> merge_ready G g l) ->
    forall st : pstate, st_status st = Running ->
      run G l st = run G (merge_if_block gs l) st.
Proof. exact merge_if_correct. Qed.
Print Assumptions C16_merge_if_preserves_behaviour.

Definition ex_set (x v : Z) : stmt := SAssign Blocking (LVar (Z.to_nat x)) (EConst v 8 false).
Definition ex_merge : list stmt :=
  [ex_set 5 1;
   SIf (ex_sel 0) [ex_set 3 10] [ex_set 3 11];
   SIf (ex_sel 1) [ex_set 4 20] [];
   SIf (ex_sel 0) [ex_set 4 30] [];
   SIf (ex_sel 1) [SReturn (EVar 3)] [];
   ex_set 6 2].
Example C16_ex_result :
  merge_if_block (targets ex_merge) ex_merge =
  [ex_set 5 1;
   SIf (ex_sel 0) [ex_set 3 10; ex_set 4 30]
     [ex_set 3 11; SIf (ex_sel 1) [ex_set 4 20; SReturn (EVar 3)] []];
   ex_set 6 2].
Proof. reflexivity. Qed.
Example C16_ex_hyp : forall g, (exists s, In s ex_merge /\ tests g s) -> merge_ready ex_G g ex_merge.
Proof.
  intros g (s & Hs & Ht).
  assert (g = EVar 0) as ->.
  { destruct Ht as (k & w & b & t & f & ->). cbn in Hs.
    repeat (destruct Hs as [Hs|Hs]; [try discriminate Hs; injection Hs; intros; congruence|]).
    destruct Hs. }
  exists [ex_set 5 1], (firstn 4 (tl ex_merge)), [ex_set 6 2].
  split; [reflexivity|]. split; [|split].
  - intros s0 H. cbn in H.
    repeat (destruct H as [<-|H]; [do 5 eexists; reflexivity|]). destruct H.
  - intros s0 [[<-|[]]|[<-|[]]] (? & ? & ? & ? & ? & E); discriminate.
  - constructor.
    + intros k w b t f H. cbn in H.
      repeat (destruct H as [H|H]; [injection H; intros; subst; reflexivity|]). destruct H.
    + intros k w b t f k' w' b' t' f' H H'. cbn in H, H'.
      repeat (destruct H as [H|H]; [injection H; intros _ _ _ <- <-|]); try destruct H;
      repeat (destruct H' as [H'|H']; [injection H'; intros _ _ _ <- <-|]); try destruct H';
      vm_compute; congruence.
    + intros c t f H. cbn in H.
      repeat (destruct H as [H|H]; [injection H; intros; subst; reflexivity|]). destruct H.
    + intros s0 x H [<-|[]] C.
      assert (forall y, In y (subs (firstn 4 (tl ex_merge))) ->
                match y with SAssign _ l _ => lhs_var l <> 0%nat | SFor _ _ _ _ _ => False | _ => True end) as Q.
      { cbn. intros y Hy.
        repeat (destruct Hy as [<-|Hy]; [vm_compute; try exact I; discriminate|]). destruct Hy. }
      destruct C as [(k & l & e & Hi & _ & Hl)|(a & b & st & bd & Hi)];
        apply inside_subs in Hi;
        assert (In s0 (firstn 4 (tl ex_merge))) as H0 by exact H;
        cbn in Hi; rewrite app_nil_r in Hi.
      * apply (Q _ (subs_in _ _ _ H0 Hi)). exact Hl.
      * exact (Q _ (subs_in _ _ _ H0 Hi)).
Qed.

(* The else branch of a later if is lost when the first if is taken. *)
Theorem C56_merge_if_else_lost_refuted :
  exists (G : tenv) (l : list stmt) (st : pstate),
    st_status st = Running /\
    st_cur (run G l st) 4%nat = 21 /\ st_cur (run G (merge_if_block (targets l) l) st) 4%nat = 0.
Proof.
  exists ex_G, [SIf (ex_sel 0) [ex_set 3 10] []; SIf (ex_sel 1) [ex_set 4 20] [ex_set 4 21]],
    (start_state (fun _ => 0)).
  repeat split; vm_compute; reflexivity.
Qed.
Print Assumptions C56_merge_if_else_lost_refuted.

(* A branch that changes the tested variable no longer triggers the later if. *)
Theorem C57_merge_if_state_update_refuted :
  exists (G : tenv) (l : list stmt) (st : pstate),
    st_status st = Running /\
    st_cur (run G l st) 4%nat = 20 /\ st_cur (run G (merge_if_block (targets l) l) st) 4%nat = 0.
Proof.
  exists ex_G, [SIf (ex_sel 0) [SAssign Blocking (LVar 0) (EConst 1 2 false)] [];
                SIf (ex_sel 1) [ex_set 4 20] []],
    (start_state (fun _ => 0)).
  repeat split; vm_compute; reflexivity.
Qed.
Print Assumptions C57_merge_if_state_update_refuted.

(* A statement between two merged ifs is overtaken by the second one. *)
Theorem C58_merge_if_reorders_refuted :
  exists (G : tenv) (l : list stmt) (st : pstate),
    st_status st = Running /\
    st_cur (run G l st) 4%nat = 20 /\ st_cur (run G (merge_if_block (targets l) l) st) 4%nat = 7.
Proof.
  exists ex_G, [SIf (ex_sel 0) [ex_set 3 10] []; ex_set 4 7; SIf (ex_sel 1) [ex_set 4 20] []],
    (start_state (fun _ => 1)).
  repeat split; vm_compute; reflexivity.
Qed.
Print Assumptions C58_merge_if_reorders_refuted.
