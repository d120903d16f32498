(* C33, C106: ordering the instances of a design *)
From Verif Require Import Base Graph_spec Graph_model Graph_proofs.
From Coq Require Import Permutation.
Local Open Scope nat_scope.

(* An object used in two places is rejected, and nothing else is. *)
Theorem C33_shared_instances_are_rejected : forall t,
  (NoDup (ids t) -> build t = Ok (ids t)) /\ (~ NoDup (ids t) -> build t = Throw).
Proof.
  intros t. split; intros H; unfold build; [now rewrite add_nodes_ok|].
  apply add_nodes_bad; [constructor|exact H].
Qed.
(* Whatever the orders of the hash tables, the sorted list has every instance once, and each
   instance after all the instances it contains. *)
Theorem C33_sorted_children_first : forall t children nodes, NoDup (ids t) ->
  Permutation nodes (ids t) -> (forall p c, In c (children p) <-> edge t p c) ->
  exists l, sorted children nodes = Ok l /\ Permutation l (ids t) /\ forall p c, edge t p c -> before l c p.
Proof. exact sorted_ok. Qed.
(* Up to 31 instances: the d-th level lists exactly the instances d levels below the top, once
   each, and there is a level for every depth. *)
Theorem C33_levels_are_depths : forall t, NoDup (ids t) -> length (ids t) < 32 ->
  exists ls, leveled 32 t = Ok ls /\
    (forall d l, nth_error ls d = Some l -> NoDup l /\ l <> [] /\ forall i, In i l <-> depth t i d) /\
    (forall i d, depth t i d -> d < length ls).
Proof. intros t. apply leveled_ok. Qed.
(* With 32 or more instances freed memory is read. *)
Theorem C106_levels_read_freed_memory_refuted : forall t, 32 <= length (ids t) -> leveled 32 t = UB.
Proof. intros t. apply leveled_ub. lia. Qed.

Definition ex_tree : tree := Node 0 [Node 1 [Node 3 []; Node 4 []]; Node 2 [Node 5 [Node 6 []]]].
Definition ex_children (p : nat) : list nat := match p with 0 => [2; 1] | 1 => [3; 4] | 2 => [5] | 5 => [6] | _ => [] end.
Example C33_ex : build ex_tree = Ok (ids ex_tree)
  /\ sorted ex_children [4; 6; 0; 3; 1; 2; 5] = Ok [4; 6; 5; 2; 3; 1; 0]
  /\ leveled 32 ex_tree = Ok [[0]; [1; 2]; [3; 4; 5]; [6]]
  /\ build (Node 0 [Node 1 [Node 2 []]; Node 2 []]) = Throw.
Proof. vm_compute. repeat split; reflexivity. Qed.
Example C33_ex_hyps : NoDup (ids ex_tree) /\ Permutation [4; 6; 0; 3; 1; 2; 5] (ids ex_tree)
  /\ (forall p c, In c (ex_children p) <-> edge ex_tree p c) /\ length (ids ex_tree) < 32.
Proof.
  assert (NoDup (ids ex_tree)) as N by (cbn; repeat constructor; cbn; intuition discriminate).
  split; [exact N|]. split; [|split; [|cbn; lia]].
  - apply NoDup_Permutation; [repeat constructor; cbn; intuition discriminate|exact N|]. cbn. intuition.
  - intros p c. split.
    + intros H. destruct p as [|[|[|[|[|[|p]]]]]]; cbn in H; try contradiction.
      * destruct H as [<-|[<-|[]]]; [apply (edge_here 0 _ (Node 2 [Node 5 [Node 6 []]]))|apply (edge_here 0 _ (Node 1 [Node 3 []; Node 4 []]))]; cbn; auto.
      * apply (edge_below 0 _ (Node 1 [Node 3 []; Node 4 []])); [now left|].
        destruct H as [<-|[<-|[]]]; [apply (edge_here 1 _ (Node 3 []))|apply (edge_here 1 _ (Node 4 []))]; cbn; auto.
      * apply (edge_below 0 _ (Node 2 [Node 5 [Node 6 []]])); [right; now left|]. destruct H as [<-|[]]. apply (edge_here 2 _ (Node 5 [Node 6 []])). now left.
      * apply (edge_below 0 _ (Node 2 [Node 5 [Node 6 []]])); [right; now left|]. apply (edge_below 2 _ (Node 5 [Node 6 []])); [now left|].
        destruct H as [<-|[]]. apply (edge_here 5 _ (Node 6 [])). now left.
    + intros H. unfold ex_tree in H.
      repeat match goal with
      | H : edge (Node _ _) _ _ |- _ => inversion H; subst; clear H
      | H : In _ (_ :: _) |- _ => destruct H as [<-|H]
      | H : In _ [] |- _ => destruct H
      end; cbn; auto.
Qed.
(* a top with 31 instances *)
Example C106_ex : leveled 32 (Node 0 (map (fun i => Node i []) (seq 1 31))) = UB.
Proof. vm_compute. reflexivity. Qed.

Print Assumptions C33_shared_instances_are_rejected.
Print Assumptions C33_sorted_children_first.
Print Assumptions C33_levels_are_depths.
Print Assumptions C106_levels_read_freed_memory_refuted.
