(* C17, C59, C60: merging per-bit wires. *)
From Verif Require Import Base IR MergeWire_model MergeWire_spec MergeWire_proofs.
Local Open Scope Z_scope.

(* When every bit has one driver and slice assignments connect equal indices, the merged
   module connects exactly the same bits. *)
Theorem C17_merge_wires_preserves_connectivity :
  forall (S : shapes) (l : list wire),
    single_driver (s_width S) l ->
    (forall s, In s l -> wire_wf (s_width S) s /\ straight s) ->
    forall y i x j,
      connects (s_width S) l y i x j <-> connects (s_width S) (merge_wires S l) y i x j.
Proof. exact merge_wires_connects. Qed.
Print Assumptions C17_merge_wires_preserves_connectivity.

(* Every other statement is kept and none is invented. *)
Theorem C17_merge_wires_keeps_other_statements :
  forall (S : shapes) (l : list wire) (id : nat),
    In (WOther id) l <-> In (WOther id) (merge_wires S l).
Proof.
  intros S l id. split; [apply merge_wires_others; discriminate|apply merge_wires_others_back].
Qed.
Print Assumptions C17_merge_wires_keeps_other_statements.

(* Two equally shaped variables connected by as many slice assignments as there are bits
   end up connected by one assignment and no slice assignment. *)
Theorem C17_merge_wires_merges :
  forall (S : shapes) (l : list wire) (y x : var),
    In (y, x) (pairs S l) -> full S l (y, x) = true ->
    In (WWhole y x) (merge_wires S l)
    /\ forall s, In s (merge_wires S l) -> in_pair S (y, x) s = false.
Proof. intros S l y x. exact (merge_wires_merges S l (y, x)). Qed.
Print Assumptions C17_merge_wires_merges.

Definition ex_shapes : shapes := {| s_width := fun _ => 3; s_size := fun _ => [1] |}.
Definition bit (y i x j : Z) : wire := WSlice (Z.to_nat y) i i (Z.to_nat x) j j.
Definition ex_wires : list wire :=
  [bit 1 2 0 2; WOther 7; bit 1 0 0 0; bit 2 1 0 1; bit 1 1 0 1].
Example C17_ex_result :
  merge_wires ex_shapes ex_wires = [WOther 7; bit 2 1 0 1; WWhole 1%nat 0%nat].
Proof. reflexivity. Qed.
Example C17_ex_hyp :
  single_driver (s_width ex_shapes) ex_wires /\
  (forall s, In s ex_wires -> wire_wf (s_width ex_shapes) s /\ straight s).
Proof.
  split.
  - intros n m s s' y i Hn Hm (x & j & D) (x' & j' & D').
    destruct n as [|[|[|[|[|n]]]]]; cbn in Hn; try (destruct n; discriminate Hn);
    injection Hn as <-; cbn in D; try contradiction;
    destruct m as [|[|[|[|[|m]]]]]; cbn in Hm; try (destruct m; discriminate Hm);
    injection Hm as <-; cbn in D'; try contradiction; try reflexivity; exfalso; lia.
  - intros s H. cbn in H.
    repeat (destruct H as [<-|H]; [cbn; lia|]). destruct H.
Qed.

(* Index-changing wiring (here: a bit reversal) is silently replaced by a straight one. *)
Theorem C59_merge_wires_permuted_refuted :
  exists (S : shapes) (l : list wire) y i x j,
    single_driver (s_width S) l /\ (forall s, In s l -> wire_wf (s_width S) s) /\
    connects (s_width S) l y i x j /\ ~ connects (s_width S) (merge_wires S l) y i x j.
Proof.
  exists ex_shapes, [bit 1 0 0 2; bit 1 1 0 1; bit 1 2 0 0], 1%nat, 0, 0%nat, 2.
  split; [|split; [|split]].
  - intros n m s s' y i Hn Hm (x & j & D) (x' & j' & D').
    destruct n as [|[|[|n]]]; cbn in Hn; try (destruct n; discriminate Hn);
    injection Hn as <-; cbn in D; try contradiction;
    destruct m as [|[|[|m]]]; cbn in Hm; try (destruct m; discriminate Hm);
    injection Hm as <-; cbn in D'; try contradiction; try reflexivity; exfalso; lia.
  - intros s H. cbn in H. repeat (destruct H as [<-|H]; [cbn; lia|]). destruct H.
  - exists (bit 1 0 0 2). split; [now left|]. cbn. lia.
  - intros (s & [<-|[]] & C). cbn in C. lia.
Qed.
Print Assumptions C59_merge_wires_permuted_refuted.

(* In a clocked block of non-blocking assignments, where every bit is assigned once and
   slices keep their index, every register gets the same value. *)
From Verif Require Import IRSem_spec.
Theorem C17_merge_block_same_registers :
  forall (S : shapes) (G : tenv) (l : list stmt) (r : venv),
    (forall x, s_width S x = d_width (G x)) -> (forall x, 0 < d_width (G x)) ->
    Forall (bwf G) l -> bsingle G l ->
    forall y, activate G l r y = activate G (merge_block S l) r y.
Proof. exact (fun S G l r SW PW W SD => merge_block_same S G SW PW l r W SD). Qed.
Print Assumptions C17_merge_block_same_registers.

Definition ex_WG : tenv := fun _ => {| d_width := 3; d_signed := false |}.
Definition sl (k : akind) (y i x j : Z) : stmt :=
  SAssign k (LSlice (Z.to_nat y) i i) (ESlice (EVar (Z.to_nat x)) j j).
Definition ex_wblock : list stmt :=
  [sl NonBlocking 1 2 0 2; SAssign NonBlocking (LVar 3) (EVar 1); sl NonBlocking 1 0 0 0;
   sl NonBlocking 1 1 0 1].
Example C17_ex_block :
  merge_block ex_shapes ex_wblock
  = [SAssign NonBlocking (LVar 3) (EVar 1); SAssign NonBlocking (LVar 1) (EVar 0)]
  /\ Forall (bwf ex_WG) ex_wblock /\ bsingle ex_WG ex_wblock.
Proof.
  split; [reflexivity|]. split.
  - repeat constructor; cbn; lia.
  - intros n m s s' y i Hn Hm D D'.
    destruct n as [|[|[|[|n]]]]; cbn in Hn; try (destruct n; discriminate Hn);
    injection Hn as <-; cbn in D; try contradiction;
    destruct m as [|[|[|[|m]]]]; cbn in Hm; try (destruct m; discriminate Hm);
    injection Hm as <-; cbn in D'; try contradiction; try reflexivity; exfalso; lia.
Qed.

(* With blocking assignments the merged assignment moves behind its readers. *)
Theorem C60_merge_block_blocking_refuted :
  exists (S : shapes) (G : tenv) (l : list stmt) (r : venv) (y : var),
    (forall x, s_width S x = d_width (G x)) /\ bsingle G l /\
    activate G l r y = 5 /\ activate G (merge_block S l) r y = 0.
Proof.
  exists ex_shapes, ex_WG,
    [sl Blocking 1 0 0 0; sl Blocking 1 1 0 1; sl Blocking 1 2 0 2; SAssign Blocking (LVar 2) (EVar 1)],
    (fun x => if Nat.eqb x 0 then 5 else 0), 2%nat.
  split; [reflexivity|]. split; [|split; vm_compute; reflexivity].
  intros n m s s' y i Hn Hm D D'.
    destruct n as [|[|[|[|n]]]]; cbn in Hn; try (destruct n; discriminate Hn);
    injection Hn as <-; cbn in D; try contradiction;
    destruct m as [|[|[|[|m]]]]; cbn in Hm; try (destruct m; discriminate Hm);
    injection Hm as <-; cbn in D'; try contradiction; try reflexivity; exfalso; lia.
Qed.
Print Assumptions C60_merge_block_blocking_refuted.
