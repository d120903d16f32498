(* C15, C53-C55: removal of empty blocks. *)
From Verif Require Import Base SV_spec IR IRSem_spec IR_lemmas IfCase_props.
From Verif Require Import RemoveEmpty_spec RemoveEmpty_model RemoveEmpty_proofs.
Local Open Scope Z_scope.

(* From every running state the cleaned process does what the original does; when the
   process is deleted (None) the original changed nothing. *)
Theorem C15_remove_empty_preserves_behaviour :
  forall (G : tenv) (body : list stmt) (o : option (list stmt)),
    (forall s, inside s body -> reb_ready G s) ->
    remove_empty_process body = Ok o ->
    forall st : pstate, st_status st = Running ->
      run G body st = match o with None => st | Some body' => run G body' st end.
Proof. exact remove_empty_correct. Qed.
Print Assumptions C15_remove_empty_preserves_behaviour.

(* Nothing empty is left: no empty then branch, no empty case arm or default, no empty
   nested block, no switch without arms. *)
Theorem C15_remove_empty_tidy :
  forall (body body' : list stmt),
    remove_empty_process body = Ok (Some body') -> body' <> [] /\ Forall tidy body'.
Proof. exact remove_empty_tidy. Qed.
Print Assumptions C15_remove_empty_tidy.

(* A process is deleted exactly when it contains no proper statement at all. *)
Theorem C15_remove_empty_deletes_only_hollow :
  forall (body : list stmt) (o : option (list stmt)),
    remove_empty_process body = Ok o -> (o = None <-> ~ solid body).
Proof. exact remove_empty_none_iff. Qed.
Print Assumptions C15_remove_empty_deletes_only_hollow.

(* The pass succeeds when every if has a branch with a proper statement. *)
Theorem C15_remove_empty_total :
  forall (body : list stmt),
    (forall c t f, inside (SIf c t f) body -> solid t \/ solid f) ->
    exists o, remove_empty_process body = Ok o.
Proof. exact remove_empty_total. Qed.
Print Assumptions C15_remove_empty_total.

Definition ex_flag : expr := EBin LessThan (EVar 1) (EVar 2).
Definition ex_empty : list stmt :=
  [SIf ex_flag [SBlock []] [SAssign Blocking (LVar 3) (EVar 1)];
   SSwitch (EVar 0) [(0, []); (1, [SAssign Blocking (LVar 4) (EVar 2)])] None;
   SBlock [SSwitch (EVar 0) [] None]].
Example C15_ex_hyp : forall s, inside s ex_empty -> reb_ready ex_G s.
Proof.
  apply inside_Forall. cbn. each; cbn; auto.
  - left. repeat split; auto; lia.
  - split; [|congruence]. repeat constructor; vm_compute; intuition discriminate.
  - split; [constructor|congruence].
Qed.
Example C15_ex_result :
  remove_empty_process ex_empty =
  Ok (Some [SIf (EUn UInvert ex_flag) [SAssign Blocking (LVar 3) (EVar 1)] [];
            SSwitch (EVar 0) [(1, [SAssign Blocking (LVar 4) (EVar 2)])] None]).
Proof. reflexivity. Qed.
Example C15_ex_total : forall c t f, inside (SIf c t f) ex_empty -> solid t \/ solid f.
Proof.
  intros c t f H. pose proof (inside_Forall
    (fun x => forall c t f, x = SIf c t f -> solid t \/ solid f) ex_empty) as K.
  eapply K; [|exact H|reflexivity]. cbn.
  each; intros c0 t0 f0 E; try discriminate E.
  injection E; intros; subst. right. eexists; split; [apply in_here; now left|reflexivity].
Qed.

(* An empty case arm next to a default: the value now selects the default. *)
Theorem C53_remove_empty_case_with_default_refuted :
  exists (G : tenv) (body body' : list stmt) (st : pstate),
    remove_empty_process body = Ok (Some body') /\
    st_status st = Running /\
    st_cur (run G body st) 3%nat = 0 /\ st_cur (run G body' st) 3%nat = 7.
Proof.
  exists ex_G, [SSwitch (EVar 0) [(0, []); (1, [SAssign Blocking (LVar 4) (EVar 2)])]
                  (Some [SAssign Blocking (LVar 3) (EConst 7 8 false)])],
    [SSwitch (EVar 0) [(1, [SAssign Blocking (LVar 4) (EVar 2)])]
                  (Some [SAssign Blocking (LVar 3) (EConst 7 8 false)])],
    (start_state (fun _ => 0)).
  repeat split; vm_compute; reflexivity.
Qed.
Print Assumptions C53_remove_empty_case_with_default_refuted.

(* An if statement with two empty branches makes the pass dereference a null pointer,
   whatever its predicate and whatever surrounds it before that point. *)
Theorem C54_remove_empty_if_crashes_refuted :
  forall (c : expr) (rest : list stmt),
    remove_empty_process (SIf c [] [] :: rest) = UB.
Proof. reflexivity. Qed.
Print Assumptions C54_remove_empty_if_crashes_refuted.

(* A multi-bit predicate is complemented bit by bit, which is not logical negation. *)
Theorem C55_remove_empty_wide_predicate_refuted :
  exists (G : tenv) (body body' : list stmt) (st : pstate),
    remove_empty_process body = Ok (Some body') /\
    st_status st = Running /\
    st_cur (run G body st) 3%nat = 0 /\ st_cur (run G body' st) 3%nat = 7.
Proof.
  exists ex_G, [SIf (EVar 0) [] [SAssign Blocking (LVar 3) (EConst 7 8 false)]],
    [SIf (EUn UInvert (EVar 0)) [SAssign Blocking (LVar 3) (EConst 7 8 false)] []],
    (start_state (fun x => if Nat.eqb x 0 then 1 else 0)).
  repeat split; vm_compute; reflexivity.
Qed.
Print Assumptions C55_remove_empty_wide_predicate_refuted.
