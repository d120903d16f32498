(* C14: turning if/else-if chains into case statements. *)
From Verif Require Import Base SV_spec IR IRSem_spec IR_lemmas IfCase_spec IfCase_model IfCase_proofs.
Local Open Scope Z_scope.

(* For every block in which no else-if chain repeats a test, the converted block does
   exactly what the original does: same current values, same queued non-blocking writes
   in the same order, same return/break status, from every state. *)
Theorem C14_if_to_case_preserves_behaviour :
  forall (G : tenv) (body body' : list stmt),
    (forall s, inside s body -> eq_typed G s /\ no_repeated_test s) ->
    if_to_case G body = Ok body' ->
    forall st : pstate, run G body st = run G body' st.
Proof. exact if_to_case_correct. Qed.
Print Assumptions C14_if_to_case_preserves_behaviour.

(* The pass never fails on blocks whose compared expressions are not constants and are
   narrower than 32 bits. *)
Theorem C14_if_to_case_total :
  forall (G : tenv) (body : list stmt),
    (forall s, inside s body -> forall e v w b t f,
        s = SIf (EBin Eq e (EConst v w b)) t f ->
        0 <= ewidth G e < 32 /\ forall v' w' b', e <> EConst v' w' b') ->
    exists body', if_to_case G body = Ok body'.
Proof. exact if_to_case_total. Qed.
Print Assumptions C14_if_to_case_total.

(* a 2-bit selector (variable 0), data in 1 and 2, registers 3 and 4 *)
Definition ex_G : tenv := fun x => if Nat.eqb x 0 then {| d_width := 2; d_signed := false |}
                                   else {| d_width := 8; d_signed := false |}.
Definition ex_sel (k : Z) : expr := EBin Eq (EVar 0) (EConst k 2 false).
Definition ex_body : list stmt :=
  [SIf (ex_sel 0) [SAssign NonBlocking (LVar 3) (EVar 1)]
     [SIf (ex_sel 1) [SAssign NonBlocking (LVar 3) (EVar 2);
                      SIf (ex_sel 2) [] [SIf (ex_sel 3) [] [SAssign NonBlocking (LVar 4) (EVar 1)]]]
        [SIf (ex_sel 3) [SAssign NonBlocking (LVar 4) (EVar 3)]
           [SAssign NonBlocking (LVar 4) (EVar 2)]]]].
Ltac no_rep := let i := fresh "i" in let j := fresh "j" in
  intros i j ? ? ? ? ? ? ? Hij H1 H2;
  destruct i as [|[|[|[|i]]]]; destruct j as [|[|[|[|j]]]]; cbn in H1, H2; try congruence;
  injection H1; injection H2; intros; subst; try discriminate; vm_compute; congruence.
Example C14_ex_hyp : forall s, inside s ex_body -> eq_typed ex_G s /\ no_repeated_test s.
Proof.
  apply inside_Forall. cbn. repeat (constructor; [split|]);
    try (intros e v w b t f H; try discriminate H; injection H; intros; subst; reflexivity);
    try no_rep; constructor.
Qed.
Example C14_ex_result :
  if_to_case ex_G ex_body =
  Ok [SSwitch (EVar 0)
        [(0, [SAssign NonBlocking (LVar 3) (EVar 1)]);
         (1, [SAssign NonBlocking (LVar 3) (EVar 2);
              SSwitch (EVar 0) [(2, []); (3, [])] (Some [SAssign NonBlocking (LVar 4) (EVar 1)])]);
         (3, [SAssign NonBlocking (LVar 4) (EVar 3)])]
        (Some [SAssign NonBlocking (LVar 4) (EVar 2)])].
Proof. vm_compute. reflexivity. Qed.

(* Without the "no repeated test" condition the claim is false: two branches that test the
   same value become one case that runs both bodies. *)
Theorem C52_if_to_case_repeated_test_refuted :
  exists (G : tenv) (body body' : list stmt) (st : pstate),
    (forall s, inside s body -> eq_typed G s) /\
    if_to_case G body = Ok body' /\
    st_cur (run G body st) 3%nat = 5 /\ st_cur (run G body' st) 3%nat = 6.
Proof.
  exists ex_G,
    [SIf (ex_sel 0) [SAssign Blocking (LVar 3) (EConst 5 8 false)]
       [SIf (ex_sel 0) [SAssign Blocking (LVar 3) (EConst 6 8 false)]
          [SAssign Blocking (LVar 3) (EConst 7 8 false)]]],
    [SSwitch (EVar 0) [(0, [SAssign Blocking (LVar 3) (EConst 5 8 false);
                            SAssign Blocking (LVar 3) (EConst 6 8 false)])]
       (Some [SAssign Blocking (LVar 3) (EConst 7 8 false)])],
    (start_state (fun _ => 0)).
  split; [|split; [vm_compute; reflexivity|split; vm_compute; reflexivity]].
  apply inside_Forall. cbn. repeat constructor;
    intros e v w b t f H; try discriminate H; injection H; intros; subst; reflexivity.
Qed.
Print Assumptions C52_if_to_case_repeated_test_refuted.
