(* Properties of the debugger's enable conditions. *)
From Verif Require Import Base SV_spec IR IRSem_spec IR_lemmas IfCase_proofs Enable_spec Enable_model Enable_proofs.
Local Open Scope Z_scope.

(* ---- C41: the condition is true exactly when the statement is reached ---- *)
Theorem C41_enable_condition_is_exact :
  forall G body p c r,
    cond_at G body p None = Ok (Some c) -> no_jump body -> cases_fit G body -> single_defaults body p ->
    (forall y, In y (evars c) -> ~ changes_now y body) ->
    (truth G r c = true <-> reached G body p (start_state r)).
Proof.
  intros G body p c r H N F D Ch.
  rewrite (cond_exact G p body None c (start_state r) r H N F D Ch eq_refl (fun _ _ => eq_refl)). tauto.
Qed.
Print Assumptions C41_enable_condition_is_exact.

Definition G41 : tenv := fun x => {| d_width := match x with O => 1 | _ => 2 end; d_signed := false |}.
(* x = y; if (a) z = 1; else case (y) 2: begin x = 0; <here> end default: <there> *)
Definition b41 : list stmt :=
  [SAssign Blocking (LVar 2) (EVar 1);
   SIf (EVar 0) [SAssign Blocking (LVar 3) (EConst 1 2 false)]
     [SSwitch (EVar 1) [(2, [SAssign Blocking (LVar 2) (EConst 0 2 false); SBlock []])] (Some [SBlock []])]].
Definition here41 : path := [(1%nat, BElse); (0%nat, BCase 2)].
Definition there41 : path := [(1%nat, BElse); (0%nat, BDefault)].
Example C41_ex :
  no_jump b41 /\ cases_fit G41 b41 /\ single_defaults b41 here41 /\ single_defaults b41 there41
  /\ cond_at G41 b41 here41 None
     = Ok (Some (EBin LAnd (EBin Eq (EVar 1) (EConst 2 2 false)) (EUn UNot (EVar 0))))
  /\ cond_at G41 b41 there41 None
     = Ok (Some (EBin LAnd (EBin Neq (EVar 1) (EConst 2 2 false)) (EUn UNot (EVar 0))))
  /\ (forall y, y = 0%nat \/ y = 1%nat -> ~ changes_now y b41).
Proof.
  split; [|split; [|split; [|split; [|split; [|split]]]]].
  - intros s H. apply inside_subs in H. cbn in H. intuition (subst; discriminate).
  - intros e cs d H. apply inside_subs in H. cbn in H.
    repeat (destruct H as [H|H]; [try discriminate|]); [|destruct H]; inversion H; subst.
    split; [repeat constructor; cbn; tauto|each; cbn; lia].
  - cbn. auto.
  - cbn. auto.
  - reflexivity.
  - reflexivity.
  - intros y Hy K. destruct K as [(k & l & e & I & _ & E)|(a & b & st & body & I)];
      apply inside_subs in I; cbn in I;
      repeat (destruct I as [I|I]; [try discriminate; inversion I; subst; cbn in Hy; destruct Hy; discriminate|]);
      destruct I.
Qed.

(* ---- C87: default branches of case statements with more or fewer cases ---- *)
Theorem C87_default_condition_refuted :
  ~ (forall G body p c r,
       cond_at G body p None = Ok (Some c) -> no_jump body -> cases_fit G body ->
       (forall y, In y (evars c) -> ~ changes_now y body) ->
       (truth G r c = true <-> reached G body p (start_state r))).
Proof.
  intros H.
  set (body := [SSwitch (EVar 1) [(1, []); (2, [])] (Some [SBlock []])]).
  destruct (H G41 body [(0%nat, BDefault)]
              (EBin Neq (EVar 1) (EExtend (EBin LOr (EConst 1 2 false) (EConst 2 2 false)) 2)) (fun _ => 2)) as [K _].
  - reflexivity.
  - intros s I. apply inside_subs in I. cbn in I. intuition (subst; discriminate).
  - intros e cs d I. apply inside_subs in I. cbn in I.
    repeat (destruct I as [I|I]; [try discriminate|]); [|destruct I]; inversion I; subst.
    split; [repeat constructor; cbn; intuition lia|each; cbn; lia].
  - intros y _ K. destruct K as [(k & l & e & I & _ & E)|(a & b & st & bd & I)];
      apply inside_subs in I; cbn in I; intuition discriminate.
  - cbn in K. destruct (K eq_refl) as (_ & s & bd & E1 & E2 & _). inversion E1; subst. cbn in E2. discriminate.
Qed.
Print Assumptions C87_default_condition_refuted.
(* a case statement with only a default branch reads the first element of an empty vector *)
Theorem C87_lone_default_refuted :
  forall G e d, cond_at G [SSwitch e [] (Some d)] [(0%nat, BDefault)] None = UB.
Proof. reflexivity. Qed.
Print Assumptions C87_lone_default_refuted.
