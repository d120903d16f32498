From Coq Require Import Permutation.
From Verif Require Import Base SV_spec IR IRSem_spec IR_lemmas Design_spec Dce_model Dce_proofs Eval_model Sim_model Sim_spec Sim_proofs Simq_spec Simq_model Simq_proofs.
Local Open Scope Z_scope.

(* ---- C204: after an evaluation everything is settled ---- *)
Theorem C204_settled :
  forall pow G tied d ord nord st n st', well_formed G tied d ->
    (forall x, Permutation (ord x) (dependents d x)) -> (forall l, Permutation (nord l) l) ->
    session pow G d ord nord tied st -> qeval pow G d ord nord n st = Some (Ok st') ->
    forall it r, In it d -> is_ff (i_proc it) = false -> in_range G r ->
      (forall y v, q_vals st' y = Some v -> r y = v) ->
      (forall y, reads y (body_of (i_proc it)) -> q_vals st' y <> None) ->
      forall x, activate G (body_of (i_proc it)) r x = r x.
Proof.
  intros pow G tied d ord nord st n st' wf O N S E it r I F R X D. unfold qeval in E.
  apply (loop_inv pow G tied d ord nord wf O N) in E as [[Q _] Ev]; [|apply depth_inv; eapply session_inv; eauto].
  destruct (iv_items _ _ _ _ Q it I F (fun H => H)) as [[z W]|U]; [rewrite Ev in W; destruct W|].
  exact (uptodate_settled G tied d wf it (q_vals st') r I F U R X D).
Qed.

(* a change of an input: one step of the clocked processes, then everything is settled *)
Theorem C205_reacts :
  forall pow G tied d ord nord st r x v n st', well_formed G tied d -> synchronous G d -> apart d ->
    (forall x, Permutation (ord x) (dependents d x)) -> (forall l, Permutation (nord l) l) ->
    session pow G d ord nord tied st -> q_evs st = [] ->
    in_range G r -> (forall y u, q_vals st y = Some u -> r y = u) -> (forall y, occurs d y -> q_vals st y <> None) ->
    input d x -> occurs d x -> 0 <= v < 2 ^ d_width (G x) ->
    qeval pow G d ord nord n (set_value G ord None x v st) = Some (Ok st') ->
    exists r', in_range G r' /\ (forall y u, q_vals st' y = Some u -> r' y = u) /\ (forall y, occurs d y -> q_vals st' y <> None)
      /\ reacts G d r x v r'.
Proof.
  intros pow G tied d ord nord st r x v n st' wf sy ap O N S Ev R X D Xi Xo V E.
  exact (react pow G tied d ord nord wf sy ap O N st r x v n st' (session_inv pow G tied d ord nord wf O N st S) Ev R X D Xi Xo V E).
Qed.

Theorem C206_ends :
  forall pow G tied d ord nord st, well_formed G tied d -> loop_free d ->
    (forall x, Permutation (ord x) (dependents d x)) -> (forall l, Permutation (nord l) l) ->
    session pow G d ord nord tied st -> exists n o, qeval pow G d ord nord n st = Some o.
Proof.
  intros pow G tied d ord nord st wf [rank Rk] O N S. unfold qeval.
  apply (loop_ends pow G tied d ord nord wf O N rank Rk). apply depth_inv. eapply session_inv; eauto.
Qed.

(* a small design: y = a & q; z = s ? y : a as an if; q <= z at the clock *)
Definition GE : tenv := fun x => {| d_width := if Nat.ltb x 2 then 1 else 4; d_signed := false |}.
(* clk 0, s 1, a 2, y 3, z 4, q 5 *)
Definition dE : design :=
  [{| i_id := 0; i_gen := 0; i_proc := PWire (LVar 3) (EBin And (EVar 2) (EVar 5)) |};
   {| i_id := 1; i_gen := 0; i_proc := PComb [SIf (EVar 1) [SAssign Blocking (LVar 4) (EVar 3)] [SAssign Blocking (LVar 4) (EVar 2)]] |};
   {| i_id := 2; i_gen := 0; i_proc := PFf [(true, 0%nat)] [SAssign NonBlocking (LVar 5) (EVar 4)] |}].
Definition untied : nat -> bool := fun _ => false.
Definition assigned (s : stmt) : list var := match s with SAssign _ l _ => [lhs_var l] | _ => [] end.
Lemma assigns_c : forall x b, assigns x b -> In x (collect_body assigned b).
Proof. intros x b (k & l & e & I & <-). apply collect_in. eexists. split; [exact I|]. left. reflexivity. Qed.
Lemma reads_c : forall x b, reads x b -> In x (collect_body stmt_sinks b).
Proof. intros x b (s & I & R). apply collect_in. exists s. split; [exact I|]. now apply reads_sinks. Qed.
Lemma c_reads : forall x b, In x (collect_body stmt_sinks b) -> reads x b.
Proof. intros x b H. apply collect_in in H as (s & I & H). exists s. split; [exact I|]. now apply reads_sinks. Qed.
Lemma good_var : forall G x, 0 < d_width (G x) <= 64 -> good_expr G (EVar x).
Proof. intros G x H. split; [exact (proj1 H)|]. split; [cbn; lia|]. intros r. exact I. Qed.
Ltac items H := cbn [In dE] in H; repeat (destruct H as [<-|H]; [|]); try contradiction.
Ltac vars H := cbn in H; repeat (destruct H as [H|H]); try contradiction; subst; try discriminate.
Lemma goodE : good_expr GE (EBin And (EVar 2) (EVar 5)).
Proof.
  split; [cbn; repeat split; lia|]. split; [|intros r; cbn; repeat split; discriminate].
  cbn. split; [lia|]. split; [lia|]. split; [reflexivity|]. left. split; [left; reflexivity|lia].
Qed.
Lemma wfE : well_formed GE untied dE.
Proof.
  split.
  - intros x. unfold GE; cbn [d_width]. destruct (Nat.ltb x 2); lia.
  - repeat constructor; cbn; intuition congruence.
  - intros it H. items H; cbn [i_proc body_of];
      [apply Forall_cons; [apply good_assign; [exact goodE|reflexivity]|constructor]
      |apply Forall_cons; [apply good_if; [apply good_var; cbn; lia| |]|constructor]; apply Forall_cons; try constructor; try (apply good_var; cbn; lia); try reflexivity
      |apply Forall_cons; [apply good_assign; [apply good_var; cbn; lia|reflexivity]|constructor]].
  - intros it H s e J O. items H; cbn [i_proc body_of] in J; apply inside_subs in J; cbn in J; vars J; cbn in O; try discriminate; injection O as <-; cbn; auto.
  - intros it it' x H H' A A'. items H; items H'; auto; apply assigns_c in A; apply assigns_c in A'; cbn in A, A'; intuition congruence.
  - intros it k l e H F J. items H; cbn [i_proc body_of] in J; try discriminate; apply inside_subs in J; cbn in J; vars J; injection J as <- _ _; discriminate.
  - intros it x H F R A. items H; try discriminate; apply reads_c in R; apply assigns_c in A; cbn in R, A; intuition congruence.
  - intros it H F. left. items H; try discriminate; [exists 2%nat|exists 1%nat]; apply c_reads; cbn; auto.
Qed.

Lemma syE : synchronous GE dE.
Proof.
  split.
  - intros it H F. items H; discriminate.
  - intros it b x H E. items H; cbn in E; try contradiction. destruct E as [E|[]]. injection E as <- <-.
    split; [reflexivity|]. split.
    + intros (it & H & A). items H; apply assigns_c in A; cbn in A; intuition discriminate.
    + intros it H F R. items H; try discriminate; apply reads_c in R; cbn in R; intuition discriminate.
  - intros it k l e H F J. items H; try discriminate. cbn [i_proc body_of] in J. apply inside_subs in J. cbn in J.
    destruct J as [J|[]]. now injection J as <- _ _.
  - intros it r H F. items H; try discriminate. cbn. repeat constructor. intros [].
Qed.
Lemma apE : apart dE.
Proof. intros it it' x H H' F F' R A. items H; try discriminate; items H'; try discriminate. reflexivity. Qed.
Lemma lfE : loop_free dE.
Proof.
  exists (fun i => match i with 2 => 0 | 0 => 1 | _ => 2 end)%nat. intros it it' x H H' A [[F R]|[b B]].
  - apply assigns_c in A. apply reads_c in R. items H; items H'; try discriminate; cbn in A, R |- *; try lia; exfalso; intuition congruence.
  - apply assigns_c in A. items H; items H'; cbn in A, B |- *; try lia; exfalso; intuition congruence.
Qed.
(* a session: constants, inputs, evaluation *)
Definition no_pow : Z -> Z -> outcome Z := fun _ _ => UB.
Definition same (l : list (var * Z)) := l.
Definition set_all (G : tenv) ord (l : list (var * Z)) (st : qst) : qst := fold_left (fun st p => set_value G ord None (fst p) (snd p) st) l st.
Definition eval_all G d ord (st : qst) : qst := match qeval no_pow G d ord same 30 st with Some (Ok st') => st' | _ => empty end.
Definition after G d ord tied (ls : list (list (var * Z))) : qst :=
  fold_left (fun st l => eval_all G d ord (set_all G ord l st)) ls (construct G d ord tied).
Lemma set_all_session : forall G d ord tied l st,
  Forall (fun p => input d (fst p) /\ 0 <= snd p < 2 ^ d_width (G (fst p))) l ->
  session no_pow G d ord same tied st -> session no_pow G d ord same tied (set_all G ord l st).
Proof.
  intros G d ord tied l. induction l as [|p l IH]; intros st F S; [exact S|]. apply Forall_cons_iff in F as [[I R] F].
  apply (IH (set_value G ord None (fst p) (snd p) st)); [exact F|]. apply se_set; [exact S| |exact R].
  intros it H A. apply I. now exists it.
Qed.
Lemma eval_all_session : forall G d ord tied st, session no_pow G d ord same tied st ->
  qeval no_pow G d ord same 30 st = Some (Ok (eval_all G d ord st)) -> session no_pow G d ord same tied (eval_all G d ord st).
Proof. intros. eapply se_eval; eauto. Qed.
Lemma inputE : forall x, In x [0; 1; 2]%nat -> input dE x.
Proof. intros x X (it & H & A). items H; apply assigns_c in A; cbn in A, X; intuition congruence. Qed.
Definition st1 := after GE dE (dependents dE) untied [[(0%nat, 0); (1%nat, 0); (2%nat, 5)]].
Definition st2 := after GE dE (dependents dE) untied [[(0%nat, 0); (1%nat, 0); (2%nat, 5)]; [(0%nat, 1)]; [(0%nat, 0); (2%nat, 3)]].
Ltac sets H := apply set_all_session; [repeat (apply Forall_cons; [split; [apply H; cbn; tauto|cbn; lia]|]); constructor|].
Lemma se1 : session no_pow GE dE (dependents dE) same untied st1.
Proof. apply eval_all_session; [|vm_compute; reflexivity]. sets inputE. apply se_new. Qed.
Definition st2_set := set_all GE (dependents dE) [(0%nat, 0); (2%nat, 3)] (after GE dE (dependents dE) untied [[(0%nat, 0); (1%nat, 0); (2%nat, 5)]; [(0%nat, 1)]]).
Lemma se2_set : session no_pow GE dE (dependents dE) same untied st2_set.
Proof. sets inputE. apply eval_all_session; [|vm_compute; reflexivity]. sets inputE. exact se1. Qed.
Lemma se2 : session no_pow GE dE (dependents dE) same untied st2.
Proof. apply eval_all_session; [exact se2_set|vm_compute; reflexivity]. Qed.
Example values_ex : map (q_vals st1) (seq 0 6) = [Some 0; Some 0; Some 5; None; Some 5; None]
  /\ map (q_vals st2) (seq 0 6) = [Some 0; Some 0; Some 3; Some 1; Some 3; Some 5] /\ q_evs st2 = [].
Proof. vm_compute. auto. Qed.
(* the values as an environment *)
Definition env (st : qst) : venv := fun y => match q_vals st y with Some v => v | None => 0 end.
Lemma env_in : forall G d ord tied st, well_formed G tied d -> (forall x, Permutation (ord x) (dependents d x)) ->
  session no_pow G d ord same tied st -> in_range G (env st).
Proof.
  intros G d ord tied st wf O S y. apply (session_inv no_pow G tied d ord same wf O (fun l => Permutation_refl l)) in S as [Q _].
  unfold env. destruct (q_vals st y) eqn:E; [eapply iv_range; eauto|]. pose proof (wf_width _ _ _ wf y). split; [lia|apply Z.pow_pos_nonneg; lia].
Qed.
Lemma env_ex : forall st y v, q_vals st y = Some v -> env st y = v.
Proof. intros st y v E. unfold env. now rewrite E. Qed.
Lemma occursE : forall y, occurs dE y -> In y (seq 0 6).
Proof.
  intros y (it & H & [R|[A|[b B]]]); items H; try apply reads_c in R; try apply assigns_c in A; cbn; try (cbn in R; tauto); try (cbn in A; tauto); cbn in B; intuition congruence.
Qed.
(* the wires of st2 are settled *)
Example C204_ex : forall x, activate GE [SAssign Blocking (LVar 3) (EBin And (EVar 2) (EVar 5))] (env st2) x = env st2 x.
Proof.
  refine (C204_settled no_pow GE untied dE (dependents dE) same st2_set 30 st2 wfE (fun x => Permutation_refl _) (fun l => Permutation_refl l) se2_set _
    {| i_id := 0; i_gen := 0; i_proc := PWire (LVar 3) (EBin And (EVar 2) (EVar 5)) |} (env st2) (or_introl eq_refl) eq_refl
    (env_in _ _ _ _ _ wfE (fun x => Permutation_refl _) se2) (env_ex st2) _).
  - vm_compute. reflexivity.
  - intros y R. apply reads_c in R. cbn in R. destruct R as [<-|[<-|[]]]; vm_compute; discriminate.
Qed.
(* the clock rises: q takes z, and y and z follow *)
Example C205_ex : exists r', reacts GE dE (env st2) 0%nat 1 r' /\ map r' (seq 0 6) = [1; 0; 3; 3; 3; 3].
Proof.
  destruct (C205_reacts no_pow GE untied dE (dependents dE) same st2 (env st2) 0%nat 1 30
    (eval_all GE dE (dependents dE) (set_value GE (dependents dE) None 0%nat 1 st2)) wfE syE apE (fun x => Permutation_refl _)
    (fun l => Permutation_refl l) se2 eq_refl (env_in _ _ _ _ _ wfE (fun x => Permutation_refl _) se2) (env_ex st2)) as (r' & _ & X & _ & R).
  - intros y O. apply occursE in O. cbn in O. repeat (destruct O as [O|O]; [subst y; vm_compute; discriminate|]). destruct O.
  - apply inputE. cbn. tauto.
  - eexists. split; [right; right; left; reflexivity|]. right. right. exists true. left. reflexivity.
  - cbn. lia.
  - vm_compute. reflexivity.
  - exists r'. split; [exact R|]. cbn [map seq]. rewrite (X 0%nat 1), (X 1%nat 0), (X 2%nat 3), (X 3%nat 3), (X 4%nat 3), (X 5%nat 3); vm_compute; reflexivity.
Qed.
Example C206_ex : exists n o, qeval no_pow GE dE (dependents dE) same n (set_value GE (dependents dE) None 0%nat 1 st2) = Some o.
Proof.
  apply (C206_ends no_pow GE untied dE (dependents dE) same _ wfE lfE (fun x => Permutation_refl _) (fun l => Permutation_refl l)).
  apply se_set; [exact se2| |cbn; lia]. intros it H A. exact (inputE 0%nat (or_introl eq_refl) (ex_intro _ it (conj H A))).
Qed.

(* ---- C207: clocked processes that read each other's registers ---- *)
(* clk 0, a 2, q1 3, q2 4: q1 <= a in one process, q2 <= q1 in another *)
Definition d7 : design :=
  [{| i_id := 0; i_gen := 0; i_proc := PFf [(true, 0%nat)] [SAssign NonBlocking (LVar 3) (EVar 2)] |};
   {| i_id := 1; i_gen := 0; i_proc := PFf [(true, 0%nat)] [SAssign NonBlocking (LVar 4) (EVar 3)] |}].
Lemma wf7 : well_formed GE untied d7.
Proof.
  split.
  - intros x. unfold GE; cbn [d_width]. destruct (Nat.ltb x 2); lia.
  - repeat constructor; cbn; intuition congruence.
  - intros it H. items H; cbn [i_proc body_of]; (apply Forall_cons; [apply good_assign; [apply good_var; cbn; lia|reflexivity]|constructor]).
  - intros it H s e J O. items H; cbn [i_proc body_of] in J; apply inside_subs in J; cbn in J; vars J; cbn in O; try discriminate; injection O as <-; cbn; auto.
  - intros it it' x H H' A A'. items H; items H'; auto; apply assigns_c in A; apply assigns_c in A'; cbn in A, A'; intuition congruence.
  - intros it k l e H F J. items H; discriminate.
  - intros it x H F R A. items H; discriminate.
  - intros it H F. items H; discriminate.
Qed.
Lemma input7 : forall x, In x [0; 2]%nat -> input d7 x.
Proof. intros x X (it & H & A). items H; apply assigns_c in A; cbn in A, X; intuition congruence. Qed.
Lemma sy7 : synchronous GE d7.
Proof.
  split.
  - intros it H F. items H; discriminate.
  - intros it b x H E. items H; cbn in E; (destruct E as [E|[]]; injection E as <- <-; split; [reflexivity|]; split; [apply input7; cbn; tauto|]);
      intros it H F R; items H; discriminate.
  - intros it k l e H F J. items H; cbn [i_proc body_of] in J; apply inside_subs in J; cbn in J; destruct J as [J|[]]; now injection J as <- _ _.
  - intros it r H F. items H; cbn; repeat constructor; intros [].
Qed.
Definition ins7 := [[(0%nat, 0); (2%nat, 5)]; [(0%nat, 1)]; [(0%nat, 0)]; [(0%nat, 1)]; [(0%nat, 0); (2%nat, 9)]].
Definition st7 := after GE d7 (dependents d7) untied ins7.
Lemma se7 : session no_pow GE d7 (dependents d7) same untied st7.
Proof.
  apply eval_all_session; [|vm_compute; reflexivity]. sets input7.
  apply eval_all_session; [|vm_compute; reflexivity]. sets input7.
  apply eval_all_session; [|vm_compute; reflexivity]. sets input7.
  apply eval_all_session; [|vm_compute; reflexivity]. sets input7.
  apply eval_all_session; [|vm_compute; reflexivity]. sets input7. apply se_new.
Qed.
(* the statement of C205 without apart is false *)
Theorem C207_shift_register_refuted :
  ~ forall pow G tied d ord nord st r x v n st', well_formed G tied d -> synchronous G d ->
    (forall x, Permutation (ord x) (dependents d x)) -> (forall l, Permutation (nord l) l) ->
    session pow G d ord nord tied st -> q_evs st = [] ->
    in_range G r -> (forall y u, q_vals st y = Some u -> r y = u) -> (forall y, occurs d y -> q_vals st y <> None) ->
    input d x -> occurs d x -> 0 <= v < 2 ^ d_width (G x) ->
    qeval pow G d ord nord n (set_value G ord None x v st) = Some (Ok st') ->
    exists r', in_range G r' /\ (forall y u, q_vals st' y = Some u -> r' y = u) /\ (forall y, occurs d y -> q_vals st' y <> None)
      /\ reacts G d r x v r'.
Proof.
  intros H.
  destruct (H no_pow GE untied d7 (dependents d7) same st7 (env st7) 0%nat 1 30%nat
    (eval_all GE d7 (dependents d7) (set_value GE (dependents d7) None 0%nat 1 st7)) wf7 sy7 (fun x => Permutation_refl _)
    (fun l => Permutation_refl l) se7 eq_refl (env_in _ _ _ _ _ wf7 (fun x => Permutation_refl _) se7) (env_ex st7)) as (r' & _ & X & _ & R).
  - intros y (it & I & [R|[A|[b B]]]); items I; try apply reads_c in R; try apply assigns_c in A;
      try (cbn in R; destruct R as [R|[]]; subst y; vm_compute; discriminate);
      try (cbn in A; destruct A as [A|[]]; subst y; vm_compute; discriminate);
      cbn in B; (destruct B as [B|[]]; injection B as <- <-; vm_compute; discriminate).
  - apply input7. cbn. tauto.
  - eexists. split; [left; reflexivity|]. right. right. exists true. left. reflexivity.
  - cbn. lia.
  - vm_compute. reflexivity.
  - destruct R as (_ & _ & R).
    assert (C : clocked d7 4%nat).
    { eexists. split; [right; left; reflexivity|]. split; [cbn; discriminate|]. eexists NonBlocking, (LVar 4), _. split; [constructor; left; reflexivity|reflexivity]. }
    specialize (R 4%nat C). rewrite (X 4%nat 9) in R by (vm_compute; reflexivity). vm_compute in R. discriminate.
Qed.
(* the same calls with the other order of the two processes: q2 keeps the old q1 *)
Example C207_ex : q_vals (after GE d7 (dependents d7) untied (ins7 ++ [[(0%nat, 1)]])) 4%nat = Some 9
  /\ q_vals (after GE d7 (fun x => rev (dependents d7 x)) untied (ins7 ++ [[(0%nat, 1)]])) 4%nat = Some 5.
Proof. vm_compute. auto. Qed.

(* ---- C208: a wire with a conditional expression does not follow its condition ---- *)
Theorem C208_condition_refuted :
  forall pow G z c a b nord st v, ~ In c (evars a) -> ~ In c (evars b) -> c <> z -> q_evs st = [] ->
    let d := [{| i_id := 0; i_gen := 0; i_proc := PWire (LVar z) (ECond (EVar c) a b) |}] in
    exists st', qeval pow G d (dependents d) nord 0 (set_value G (dependents d) None c v st) = Some (Ok st')
      /\ q_vals st' c = Some v /\ q_vals st' z = q_vals st z.
Proof.
  intros pow G z c a b nord st v A B N E d.
  assert (D : dependents d c = []).
  { unfold dependents, d. cbn [filter i_proc deps deps_e]. match goal with |- context [existsb ?f ?l] => destruct (existsb f l) eqn:X end; [|reflexivity].
    apply existsb_exists in X as (y & Y & X). apply Nat.eqb_eq in X. subst y. apply in_app_iff in Y as [Y|Y]; apply deps_sub in Y; tauto. }
  assert (Ev : q_evs (set_value G (dependents d) None c v st) = [] /\ q_vals (set_value G (dependents d) None c v st) = set_val (q_vals st) c v).
  { unfold set_value. destruct (changed _ _ _); unfold trigger; cbn [q_evs q_vals]; rewrite E, ?D; auto. }
  destruct Ev as [Ev Va]. eexists. unfold qeval. cbn [qloop q_evs]. rewrite Ev. split; [reflexivity|]. cbn [q_vals]. rewrite Va.
  unfold set_val. rewrite Nat.eqb_refl. split; [reflexivity|]. destruct (Nat.eqb_spec z c); [congruence|reflexivity].
Qed.
(* s 1, a 2, b 3, x = s ? a : b is 4: with a = 5 and b = 9 known x follows a when s = 1; s becomes 0 and x stays *)
Definition d8 : design := [{| i_id := 0; i_gen := 0; i_proc := PWire (LVar 4) (ECond (EVar 1) (EVar 2) (EVar 3)) |}].
Example C208_ex : map (q_vals (after GE d8 (dependents d8) untied [[(1%nat, 1); (2%nat, 5); (3%nat, 9)]; [(1%nat, 0)]])) [1; 2; 3; 4]%nat
  = [Some 0; Some 5; Some 9; Some 5].
Proof. vm_compute. reflexivity. Qed.

(* ---- C209: a process that reads nothing never runs ---- *)
Theorem C209_constant_refuted :
  forall pow G tied p ord nord st y, (forall x, ~ reads x (body_of p)) -> is_ff p = false ->
    (tied 0%nat = true \/ forall l v w s, p <> PWire l (EConst v w s)) ->
    let d := [{| i_id := 0; i_gen := 0; i_proc := p |}] in
    (forall x, Permutation (ord x) (dependents d x)) -> session pow G d ord nord tied st ->
    assigns y (body_of p) -> q_vals st y = None.
Proof.
  intros pow G tied p ord nord st y Rd F P d O S A.
  assert (D : forall x, ord x = []).
  { intros x. specialize (O x). replace (dependents d x) with (@nil nat) in O; [now apply Permutation_sym, Permutation_nil in O|].
    unfold dependents, d. cbn [filter i_proc]. destruct (existsb _ _) eqn:X; [|reflexivity].
    apply existsb_exists in X as (z & Y & X). exfalso. exact (Rd z (deps_read {| i_id := 0; i_gen := 0; i_proc := p |} z F Y)). }
  assert (K : q_evs st = [] /\ q_vals st y = None); [|tauto].
  clear Rd F O. induction S as [|st x v S IH I R|st n st' S IH E].
  - unfold construct, d. cbn [fold_left]. unfold pulled. cbn [i_proc i_id].
    destruct p as [l e|b|evs b]; auto. destruct l as [x|x h lo|x i w]; auto. destruct e; auto. destruct P as [P|P]; [rewrite P; auto|].
    exfalso. eapply P. reflexivity.
  - destruct IH as [Q V]. unfold set_value. assert (x <> y) by (intros ->; apply (I _ (or_introl eq_refl)); exact A).
    destruct (changed _ _ _); cbn; rewrite ?D, Q; (split; [reflexivity|]); unfold set_val; destruct (Nat.eqb_spec y x); congruence.
  - destruct IH as [Q V]. unfold qeval in E. destruct n; cbn [qloop q_evs] in E; rewrite Q in E; injection E as <-; auto.
Qed.
(* always_comb x = 1; assign x = 1 + 2; a constant tied to a port of an instance *)
Example C209_ex : forall st,
  session no_pow GE [{| i_id := 0; i_gen := 0; i_proc := PComb [SAssign Blocking (LVar 3) (EConst 1 4 false)] |}] (fun _ => []) same untied st
  -> q_vals st 3%nat = None.
Proof.
  intros st S. apply (C209_constant_refuted no_pow GE untied (PComb [SAssign Blocking (LVar 3) (EConst 1 4 false)]) (fun _ => []) same st 3%nat); auto.
  - intros x R. apply reads_c in R. cbn in R. tauto.
  - right. intros. discriminate.
  - eexists _, (LVar 3), _. split; [constructor; left; reflexivity|reflexivity].
Qed.

(* ---- C210, C211: slices of a signal that are told of a change ---- *)
(* one table per signal: the parts in the order they were met *)
Theorem C210_disjoint_parts :
  forall parts p b changed, (forall q, In q parts -> q = p \/ disjoint q p) -> In p parts -> covers p b -> In b changed ->
    In p (notified (linked parts) changed).
Proof.
  intros parts p b ch D I C B. apply notified_in. exists b. split; [exact B|]. unfold linked.
  destruct (links_some parts [] b p I C) as [q Q]. pose proof Q as Q'. apply links_inv in Q' as [[]|(Iq & Cq & _)].
  destruct (D q Iq) as [->|D']; [exact Q|]. exfalso. exact (D' b Cq C).
Qed.
Theorem C210_only_changed :
  forall parts p changed, In p (notified (linked parts) changed) -> In p parts /\ exists b, In b changed /\ covers p b.
Proof.
  intros parts p ch H. apply notified_in in H as (b & B & H). apply links_inv in H as [[]|(I & C & _)]. split; [exact I|]. eauto.
Qed.
Example C210_ex : notified (linked [(3, 0); (7, 4); (3, 0)]) [5; 6] = [(7, 4); (7, 4)]
  /\ forall q, In q [(3, 0); (7, 4); (3, 0)] -> q = (7, 4) \/ disjoint q (7, 4).
Proof.
  split; [reflexivity|]. intros q H. cbn in H. destruct H as [<-|[<-|[<-|[]]]]; auto; right; intros b; unfold covers; cbn; lia.
Qed.
(* a part all of whose bits belong to parts met before is never told *)
Theorem C211_shadowed_refuted :
  forall before p after changed, (forall b, covers p b -> exists q, In q before /\ covers q b) -> ~ In p before ->
    ~ In p (notified (linked (before ++ p :: after)) changed).
Proof.
  intros bf p af ch C N H. apply notified_in in H as (b & _ & H). unfold linked in H. rewrite fold_left_app in H.
  apply links_inv in H as [H|(_ & Cp & H)].
  - apply links_inv in H as [[]|(I & _)]. contradiction.
  - apply H. destruct (C b Cp) as (q & I & Q). exact (links_some bf [] b q I Q).
Qed.
(* a[3:0] was used before a[1:0] and a[1:0] reads bit 0 *)
Example C211_ex : notified (linked [(3, 0); (1, 0)]) [0] = [(3, 0)] /\ forall b, covers (1, 0) b -> exists q, In q [(3, 0)] /\ covers q b.
Proof. split; [reflexivity|]. intros b C. exists (3, 0). split; [left; reflexivity|]. unfold covers in *. cbn in *. lia. Qed.

(* ---- C212: the element of the queue is read after it was removed ---- *)
Theorem C212_front_after_pop_refuted : forall q h, q <> [] -> next_event q h = Some UB.
Proof. intros [|a q] h N; [congruence|]. unfold next_event, pop_cell, read_cell. rewrite Nat.eqb_refl. reflexivity. Qed.
Example C212_ex : next_event [7%nat] (fun _ => Some (0%nat, 0%nat)) = Some UB.
Proof. reflexivity. Qed.
Print Assumptions C204_settled.
Print Assumptions C205_reacts.
Print Assumptions C206_ends.
Print Assumptions C207_shift_register_refuted.
Print Assumptions C208_condition_refuted.
Print Assumptions C209_constant_refuted.
Print Assumptions C210_disjoint_parts.
Print Assumptions C210_only_changed.
Print Assumptions C211_shadowed_refuted.
Print Assumptions C212_front_after_pop_refuted.
