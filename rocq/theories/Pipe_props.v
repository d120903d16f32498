(* C18, C152: pipelining the outputs of a module *)
From Verif Require Import Base IR IRSem_spec IR_lemmas Pipe_spec Pipe_model Pipe_proofs.
Local Open Scope Z_scope.

(* C18: with n stages, during cycle t + n an output is what it was during cycle t without them *)
Theorem C18_output_delayed_by_n : forall G ports stage n m i r r', (1 <= n)%nat -> fresh G ports stage ->
  Forall (drives_only ports stage) (m_wires m) -> Forall (drives_only ports stage) (m_procs m) -> Forall (registered ports) (m_procs m) ->
  (forall t, outside ports stage (i t)) -> starts_like ports stage r r' ->
  forall p t, In p ports -> seen G (during G (pipeline ports stage n m) i r' (t + n)) p = seen G (during G m i r t) p.
Proof.
  intros G ports stage n m i r r' N [Fi Fa Fd Fw Fn] Dw Dp Rg O [S1 S2] p t P.
  assert (rel ports stage r r') as R.
  { intros x Nx. destruct (in_dec Nat.eq_dec x ports) as [I|I]; [rewrite first_port by exact I; auto|rewrite first_other by exact I; auto]. }
  assert (forall t, external ports stage (i t)) as X.
  { intros k s s' Rs. destruct (O k) as [O1 O2].
    assert (forall x, ~ In x ports -> ~ stage_of ports stage x -> s' x = s x) as Ag by (intros x I Nx; rewrite <- (Rs x Nx); now rewrite first_other).
    split.
    - intros x Nx. destruct (in_dec Nat.eq_dec x ports) as [I|I].
      + rewrite (first_port _ _ x I). rewrite !O1; [rewrite <- (Rs x Nx); now rewrite (first_port _ _ x I)|now left|right; exists x, 0%nat; auto].
      + rewrite first_other by exact I. apply O2; auto.
    - intros y [I|(q & j & I & ->)]; apply O1; [now left|right; exists q, (S j); auto]. }
  assert (silent ports (m_procs m)) as Q by (intros q I; eapply Forall_impl; [|exact Rg]; intros b H; now apply H).
  destruct (during_sr G ports stage n N Fi Fa Fd Fn m i r r' Dw Dp Q X Fw R (t + n)) as [_ E].
  specialize (E p n P (le_n n) ltac:(lia)). unfold reg in E. rewrite Nat.eqb_refl in E. replace (t + n - n)%nat with t in E by lia. exact E.
Qed.
(* a module with a register 1 fed from the input 0 and an output 2 that is the register inverted *)
Definition ex_G : tenv := fun _ => {| d_width := 1; d_signed := false |}.
Definition ex_m : module :=
  {| m_wires := [[SAssign Blocking (LVar 2) (EUn UInvert (EVar 1))]]; m_procs := [[SAssign NonBlocking (LVar 1) (EVar 0)]] |}.
Definition ex_stage (p i : nat) : var := (10 + i)%nat.
Lemma inside_assign : forall s k l e, inside s [SAssign k l e] -> s = SAssign k l e.
Proof.
  intros s k l e H. remember [SAssign k l e] as b eqn:E. destruct H as [? H|? ? ? ? H|? ? ? ? H|? ? ? ? ? ? H|? ? ? ? H|? ? ? ? ? ? H|? ? H]; subst; destruct H as [H|[]]; congruence.
Qed.
Lemma ex_drives : forall k x y e, In x [1; 2]%nat -> evars e = [y] -> In y [0; 1]%nat -> drives_only [2%nat] ex_stage [SAssign k (LVar x) e].
Proof.
  intros k x y e X E Y. assert (forall z, In z [0; 1; 2]%nat -> ~ stage_of [2%nat] ex_stage z) as N by (intros z I (p & j & _ & ->); unfold ex_stage in I; cbn in I; lia).
  split; [|split].
  - intros z (s & I & J). apply inside_assign in I as ->. cbn [reads_of] in J. rewrite E in J. destruct J as [<-|[]]. split; [cbn in *; lia|apply N; cbn in *; lia].
  - intros z [(k1 & lh & e1 & I & <-)|(a & b & st & bd & I)]; apply inside_assign in I; [injection I as _ -> _; apply N; cbn in *; lia|discriminate I].
  - intros z (a & b & st & bd & I). apply inside_assign in I. discriminate I.
Qed.
Example C18_output_delayed_ex :
  fresh ex_G [2%nat] ex_stage /\ Forall (drives_only [2%nat] ex_stage) (m_wires ex_m) /\ Forall (drives_only [2%nat] ex_stage) (m_procs ex_m) /\ Forall (registered [2%nat]) (m_procs ex_m)
  /\ (forall v, outside [2%nat] ex_stage (fun r => upd r 0%nat v))
  /\ pipeline [2%nat] ex_stage 2 ex_m = {| m_wires := [[SAssign Blocking (LVar 10) (EUn UInvert (EVar 1))]];
       m_procs := [[SAssign NonBlocking (LVar 1) (EVar 0)]; [SAssign NonBlocking (LVar 11) (EVar 10)]; [SAssign NonBlocking (LVar 2) (EVar 11)]] |}.
Proof.
  split; [|split; [|split; [|split; [|split]]]].
  - constructor.
    + intros p q i j [<-|[]] [<-|[]] E. unfold ex_stage in E. split; [reflexivity|lia].
    + intros p i _ [E|[]]. discriminate E.
    + reflexivity.
    + intros p _. cbn. lia.
    + repeat constructor. intros [].
  - constructor; [|constructor]. apply (ex_drives _ 2%nat 1%nat); cbn; auto.
  - constructor; [|constructor]. apply (ex_drives _ 1%nat 0%nat); cbn; auto.
  - constructor; [|constructor]. intros p [<-|[]] [(k & l & e & I & K & L)|(a & b & st & bd & I)]; apply inside_assign in I; [|discriminate I]. injection I as -> -> ->. now apply K.
  - intros v. split.
    + intros r x [[<-|[]]|(p & j & _ & ->)]; reflexivity.
    + intros r r' A x N1 N2. unfold upd. destruct (Nat.eqb x 0); auto.
  - reflexivity.
Qed.

(* C152: a module that reads its output: a counter.  With one stage its output counts every second cycle *)
Definition counter : module := {| m_wires := []; m_procs := [[SAssign NonBlocking (LVar 2) (EBin Add (EVar 2) (EConst 1 8 false))]] |}.
Definition ex_G8 : tenv := fun _ => {| d_width := 8; d_signed := false |}.
Theorem C152_module_reads_its_output_refuted :
  let zero := fun _ : var => 0 in let i := fun (_ : nat) (r : venv) => r in
  seen ex_G8 (during ex_G8 counter i zero 4) 2%nat = 4
  /\ seen ex_G8 (during ex_G8 (pipeline [2%nat] ex_stage 1 counter) i zero (4 + 1)) 2%nat = 2.
Proof. split; reflexivity. Qed.
Print Assumptions C18_output_delayed_by_n.
Print Assumptions C152_module_reads_its_output_refuted.
