(* C265-C272: inlining instances. *)
From Verif Require Import Base SV_spec IR IRSem_spec IR_lemmas IfCase_proofs IR_frame Flow_spec Flow_proofs Design_spec Design_proofs Dce_spec Dce_model Dce_proofs
  Fan_spec Fan_model Retarget_proofs Fan_proofs Tie_model Tie_proofs Move_spec Move_model Move_proofs Move_props Pass_spec Pass_proofs Inline_spec Inline_model Inline_proofs Inline_whole.
From Coq Require Import Permutation.
Local Open Scope Z_scope.
Local Open Scope nat_scope.

(* C265: with the conditions of Inline_spec.v, a generator whose instances have no instances of their own takes in those that are
   marked: it succeeds, the design goes through the same states as before, the dissolved ports are not used any more and no process
   is left in the instances *)
Theorem C265_inlined : forall G H inl d g, tidy G H inl d g ->
  (forall c, In c (h_gens H) -> h_parent H c = Some g -> forall c', In c' (h_gens H) -> h_parent H c' <> Some c) -> (exists c, inlined H inl g c) ->
  exists s', inline_gen H inl g (start H d) = Ok s' /\
    same_but G (fun x => exists k, dissolved H inl d g k /\ k_port k = x) d (n_design s') /\
    (forall k, dissolved H inl d g k -> (forall it, In it (n_design s') -> ~ reads (k_port k) (body_of (i_proc it)) /\ ~ touches (k_port k) (body_of (i_proc it))) /\ ~ d_event (k_port k) (n_design s')) /\
    (forall it, In it (n_design s') -> ~ inlined H inl g (i_gen it)) /\
    (forall c, In c (n_removed s') <-> inlined H inl g c) /\
    (forall x, In x (n_gone s') <-> exists k, dissolved H inl d g k /\ k_port k = x) /\
    (forall x, (inlined H inl g (h_owner H x) -> n_owner s' x = g) /\ (~ inlined H inl g (h_owner H x) -> n_owner s' x = h_owner H x)).
Proof.
  intros G H inl d g Td Lf So. destruct (inline_whole G H inl d g Td Lf So) as (s' & A & B & C & D & E & F & O). exists s'. repeat (split; [assumption|]). intros x. rewrite O.
  destruct (mem (h_owner H x) (filter inl (kids H [] g))) eqn:M.
  - apply mem_in, chosen_in in M. split; [auto|contradiction].
  - split; [|auto]. intros X. apply chosen_in, mem_in in X. congruence.
Qed.

(* a counter-like instance with a clock, an input used as a test and an output *)
Definition IG : tenv := fun _ => {| d_width := 4; d_signed := false |}.
Definition IH : hierarchy := {| h_gens := [1; 0]; h_parent := fun g => match g with 1 => Some 0 | _ => None end;
  h_vars := fun g => match g with 1 => [3; 4; 5; 6] | _ => [0; 1; 2] end; h_ports := fun g => match g with 1 => [3; 4; 5] | _ => [0; 1; 2] end;
  h_kind := fun x => match x with 0 | 2 | 3 | 5 => KIn | 1 | 4 => KOut | _ => KVar end; h_owner := fun x => if Nat.ltb x 3 then 0 else 1 |}.
Definition all1 (g : nat) : bool := Nat.eqb g 1.
Definition I1 : design :=
  [ {| i_id := 0; i_gen := 0; i_proc := PWire (LVar 3) (EVar 0) |};
    {| i_id := 1; i_gen := 0; i_proc := PWire (LVar 1) (EVar 4) |};
    {| i_id := 2; i_gen := 0; i_proc := PWire (LVar 5) (EVar 2) |};
    {| i_id := 3; i_gen := 1; i_proc := PFf [(true, 5)] [SIf (EVar 3) [SAssign NonBlocking (LVar 6) (EBin Xor (EVar 6) (EVar 3))] []] |};
    {| i_id := 4; i_gen := 1; i_proc := PComb [SAssign Blocking (LVar 4) (EBin And (EVar 6) (EVar 3))] |} ].
Definition I1' : design :=
  [ {| i_id := 3; i_gen := 0; i_proc := PFf [(true, 2)] [SIf (EVar 0) [SAssign NonBlocking (LVar 6) (EBin Xor (EVar 6) (EVar 0))] []] |};
    {| i_id := 4; i_gen := 0; i_proc := PComb [SAssign Blocking (LVar 1) (EBin And (EVar 6) (EVar 0))] |} ].
Definition K1 : list conn := [{| k_in := true; k_port := 3; k_sig := 0 |}; {| k_in := false; k_port := 4; k_sig := 1 |}; {| k_in := true; k_port := 5; k_sig := 2 |}].
Lemma K1_only : forall k, dissolved IH all1 I1 0 k -> In k K1.
Proof.
  intros [ki p s] ((c & (A & B & C) & P) & Ki & it & I & _ & E & _). cbn in A. assert (c = 1) as -> by (destruct A as [<-|[<-|[]]]; [reflexivity|discriminate B]). cbn in P, Ki, E. subst ki. clear A B C.
  destruct P as [<-|[<-|[<-|[]]]]; cbn in E; destruct I as [<-|[<-|[<-|[<-|[<-|[]]]]]]; cbn in E; try discriminate E; inversion E; subst; cbn; tauto.
Qed.
Lemma K1_end : forall x z, ends (dissolved IH all1 I1 0) x z -> match x with 3 => z = 0 | 5 => z = 2 | 4 => z = 1 | _ => z = x end \/ (x = z /\ (x = 3 \/ x = 4 \/ x = 5)).
Proof.
  intros x z [(k & Kk & <- & <-)|[_ ->]].
  - apply K1_only in Kk. cbn in Kk. destruct Kk as [<-|[<-|[<-|[]]]]; cbn; auto.
  - do 6 (destruct x as [|x]; [auto|]). auto.
Qed.
Lemma K1_is : forall k, In k K1 -> dissolved IH all1 I1 0 k.
Proof.
  assert (inlined IH all1 0 1) as A by (split; [cbn; auto|split; reflexivity]).
  intros k [<-|[<-|[<-|[]]]]; (split; [exists 1; split; [exact A|cbn; auto]|]; split; [reflexivity|]).
  - eexists. split; [left; reflexivity|]. split; [reflexivity|]. split; [reflexivity|]. intros it I _ (e & X). cbn in I. destruct I as [<-|[<-|[<-|[<-|[<-|[]]]]]]; try discriminate X; reflexivity.
  - eexists. split; [right; left; reflexivity|]. split; [reflexivity|]. split; [reflexivity|]. intros it I _ (e & X). cbn in I. destruct I as [<-|[<-|[<-|[<-|[<-|[]]]]]]; try discriminate X; reflexivity.
  - eexists. split; [right; right; left; reflexivity|]. split; [reflexivity|]. split; [reflexivity|]. intros it I _ (e & X). cbn in I. destruct I as [<-|[<-|[<-|[<-|[<-|[]]]]]]; try discriminate X; reflexivity.
Qed.
Ltac crack := repeat match goal with
  | H : False |- _ => destruct H
  | H : _ \/ _ |- _ => destruct H
  | H : touches _ _ |- _ => unfold touches in H
  | H : loops_over _ _ |- _ => unfold loops_over in H
  | H : assigns _ _ |- _ => destruct H as (? & ? & ? & ? & ?)
  | H : changes_now _ _ |- _ => unfold changes_now in H
  | H : reads _ _ |- _ => destruct H as (? & ? & ?)
  | H : exists _, _ |- _ => destruct H
  | H : _ /\ _ |- _ => destruct H
  | H : inside _ _ |- _ => apply inside_subs in H; vm_compute in H
  | H : SAssign _ _ _ = SAssign _ _ _ |- _ => inversion H; subst; clear H
  | H : SIf _ _ _ = _ |- _ => first [discriminate H | subst]
  | H : SAssign _ _ _ = _ |- _ => first [discriminate H | subst]
  | H : reads_stmt _ _ |- _ => inversion H; subst; clear H
  | H : holds _ _ |- _ => inversion H; subst; clear H
  | H : stuck _ _ |- _ => inversion H; subst; clear H
  | H : hides _ _ |- _ => inversion H; subst; clear H
  | H : elsewhere _ _ |- _ => vm_compute in H
  | H : In _ (lhs_reads _) |- _ => vm_compute in H
  | H : In _ (evars _) |- _ => vm_compute in H
  | H : root _ = _ |- _ => vm_compute in H
  end.
Ltac items H := cbn in H; destruct H as [<-|[<-|[<-|[<-|[<-|[]]]]]].
Lemma I1_tidy : tidy IG IH all1 I1 0.
Proof.
  assert (forall p, inlined_port IH all1 0 p -> p = 3 \/ p = 4 \/ p = 5) as Ip.
  { intros p (c & (A & B & C) & P). assert (c = 1) as -> by (cbn in A; destruct A as [<-|[<-|[]]]; [reflexivity|discriminate B]). cbn in P. destruct P as [<-|[<-|[<-|[]]]]; auto. }
  split.
  - cbn. repeat constructor; cbn; lia.
  - cbn. repeat constructor; cbn; lia.
  - cbn. repeat constructor; cbn; lia.
  - now left.
  - intros p it P I Eg Hk. apply Ip in P. destruct P as [->|[->| ->]]; destruct Hk as (e & X); items I; cbn in X; try discriminate X.
    + exists {| k_in := true; k_port := 3; k_sig := 0 |}. auto.
    + exists {| k_in := false; k_port := 4; k_sig := 1 |}. auto.
    + exists {| k_in := true; k_port := 5; k_sig := 2 |}. auto.
  - intros c p it (A & B & C) P I _ Hk. assert (c = 1) as -> by (cbn in A; destruct A as [<-|[<-|[]]]; [reflexivity|discriminate B]). items I; cbn; auto.
  - reflexivity.
  - intros k Kk X. apply K1_only in Kk. apply Ip in X. cbn in Kk. destruct Kk as [<-|[<-|[<-|[]]]]; cbn in X; lia.
  - intros k it Kk Q I. apply K1_only in Kk. assert (comes_to IH all1 0 {| i_id := 3; i_gen := 1; i_proc := PComb [] |}) as C by (right; split; [cbn; auto|split; reflexivity]).
    assert (forall it, In it I1 -> comes_to IH all1 0 it) as Cm by (intros it' J; items J; first [now left|right; split; [cbn; auto|split; reflexivity]]).
    split; [|split; [intros _; now apply Cm|]].
    + intros X. cbn in Kk. destruct Kk as [<-|[<-|[<-|[]]]]; try discriminate Q; items I; cbn [k_port i_proc body_of] in X; crack; cbn in *; try discriminate; auto.
    + intros s Is R. cbn in Kk. destruct Kk as [<-|[<-|[<-|[]]]]; try discriminate Q; items I; cbn [k_port i_proc body_of] in *; crack; try discriminate; try (left; reflexivity); right; intros X; crack; try discriminate.
  - intros p it s P I _ Is X. apply Ip in P. items I; cbn [i_proc body_of] in *; crack; subst; try discriminate; try congruence.
  - intros k it Kk Q I. apply K1_only in Kk. assert (forall it, In it I1 -> comes_to IH all1 0 it) as Cm by (intros it' J; items J; first [now left|right; split; [cbn; auto|split; reflexivity]]).
    cbn in Kk. destruct Kk as [<-|[<-|[<-|[]]]]; try discriminate Q. split; [|split; [|split; [intros _; now apply Cm|]]].
    + intros X. items I; cbn [k_port i_proc body_of] in X; crack; try discriminate; auto.
    + intros X. items I; cbn [k_sig i_proc body_of] in X; crack; cbn in *; try discriminate; auto.
    + intros X. items I; cbn [k_port i_proc body_of] in X; crack; try discriminate.
  - intros k Kk Q. apply K1_only in Kk. cbn in Kk. destruct Kk as [<-|[<-|[<-|[]]]]; try discriminate Q. eexists. split; [do 4 right; left; reflexivity|]. do 3 eexists. split; [apply in_here; left; reflexivity|reflexivity].
  - intros it x y z I Nw R C Ex Ey. apply K1_end in Ex, Ey.
    items I; cbn [i_proc body_of] in *.
    + exfalso. apply (Nw {| k_in := true; k_port := 3; k_sig := 0 |}); [apply K1_is; cbn; auto|reflexivity].
    + exfalso. apply (Nw {| k_in := false; k_port := 4; k_sig := 1 |}); [apply K1_is; cbn; auto|reflexivity].
    + exfalso. apply (Nw {| k_in := true; k_port := 5; k_sig := 2 |}); [apply K1_is; cbn; auto|reflexivity].
    + crack; try discriminate; try congruence.
    + crack; try discriminate; subst; cbn in *; try lia.
  - intros k Kk Q (it & I & X). apply K1_only in Kk. cbn in Kk. destruct Kk as [<-|[<-|[<-|[]]]]; try discriminate Q; items I; cbn [k_sig i_proc body_of] in X; crack; cbn in *; try discriminate.
Qed.
Example C265_ex : tidy IG IH all1 I1 0 /\ (forall c, In c (h_gens IH) -> h_parent IH c = Some 0 -> forall c', In c' (h_gens IH) -> h_parent IH c' <> Some c) /\ inlined IH all1 0 1 /\
  match inline_gen IH all1 0 (start IH I1) with Ok s => n_design s = I1' | _ => False end.
Proof.
  split; [exact I1_tidy|]. split; [|split; [split; [cbn; auto|split; reflexivity]|vm_compute; reflexivity]].
  intros c [<-|[<-|[]]] E c' [<-|[<-|[]]] X; cbn in E, X; discriminate.
Qed.

(* C266: the conditions are needed.  A register of the enclosing generator that copies a signal and is connected to an input of the
   instance is taken for a wire: the output follows the input without a clock edge *)
Definition RH : hierarchy := {| h_gens := [1; 0]; h_parent := fun g => match g with 1 => Some 0 | _ => None end;
  h_vars := fun g => match g with 1 => [4; 5] | _ => [0; 1; 2; 3] end; h_ports := fun g => match g with 1 => [4; 5] | _ => [0; 1; 2] end;
  h_kind := fun x => match x with 0 | 2 | 4 => KIn | 1 | 5 => KOut | _ => KVar end; h_owner := fun x => if Nat.ltb x 4 then 0 else 1 |}.
Definition R1 : design :=
  [ {| i_id := 0; i_gen := 0; i_proc := PFf [(true, 2)] [SAssign NonBlocking (LVar 3) (EVar 0)] |};
    {| i_id := 1; i_gen := 0; i_proc := PWire (LVar 4) (EVar 3) |};
    {| i_id := 2; i_gen := 0; i_proc := PWire (LVar 1) (EVar 5) |};
    {| i_id := 3; i_gen := 1; i_proc := PWire (LVar 5) (EVar 4) |} ].
Definition R1' : design := [ {| i_id := 0; i_gen := 0; i_proc := PFf [(true, 2)] [] |}; {| i_id := 3; i_gen := 0; i_proc := PWire (LVar 1) (EVar 0) |} ].
Lemma R1_run : match inline_gen RH all1 0 (start RH R1) with Ok s => n_design s = R1' | _ => False end.
Proof. vm_compute. reflexivity. Qed.
Lemma wire_settled : forall r x y, in_range IG r -> settled IG [ {| i_id := 0; i_gen := 0; i_proc := PFf [(true, 2)] [] |}; {| i_id := 3; i_gen := 0; i_proc := PWire (LVar y) (EVar x) |} ] r <-> r y = r x.
Proof.
  intros r x y R. split; intros A.
  - apply (wire_eq IG x y r R eq_refl). exact (A _ (or_intror (or_introl eq_refl)) eq_refl y).
  - intros it [<-|[<-|[]]] X z; [discriminate X|]. cbn [i_proc body_of]. destruct (Nat.eq_dec z y) as [->|N]; [now apply (wire_eq IG x y r R eq_refl)|]. rewrite wire_activate. destruct (Nat.eqb_spec z y); [contradiction|reflexivity].
Qed.
Theorem C266_register_refuted : exists G H inl d g s', inline_gen H inl g (start H d) = Ok s' /\
  exists h', history G (n_design s') h' /\ Forall (in_range G) h' /\
    forall h, Forall (in_range G) h -> history G d h -> ~ Forall2 (agree (fun x => In x (h_ports H g))) h h'.
Proof.
  pose proof R1_run as E. destruct (inline_gen RH all1 0 (start RH R1)) as [s'| |] eqn:Ei; [|destruct E|destruct E]. exists IG, RH, all1, R1, 0, s'. split; [exact Ei|]. rewrite E.
  set (r1 := (fun _ => 0%Z) : venv). set (r2 := (fun x => if Nat.eqb x 0 then 1%Z else if Nat.eqb x 1 then 1%Z else 0%Z) : venv).
  assert (in_range IG r1) as G1 by (intros x; unfold r1; cbn; lia). assert (in_range IG r2) as G2 by (intros x; unfold r2; destruct (Nat.eqb x 0), (Nat.eqb x 1); cbn; lia).
  exists [r2; r1]. split; [|split; [constructor; [exact G2|constructor; [exact G1|constructor]]|]].
  - apply h_next; [apply h_first; now apply (wire_settled r1 0 1)|]. split; [now apply (wire_settled r2 0 1)|]. intros x (it & [<-|[<-|[]]] & X & As); [|contradiction]. cbn [i_proc body_of] in As. crack.
  - intros h R Hh F. inversion F as [|a b l l' A1 F1]; subst. inversion F1 as [|a2 b2 l2 l2' A2 F2]; subst. inversion F2; subst. clear F F1 F2. inversion Hh as [|r r' l Hh' [S2 N]]; subst. inversion Hh' as [r S1|]; subst. inversion R as [|? ? Ra R']; subst. inversion R' as [|? ? Ra2 _]; subst.
    assert (forall r x y i gn, settled IG R1 r -> in_range IG r -> In {| i_id := i; i_gen := gn; i_proc := PWire (LVar y) (EVar x) |} R1 -> r y = r x) as W.
    { intros r x y i gn S0 Rr I. apply (wire_eq IG x y r Rr eq_refl). exact (S0 _ I eq_refl y). }
    assert (forall r, settled IG R1 r -> in_range IG r -> r 1 = r 3) as Y.
    { intros r S0 Rr. rewrite (W r 5 1 2 0 S0 Rr), (W r 4 5 3 1 S0 Rr), (W r 3 4 1 0 S0 Rr); cbn; auto. }
    pose proof (A1 1 ltac:(cbn; auto)) as B1. pose proof (A2 1 ltac:(cbn; auto)) as B2. pose proof (A1 2 ltac:(cbn; auto)) as C1. pose proof (A2 2 ltac:(cbn; auto)) as C2. unfold r1, r2 in B1, B2, C1, C2. cbn in B1, B2, C1, C2.
    specialize (N 3). rewrite (Y a S2 Ra) in B1. rewrite (Y a2 S1 Ra2) in B2.
    assert (fired IG R1 a2 a = []) as Fi. { unfold fired. cbn [R1 filter events_of i_proc existsb]. unfold edge. cbn [snd fst ev]. rewrite C1, C2. reflexivity. }
    rewrite Fi in N. cbn [flat_map fold_left] in N. rewrite N in B1; [rewrite B2 in B1; discriminate B1|]. exists {| i_id := 0; i_gen := 0; i_proc := PFf [(true, 2)] [SAssign NonBlocking (LVar 3) (EVar 0)] |}. split; [now left|]. split; [discriminate|].
    exists NonBlocking, (LVar 3), (EVar 0). split; [apply in_here; now left|reflexivity].
Qed.
Example C266_ex : match inline_gen RH all1 0 (start RH R1) with Ok s => n_gone s = [4; 5; 3] /\ n_design s = R1' | _ => False end.
Proof. vm_compute. split; reflexivity. Qed.

(* C267: what an instance computes from its own output is lost *)
Definition OH : hierarchy := {| h_gens := [1; 0]; h_parent := fun g => match g with 1 => Some 0 | _ => None end;
  h_vars := fun g => match g with 1 => [3; 4; 5; 6] | _ => [0; 1; 2] end; h_ports := fun g => match g with 1 => [3; 4; 5] | _ => [0; 1; 2] end;
  h_kind := fun x => match x with 0 | 3 => KIn | 1 | 2 | 4 | 5 => KOut | _ => KVar end; h_owner := fun x => if Nat.ltb x 3 then 0 else 1 |}.
Definition O1 : design :=
  [ {| i_id := 0; i_gen := 0; i_proc := PWire (LVar 3) (EVar 0) |};
    {| i_id := 1; i_gen := 0; i_proc := PWire (LVar 1) (EVar 4) |};
    {| i_id := 2; i_gen := 0; i_proc := PWire (LVar 2) (EVar 5) |};
    {| i_id := 3; i_gen := 1; i_proc := PWire (LVar 4) (EUn UInvert (EVar 3)) |};
    {| i_id := 4; i_gen := 1; i_proc := PWire (LVar 5) (EVar 6) |};
    {| i_id := 5; i_gen := 1; i_proc := PWire (LVar 6) (EBin And (EVar 4) (EVar 3)) |} ].
Theorem C267_own_output_refuted : exists H inl d g s' x, inline_gen H inl g (start H d) = Ok s' /\ d_assigns x d /\ d_reads x (n_design s') /\ ~ d_assigns x (n_design s') /\ ~ In x (n_gone s').
Proof.
  destruct (inline_gen OH all1 0 (start OH O1)) as [s'| |] eqn:E; [|vm_compute in E; discriminate E|vm_compute in E; discriminate E]. exists OH, all1, O1, 0, s', 6. split; [exact E|]. vm_compute in E. injection E as <-.
  cbn [n_design n_gone]. split; [|split; [|split]].
  - eexists. split; [do 5 right; left; reflexivity|]. do 3 eexists. split; [apply in_here; left; reflexivity|reflexivity].
  - eexists. split; [right; left; reflexivity|]. eexists. split; [apply in_here; left; reflexivity|]. apply rd_assign. right. now left.
  - intros (it & I & X). cbn in I. destruct I as [<-|[<-|[]]]; cbn [i_proc body_of] in X; crack; cbn in *; discriminate.
  - cbn. lia.
Qed.
Example C267_ex : match inline_gen OH all1 0 (start OH O1) with Ok s => map i_id (n_design s) = [3; 4] | _ => False end.
Proof. vm_compute. reflexivity. Qed.

(* C268: the order in which the generators are visited is not fixed (the visits go to a pool of threads), and the result depends on it *)
Definition NH : hierarchy := {| h_gens := [2; 1; 0]; h_parent := fun g => match g with 2 => Some 1 | 1 => Some 0 | _ => None end;
  h_vars := fun _ => []; h_ports := fun _ => []; h_kind := fun _ => KVar; h_owner := fun _ => 0 |}.
Theorem C268_order_refuted : exists H inl d gs gs' s s', Permutation gs (h_gens H) /\ Permutation gs' (h_gens H) /\
  inline_all H inl gs (start H d) = Ok s /\ inline_all H inl gs' (start H d) = Ok s' /\ n_removed s <> n_removed s' /\ (exists c, In c (n_removed s) /\ ~ In c (n_removed s')).
Proof.
  destruct (inline_all NH (fun _ => true) [2; 1; 0] (start NH [])) as [s| |] eqn:E; [|vm_compute in E; discriminate E|vm_compute in E; discriminate E].
  destruct (inline_all NH (fun _ => true) [0; 1; 2] (start NH [])) as [s'| |] eqn:E'; [|vm_compute in E'; discriminate E'|vm_compute in E'; discriminate E'].
  exists NH, (fun _ => true), [], [2; 1; 0], [0; 1; 2], s, s'. split; [reflexivity|]. split; [apply (Permutation_rev [0; 1; 2])|]. split; [exact E|]. split; [exact E'|]. vm_compute in E, E'. injection E as <-. injection E' as <-. cbn [n_removed].
  split; [discriminate|]. exists 1. split; cbn; [tauto|lia].
Qed.
Example C268_ex : match inline_all NH (fun _ => true) [2; 1; 0] (start NH []) with Ok s => n_removed s = [2; 1] | _ => False end /\ match inline_all NH (fun _ => true) [0; 1; 2] (start NH []) with Ok s => n_removed s = [2] | _ => False end.
Proof. split; vm_compute; reflexivity. Qed.

(* C269: a removed port may still be named: uses that do not move (C176), here a test of a slice of it *)
Definition S1 : design :=
  [ {| i_id := 0; i_gen := 0; i_proc := PWire (LVar 3) (EVar 0) |};
    {| i_id := 1; i_gen := 0; i_proc := PWire (LVar 1) (EVar 4) |};
    {| i_id := 4; i_gen := 1; i_proc := PComb [SIf (ESlice (EVar 3) 1 0) [SAssign Blocking (LVar 4) (EVar 3)] [SAssign Blocking (LVar 4) (EConst 0 4 false)]] |} ].
Theorem C269_left_refuted : exists H inl d g s' x, inline_gen H inl g (start H d) = Ok s' /\ In x (n_gone s') /\ d_reads x (n_design s') /\ ~ d_assigns x (n_design s').
Proof.
  destruct (inline_gen IH all1 0 (start IH S1)) as [s'| |] eqn:E; [|vm_compute in E; discriminate E|vm_compute in E; discriminate E]. exists IH, all1, S1, 0, s', 3. split; [exact E|]. vm_compute in E. injection E as <-.
  cbn [n_design n_gone]. split; [cbn; tauto|]. split.
  - eexists. split; [left; reflexivity|]. eexists. split; [apply in_here; left; reflexivity|]. apply rd_if. now left.
  - intros (it & I & X). cbn in I. destruct I as [<-|[]]; cbn [i_proc body_of] in X; crack; cbn in *; discriminate.
Qed.
Example C269_ex : match inline_gen IH all1 0 (start IH S1) with Ok s => n_design s =
  [ {| i_id := 4; i_gen := 0; i_proc := PComb [SIf (ESlice (EVar 3) 1 0) [SAssign Blocking (LVar 1) (EVar 0)] [SAssign Blocking (LVar 1) (EConst 0 4 false)]] |} ] | _ => False end.
Proof. vm_compute. reflexivity. Qed.

(* C270: two inputs connected to one signal that copies another: the signal is looked at after it is removed.  An output that
   nothing drives: the statement that is looked at is gone *)
Definition TH : hierarchy := {| h_gens := [1; 0]; h_parent := fun g => match g with 1 => Some 0 | _ => None end;
  h_vars := fun g => match g with 1 => [3; 4; 5] | _ => [0; 1; 2] end; h_ports := fun g => match g with 1 => [3; 4; 5] | _ => [0; 1] end;
  h_kind := fun x => match x with 0 | 3 | 4 => KIn | 1 | 5 => KOut | _ => KVar end; h_owner := fun x => if Nat.ltb x 3 then 0 else 1 |}.
Definition U1 : design :=
  [ {| i_id := 0; i_gen := 0; i_proc := PWire (LVar 2) (EVar 0) |};
    {| i_id := 1; i_gen := 0; i_proc := PWire (LVar 3) (EVar 2) |};
    {| i_id := 2; i_gen := 0; i_proc := PWire (LVar 4) (EVar 2) |};
    {| i_id := 3; i_gen := 0; i_proc := PWire (LVar 1) (EVar 5) |};
    {| i_id := 4; i_gen := 1; i_proc := PWire (LVar 5) (EBin Add (EVar 3) (EVar 4)) |} ].
Definition U2 : design := [ {| i_id := 3; i_gen := 0; i_proc := PWire (LVar 1) (EVar 5) |} ].
Theorem C270_freed_refuted : (exists H inl d g, (forall p, inlined_port H inl g p -> d_reads p d /\ d_assigns p d) /\ inline_gen H inl g (start H d) = UB) /\
  (exists H inl d g p, inlined_port H inl g p /\ d_reads p d /\ ~ d_assigns p d /\ inline_gen H inl g (start H d) = UB).
Proof.
  assert (forall d x y i gn e, In {| i_id := i; i_gen := gn; i_proc := PWire (LVar y) e |} d -> In x (evars e) -> d_reads x d /\ d_assigns y d) as W.
  { intros d x y i gn e I J. split; (eexists; split; [exact I|]); [eexists; split; [apply in_here; left; reflexivity|apply rd_assign; now right]|]. do 3 eexists. split; [apply in_here; left; reflexivity|reflexivity]. }
  split.
  - exists TH, all1, U1, 0. split; [|vm_compute; reflexivity]. intros p (c & (A & B & _) & P). assert (c = 1) as -> by (cbn in A; destruct A as [<-|[<-|[]]]; [reflexivity|discriminate B]).
    cbn in P. destruct P as [<-|[<-|[<-|[]]]].
    + split; [apply (W U1 3 5 4 1 (EBin Add (EVar 3) (EVar 4))); cbn; auto 8|apply (W U1 2 3 1 0 (EVar 2)); cbn; auto 8].
    + split; [apply (W U1 4 5 4 1 (EBin Add (EVar 3) (EVar 4))); cbn; auto 8|apply (W U1 2 4 2 0 (EVar 2)); cbn; auto 8].
    + split; [apply (W U1 5 1 3 0 (EVar 5)); cbn; auto 8|apply (W U1 4 5 4 1 (EBin Add (EVar 3) (EVar 4))); cbn; auto 8].
  - exists TH, all1, U2, 0, 5. split; [exists 1; split; [split; [cbn; auto|split; reflexivity]|cbn; auto]|]. split; [apply (W U2 5 1 3 0 (EVar 5)); cbn; auto|]. split; [|vm_compute; reflexivity].
    intros (it & [<-|[]] & X). cbn [i_proc body_of] in X. crack. cbn in *. discriminate.
Qed.
Example C270_ex : inline_gen TH all1 0 (start TH (tl U1)) <> UB /\ inline_gen TH all1 0 (start TH U1) = UB /\ inline_gen TH all1 0 (start TH U2) = UB.
Proof. split; [vm_compute; discriminate|]. split; vm_compute; reflexivity. Qed.

(* C271: an input connected to the output of an instance that stays: the output is looked at as if it were a signal of the generator *)
Definition XH : hierarchy := {| h_gens := [2; 1; 0]; h_parent := fun g => match g with 1 | 2 => Some 0 | _ => None end;
  h_vars := fun g => match g with 1 => [2; 3] | 2 => [4; 5] | _ => [0; 1] end; h_ports := fun g => match g with 1 => [2; 3] | 2 => [4; 5] | _ => [0; 1] end;
  h_kind := fun x => match x with 0 | 2 | 4 => KIn | _ => KOut end; h_owner := fun x => if Nat.ltb x 2 then 0 else if Nat.ltb x 4 then 1 else 2 |}.
Definition X1 : design :=
  [ {| i_id := 0; i_gen := 0; i_proc := PWire (LVar 4) (EVar 0) |};
    {| i_id := 1; i_gen := 0; i_proc := PWire (LVar 2) (EVar 5) |};
    {| i_id := 2; i_gen := 0; i_proc := PWire (LVar 1) (EVar 3) |};
    {| i_id := 3; i_gen := 1; i_proc := PWire (LVar 3) (EUn UInvert (EVar 2)) |};
    {| i_id := 4; i_gen := 2; i_proc := PWire (LVar 5) (EVar 4) |} ].
Theorem C271_instance_refuted : exists H inl d g, (exists c, inlined H inl g c) /\ (forall p, inlined_port H inl g p -> d_reads p d /\ d_assigns p d) /\ NoDup (map i_id d) /\ inline_gen H inl g (start H d) = Throw.
Proof.
  assert (forall d x y i gn e, In {| i_id := i; i_gen := gn; i_proc := PWire (LVar y) e |} d -> In x (evars e) -> d_reads x d /\ d_assigns y d) as W.
  { intros d x y i gn e I J. split; (eexists; split; [exact I|]); [eexists; split; [apply in_here; left; reflexivity|apply rd_assign; now right]|]. do 3 eexists. split; [apply in_here; left; reflexivity|reflexivity]. }
  exists XH, all1, X1, 0. split; [exists 1; split; [cbn; auto|split; reflexivity]|]. split; [|split; [cbn; repeat constructor; cbn; lia|vm_compute; reflexivity]].
  intros p (c & (A & B & C) & P). assert (c = 1) as -> by (cbn in A; destruct A as [<-|[<-|[<-|[]]]]; [discriminate C|reflexivity|discriminate B]). cbn in P. destruct P as [<-|[<-|[]]].
  - split; [apply (W X1 2 3 3 1 (EUn UInvert (EVar 2))); cbn; auto 8|apply (W X1 5 2 1 0 (EVar 5)); cbn; auto 8].
  - split; [apply (W X1 3 1 2 0 (EVar 3)); cbn; auto 8|apply (W X1 2 3 3 1 (EUn UInvert (EVar 2))); cbn; auto 8].
Qed.
Example C271_ex : inline_gen XH (fun c => Nat.eqb c 1 || Nat.eqb c 2) 0 (start XH X1) <> Throw.
Proof. vm_compute. discriminate. Qed.

(* C272: the variables of an instance keep their names, with the name of the instance in front where the generator has the name
   already, when no name of either begins like that; then each variable has a name of its own *)
Local Open Scope string_scope.
Lemma has_name_in : forall n l, has_name n l = true <-> In n l.
Proof. intros n l. unfold has_name. rewrite existsb_exists. split; [intros (x & I & E); apply String.eqb_eq in E; now subst|intros I; exists n; split; [exact I|apply String.eqb_refl]]. Qed.
Lemma append_inj : forall p a b : string, p ++ a = p ++ b -> a = b.
Proof. induction p as [|c p IHp]; intros a b E; [exact E|]. cbn in E. injection E as E. now apply IHp. Qed.
Definition taken (prefix : string) (parent : list string) (n : string) : string := if has_name n parent then prefix ++ "_" ++ n else n.
Lemma taken_inj : forall prefix parent n n', (forall t, n <> prefix ++ "_" ++ t) -> (forall t, n' <> prefix ++ "_" ++ t) -> taken prefix parent n = taken prefix parent n' -> n = n'.
Proof.
  intros prefix parent n n' A B E. unfold taken in E. destruct (has_name n parent), (has_name n' parent); auto.
  - apply append_inj in E. cbn in E. now injection E.
  - exfalso. exact (B n (eq_sym E)).
  - exfalso. exact (A n' E).
Qed.
Theorem C272_names : forall child prefix l parent, (forall n, In n (map fst l) -> In n child) -> NoDup (map fst l) ->
  (forall n t, In n child \/ In n (map fst parent) -> n <> prefix ++ "_" ++ t) ->
  exists r, transfer_names child prefix l parent = Some r /\
    r = (parent ++ map (fun v => (if has_name (fst v) (map fst parent) then (prefix ++ "_" ++ fst v)%string else fst v, snd v)) l)%list /\ (NoDup (map fst parent) -> NoDup (map fst r)).
Proof.
  intros child prefix l parent Ic N F. eexists. split; [|split; [reflexivity|]].
  - assert (forall done rest, (done ++ rest)%list = l -> transfer_names child prefix rest (parent ++ map (fun v => (taken prefix (map fst parent) (fst v), snd v)) done) = Some (parent ++ map (fun v => (taken prefix (map fst parent) (fst v), snd v)) l)%list) as A.
    { intros done rest. revert done. induction rest as [|[n x] rest IHr]; intros done E; [rewrite app_nil_r in E; now subst|]. cbn [transfer_names].
      assert (In n (map fst l)) as In_ by (rewrite <- E, map_app; apply in_or_app; right; now left). pose proof (fun t => F n t (or_introl (Ic n In_))) as Fn.
      assert (forall v, In v done -> fst v <> n) as Nd. { intros v I X. rewrite <- E, map_app in N. cbn in N. apply NoDup_remove_2 in N. apply N, in_or_app. left. rewrite <- X. now apply in_map. }
      assert (forall v, In v done -> forall t, fst v <> prefix ++ "_" ++ t) as Fd. { intros v I t. apply F. left. apply Ic. rewrite <- E, map_app. apply in_or_app. left. now apply in_map. }
      set (cur := (parent ++ map (fun v => (taken prefix (map fst parent) (fst v), snd v)) done)%list).
      assert (has_name n (map fst cur) = has_name n (map fst parent)) as Eh.
      { apply Bool.eq_iff_eq_true. rewrite !has_name_in. unfold cur. rewrite map_app, in_app_iff, map_map. cbn [fst]. split; [|auto]. intros [X|X]; [exact X|]. exfalso. apply in_map_iff in X. destruct X as (v & X & I).
        unfold taken in X. destruct (has_name (fst v) (map fst parent)); [exact (Fn _ (eq_sym X))|exact (Nd v I X)]. }
      assert (new_name child (map fst cur) prefix n = Some (taken prefix (map fst parent) n)) as ->.
      { unfold new_name. rewrite Eh. unfold taken. destruct (has_name n (map fst parent)) eqn:Hn; [|reflexivity]. unfold unique_name. cbv zeta. destruct (has_name (prefix ++ "_" ++ n) child) eqn:Hc; [|reflexivity].
        exfalso. apply has_name_in in Hc. exact (F _ n (or_introl Hc) eq_refl). }
      assert (has_name (taken prefix (map fst parent) n) (map fst cur) = false) as ->.
      { destruct (has_name (taken prefix (map fst parent) n) (map fst cur)) eqn:X; [|reflexivity]. exfalso. apply has_name_in in X. unfold cur in X. rewrite map_app, in_app_iff, map_map in X. cbn [fst] in X. destruct X as [X|X].
        - unfold taken in X. destruct (has_name n (map fst parent)) eqn:Hn; [exact (F _ n (or_intror X) eq_refl)|]. apply has_name_in in X. congruence.
        - apply in_map_iff in X. destruct X as (v & X & I). apply (Nd v I). exact (taken_inj prefix (map fst parent) (fst v) n (Fd v I) Fn X). }
      replace (cur ++ [(taken prefix (map fst parent) n, x)])%list with (parent ++ map (fun v => (taken prefix (map fst parent) (fst v), snd v)) (done ++ [(n, x)]))%list by (unfold cur; rewrite map_app, <- app_assoc; reflexivity).
      apply IHr. rewrite <- E, <- app_assoc. reflexivity. }
    specialize (A [] l eq_refl). cbn [map] in A. rewrite app_nil_r in A. exact A.
  - intros Np. rewrite map_app, map_map. cbn [fst]. fold (taken prefix (map fst parent)).
    assert (forall (a b : list string), NoDup a -> NoDup b -> (forall x, In x a -> ~ In x b) -> NoDup (a ++ b)%list) as App.
    { clear. intros a b Na Nb D. induction Na as [|x a X _ IHa]; [exact Nb|]. cbn. constructor; [|apply IHa; intros y I; apply D; now right]. rewrite in_app_iff. intros [Y|Y]; [contradiction|]. apply (D x); [now left|exact Y]. }
    apply App; [exact Np| |].
    + assert (forall n, In n (map fst l) -> forall t, n <> prefix ++ "_" ++ t) as Fl by (intros n I t; apply F; left; now apply Ic). clear - N Fl. induction l as [|[n x] l IHl]; [constructor|]. cbn [map fst] in *. inversion N as [|? ? N1 N2]; subst. constructor; [|apply IHl; [exact N2|intros; apply Fl; now right]].
      intros X. apply in_map_iff in X. destruct X as (v & X & I). apply N1. assert (fst v = n) as <-; [|now apply in_map]. refine (taken_inj prefix (map fst parent) (fst v) n _ _ X); apply Fl; [right; now apply in_map|now left].
    + intros y I X. apply in_map_iff in X. destruct X as (v & X & J). fold (taken prefix (map fst parent) (fst v)) in X. unfold taken in X. destruct (has_name (fst v) (map fst parent)) eqn:Hn; [exact (F y (fst v) (or_intror I) (eq_sym X))|]. subst y. apply has_name_in in I. congruence.
Qed.
Example C272_ex : transfer_names ["a"; "b"] "inst" [("a", 5); ("b", 6)] [("a", 1); ("c", 2)] = Some [("a", 1); ("c", 2); ("inst_a", 5); ("b", 6)] /\
  (forall n t, In n ["a"; "b"] \/ In n ["a"; "c"] -> n <> "inst" ++ "_" ++ t).
Proof. split; [vm_compute; reflexivity|]. intros n t [I|I] E; cbn in I; destruct I as [<-|[<-|[]]]; discriminate E. Qed.

(* C273: without that condition a variable of the instance can be lost to one of the generator: the name in front is compared with
   the names of the instance, not with those of the generator *)
Theorem C273_clash_refuted : exists child prefix l parent r x, (forall n, In n (map fst l) -> In n child) /\ NoDup (map fst l) /\ NoDup (map fst parent) /\
  transfer_names child prefix l parent = Some r /\ In x (map snd l) /\ ~ In x (map snd r) /\ r = parent.
Proof.
  exists ["a"], "inst", [("a", 5)], [("a", 1); ("inst_a", 2)], [("a", 1); ("inst_a", 2)], 5. split; [auto|]. split; [repeat constructor; cbn; tauto|].
  split; [repeat constructor; cbn; intuition discriminate|]. split; [vm_compute; reflexivity|]. cbn. split; [now left|]. split; [lia|reflexivity].
Qed.
Example C273_ex : transfer_names ["a"; "inst_a"] "inst" [("a", 5); ("inst_a", 6)] [("a", 1)] = Some [("a", 1); ("inst_a_0", 5); ("inst_a", 6)].
Proof. vm_compute. reflexivity. Qed.
Print Assumptions C265_inlined.
Print Assumptions C266_register_refuted.
Print Assumptions C267_own_output_refuted.
Print Assumptions C268_order_refuted.
Print Assumptions C269_left_refuted.
Print Assumptions C270_freed_refuted.
Print Assumptions C271_instance_refuted.
Print Assumptions C272_names.
Print Assumptions C273_clash_refuted.
