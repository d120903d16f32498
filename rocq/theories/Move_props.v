(* C175-C177: moving the uses of a signal to another one. *)
From Verif Require Import Base SV_spec IR IRSem_spec IR_lemmas IfCase_proofs Design_spec Dce_spec Dce_model Design_proofs Dce_proofs Dce_props Fan_spec Fan_model Retarget_proofs Fan_proofs Fan_props
  Tie_props Move_spec Move_model Move_proofs.
Local Open Scope Z_scope.

(* statement s is in a process of generator g *)
Definition inside_gen (d : design) (g : nat) (s : stmt) : Prop := exists it, In it d /\ i_gen it = g /\ inside s (body_of (i_proc it)).
(* the assignment that keeps the two signals connected *)
Definition kept (keep : bool) (d : design) (g : nat) (a b : var) : design := if keep then [give (fresh d) g b (EVar a)] else [].
Lemma body_stmts : forall s l, In s (collect_body (fun s => [s]) l) <-> inside s l.
Proof. intros s l. rewrite collect_in. split; [intros (s0 & I & [<-|[]]); exact I|]. intros I. exists s. split; [exact I|now left]. Qed.
Lemma throws_when : forall a b g d,
  existsb (fun it => Nat.eqb (i_gen it) g && existsb (fails a b) (collect_body (fun s => [s]) (body_of (i_proc it)))) d = true <-> exists s, inside_gen d g s /\ stuck a s.
Proof.
  intros a b g d. rewrite existsb_exists. split.
  - intros (it & I & X). apply andb_prop in X. destruct X as [Eg X]. apply Nat.eqb_eq in Eg. apply existsb_exists in X. destruct X as (s & Is & F). apply body_stmts in Is.
    apply fails_iff in F. exists s. split; [exists it; auto|exact F].
  - intros (s & (it & I & Eg & Is) & F). exists it. split; [exact I|]. rewrite Eg, Nat.eqb_refl. apply existsb_exists. exists s. split; [now apply body_stmts|now apply fails_iff].
Qed.
Lemma moved_design : forall a b g keep d d', move_sinks a b g keep d = Ok d' -> d' = (map (move_item a b g) d ++ kept keep d g a b)%list /\ forall s, inside_gen d g s -> ~ stuck a s.
Proof.
  intros a b g keep d d' M. unfold move_sinks in M. match type of M with (if ?c then _ else _) = _ => destruct c eqn:X end; [discriminate|]. injection M as <-. split.
  - unfold kept. destruct keep; [reflexivity|now rewrite app_nil_r].
  - intros s I St. assert (exists s, inside_gen d g s /\ stuck a s) as Y by eauto. apply (throws_when a b g d) in Y. rewrite Y in X. discriminate.
Qed.

(* C175: every use moves, in every process of the generator, and nothing else changes *)
Theorem C175_moves : forall a b g keep d, a <> b -> (forall s, inside_gen d g s -> ~ holds a s /\ ~ stuck a s) ->
  exists d', move_sinks a b g keep d = Ok (d' ++ kept keep d g a b)%list /\
             Forall2 (fun it it' => (i_gen it = g -> moved a b it it') /\ (i_gen it <> g -> it' = it)) d d'.
Proof.
  intros a b g keep d Hab Hs. exists (map (move_item a b g) d). split.
  - unfold move_sinks. match goal with |- (if ?c then _ else _) = _ => destruct c eqn:X end.
    + apply throws_when in X. destruct X as (s & I & St). exfalso. apply (Hs s I). exact St.
    + unfold kept. destruct keep; [reflexivity|now rewrite app_nil_r].
  - assert (forall it, In it d -> forall s, i_gen it = g -> inside s (body_of (i_proc it)) -> ~ holds a s /\ ~ stuck a s) as K by (intros it I s E Is; apply Hs; exists it; auto).
    clear Hs. induction d as [|it r IH]; cbn [map]; constructor; [|apply IH; intros; eapply K; eauto; now right]. split.
    + intros E. apply move_item_moved; auto. intros s Is _. apply (K it); auto. now left.
    + intros N. unfold move_item. destruct (Nat.eqb_spec (i_gen it) g); [contradiction|reflexivity].
Qed.
(* exactly the uses named in [holds] stay *)
Theorem C175_stays : forall a b g keep d d', a <> b -> move_sinks a b g keep d = Ok d' -> exists d1, d' = (d1 ++ kept keep d g a b)%list /\
  Forall2 (fun it it' => i_id it' = i_id it /\ (i_gen it = g -> (reads a (body_of (i_proc it')) <-> exists s, inside s (body_of (i_proc it)) /\ holds a s))) d d1.
Proof.
  intros a b g keep d d' Hab M. destruct (moved_design _ _ _ _ _ _ M) as [-> Ns]. eexists. split; [reflexivity|].
  assert (forall it, In it d -> forall s, i_gen it = g -> inside s (body_of (i_proc it)) -> ~ stuck a s) as K by (intros it I s E Is; apply Ns; exists it; auto).
  clear M Ns. induction d as [|it r IH]; cbn [map]; constructor; [|apply IH; intros; eapply K; eauto; now right]. unfold move_item. split; [now destruct (Nat.eqb (i_gen it) g)|].
  intros E. rewrite E, Nat.eqb_refl. cbn [i_proc]. rewrite move_body. split.
  - intros (s & I & R). apply ms_inside in I. destruct I as (s0 & I & ->). exists s0. split; [exact I|]. apply (stmt_stays a b Hab s0); [apply (K it); auto; now left|exact R].
  - intros (s & I & Hh). exists (move_stmt a b s). split; [now apply inside_ms|]. apply (stmt_stays a b Hab s); [apply (K it); auto; now left|exact Hh].
Qed.
(* and the exception is thrown exactly if a use is not found *)
Theorem C175_throws : forall a b g keep d, (move_sinks a b g keep d = Throw <-> exists s, inside_gen d g s /\ stuck a s) /\ move_sinks a b g keep d <> UB.
Proof.
  intros a b g keep d. rewrite <- (throws_when a b). unfold move_sinks. match goal with |- ((if ?c then _ else _) = _ <-> _) /\ _ => destruct c end.
  - split; [tauto|discriminate].
  - split; [split; discriminate|destruct keep; discriminate].
Qed.
(* with the assignment kept, the design can do what it could do before, whatever moved *)
Theorem C175_same_histories : forall G a b g d d', a <> b -> G a = G b ->
  (forall it, In it d -> i_gen it = g -> reads a (body_of (i_proc it)) -> ~ changes_now a (body_of (i_proc it)) /\ ~ changes_now b (body_of (i_proc it))) ->
  move_sinks a b g true d = Ok d' ->
  forall h, Forall (in_range G) h -> history G (d ++ [give (fresh d) g b (EVar a)]) h <-> history G d' h.
Proof.
  intros G a b g d d' Hab HG St M h R. destruct (moved_design _ _ _ _ _ _ M) as [-> _]. cbn [kept].
  assert (forall d0 r, In (give (fresh d) g b (EVar a)) d0 -> in_range G r -> settled G d0 r -> r a = r b) as W.
  { intros d0 r I Rr S0. symmetry. apply (proj1 (wire_eq G a b r Rr HG)). exact (S0 _ I eq_refl b). }
  apply (alike_history G (fun r => r a = r b)); [|intros r; apply W; apply in_or_app; right; now left|intros r; apply W; apply in_or_app; right; now left|exact R].
  apply Forall2_app; [|repeat constructor; tauto].
  clear M W R. induction d as [|it r IH]; cbn [map]; constructor; [|apply IH; intros; apply St; auto; now right]. unfold move_item. destruct (Nat.eqb_spec (i_gen it) g) as [Eg|]; [|constructor; tauto].
  constructor; cbn [i_proc].
  - apply move_events.
  - intros x. rewrite move_body. apply ms_assigns.
  - intros s Es. rewrite move_body. destruct (in_dec Nat.eq_dec a (collect_body stmt_sinks (body_of (i_proc it)))) as [I|N].
    + assert (reads a (body_of (i_proc it))) as Ra by (apply collect_in in I; destruct I as (s0 & I0 & S0); exists s0; split; [exact I0|now apply reads_sinks]).
      apply ms_run; [exact HG|exact (St it (or_introl eq_refl) Eg Ra)|exact Es].
    + rewrite ms_none_body; [reflexivity|]. intros (s0 & I0 & R0). apply N. apply collect_in. exists s0. split; [exact I0|now apply reads_sinks].
Qed.

(* examples: a wire, a register and a case on an expression of signal 0 move to signal 9 *)
Definition M1 : design := [
  give 0 1 1 (EBin Add (ESlice (EVar 0) 3 0) (EVar 2));
  {| i_id := 1; i_gen := 1; i_proc := PFf [(true, 5)] [SIf (EUn UInvert (EVar 0)) [SAssign NonBlocking (LVar 0) (EConcat (EVar 2) (EVar 0))] []] |};
  {| i_id := 2; i_gen := 1; i_proc := PComb [SSwitch (EBin Add (EVar 0) (EVar 3)) [(0%Z, [SAssign Blocking (LVar 6) (EVar 0)])] None] |};
  give 3 2 4 (EVar 0)]%nat.
Definition M1' : design := [
  give 0 1 1 (EBin Add (ESlice (EVar 9) 3 0) (EVar 2));
  {| i_id := 1; i_gen := 1; i_proc := PFf [(true, 5)] [SIf (EUn UInvert (EVar 9)) [SAssign NonBlocking (LVar 0) (EConcat (EVar 2) (EVar 9))] []] |};
  {| i_id := 2; i_gen := 1; i_proc := PComb [SSwitch (EBin Add (EVar 9) (EVar 3)) [(0%Z, [SAssign Blocking (LVar 6) (EVar 9)])] None] |};
  give 3 2 4 (EVar 0); give 4 1 9 (EVar 0)]%nat.
Lemma M1_stmts : forall s, inside_gen M1 1 s -> In s (collect_body (fun s => [s]) (flat_map (fun it => body_of (i_proc it)) (firstn 3 M1))).
Proof.
  intros s (it & I & Eg & Is). apply inside_collect in Is. cbn in I. destruct I as [<-|[<-|[<-|[<-|[]]]]]; try discriminate Eg; vm_compute in Is |- *; tauto.
Qed.
Lemma concat_hides : forall x y, x <> 0%nat -> ~ hides 0%nat (EConcat (EVar x) (EVar y)).
Proof.
  intros x y Nx Hh. inversion Hh as [| | | | | | | | | |? ? p I R N|? ? l1 l2 l3 E|? ? p I X]; subst.
  - cbn in I. destruct I as [<-|[<-|[]]]; cbn in R; congruence.
  - cbn in E. destruct l1 as [|z l1]; cbn in E; [congruence|]. injection E as _ E. destruct l1 as [|z1 l1]; cbn in E.
    + injection E as _ E. now destruct l2.
    + injection E as _ E. now destruct l1.
  - cbn in I. destruct I as [<-|[<-|[]]]; inversion X.
Qed.
Example C175_ex : (forall s, inside_gen M1 1%nat s -> ~ holds 0%nat s /\ ~ stuck 0%nat s) /\ move_sinks 0%nat 9%nat 1%nat true M1 = Ok M1' /\
  (forall it, In it M1 -> i_gen it = 1%nat -> ~ changes_now 0%nat (body_of (i_proc it)) /\ ~ changes_now 9%nat (body_of (i_proc it))) /\
  (exists it, In it M1 /\ i_gen it = 1%nat /\ reads 0%nat (body_of (i_proc it)) /\ assigns 0%nat (body_of (i_proc it))).
Proof.
  split; [|split; [reflexivity|split]].
  - intros s I. apply M1_stmts in I. vm_compute in I. cases; subst s.
    all: split; intros X; inversion X; subst; clear X; repeat match goal with
      | H : _ \/ _ |- _ => destruct H
      | H : hides _ (EConcat _ _) |- _ => now apply concat_hides in H
      | H : hides _ _ |- _ => inversion H; subst; clear H
      | H : In _ _ |- _ => vm_compute in H
      | H : elsewhere _ _ |- _ => vm_compute in H
      end; try discriminate; try congruence; try contradiction; auto.
  - intros it I Eg. cbn in I. destruct I as [<-|[<-|[<-|[<-|[]]]]]; try discriminate Eg.
    all: split; (intros [(k & l & e & J & N & V)|(u & v & st & bd & J)]; apply inside_collect in J; vm_compute in J; cases; try discriminate J; injection J as <- <- <-; try (now apply N); discriminate V).
  - exists (nth 1 M1 (give 0 0 0%nat one)). split; [right; now left|]. split; [reflexivity|]. split.
    + eexists. split; [apply in_here; now left|]. constructor. now left.
    + exists NonBlocking, (LVar 0%nat). eexists. split; [|reflexivity]. eapply in_then; [now left|]. apply in_here. now left.
Qed.

(* C176: these uses stay *)
Definition all_moved (a b : var) (g : nat) (d d' : design) : Prop := forall it, In it d' -> i_gen it = g -> ~ reads a (body_of (i_proc it)).
Lemma stays_by : forall a b g d d' it s, move_sinks a b g false d = Ok d' -> In it d' -> i_gen it = g -> In s (body_of (i_proc it)) -> In a (stmt_sinks s) -> ~ all_moved a b g d d'.
Proof. intros a b g d d' it s _ I Eg Is J A. apply (A it I Eg). exists s. split; [now apply in_here|]. now apply reads_sinks. Qed.
Theorem C176_extension_refuted : ~ forall a b g d d', a <> b -> (forall it, In it d -> exists x w, i_proc it = PWire (LVar x) (EExtend (EVar a) w)) -> move_sinks a b g false d = Ok d' -> all_moved a b g d d'.
Proof.
  intros C. assert (move_sinks 0%nat 9%nat 1%nat false [give 0 1 1 (EExtend (EVar 0) 8)]%nat = Ok [give 0 1 1 (EExtend (EVar 0) 8)]%nat) as M by reflexivity.
  refine (stays_by _ _ _ _ _ _ _ M (or_introl eq_refl) eq_refl (or_introl eq_refl) _ (C _ _ _ _ _ _ _ M)); [now left|lia|].
  intros it [<-|[]]. eexists. eexists. reflexivity.
Qed.
Theorem C176_concatenation_refuted : ~ forall a b g d d', a <> b -> (forall it, In it d -> exists x y z, i_proc it = PWire (LVar x) (EConcat (EVar y) (EVar z))) -> move_sinks a b g false d = Ok d' -> all_moved a b g d d'.
Proof.
  intros C. assert (move_sinks 0%nat 9%nat 1%nat false [give 0 1 1 (EConcat (EVar 0) (EVar 0))]%nat = Ok [give 0 1 1 (EConcat (EVar 9) (EVar 0))]%nat) as M by reflexivity.
  refine (stays_by _ _ _ _ _ _ _ M (or_introl eq_refl) eq_refl (or_introl eq_refl) _ (C _ _ _ _ _ _ _ M)); [right; now left|lia|].
  intros it [<-|[]]. do 3 eexists. reflexivity.
Qed.
Theorem C176_condition_refuted : ~ forall a b g d d', a <> b -> (forall it, In it d -> exists t f, i_proc it = PComb [SIf (EVar a) t f]) -> move_sinks a b g false d = Ok d' -> all_moved a b g d d'.
Proof.
  intros C. pose (it := {| i_id := 0; i_gen := 1; i_proc := PComb [SIf (EVar 0) [SAssign Blocking (LVar 1) (EVar 2)] []] |}%nat).
  assert (move_sinks 0%nat 9%nat 1%nat false [it] = Ok [it]) as M by reflexivity.
  refine (stays_by _ _ _ _ _ _ _ M (or_introl eq_refl) eq_refl (or_introl eq_refl) _ (C _ _ _ _ _ _ _ M)); [now left|lia|].
  intros it0 [<-|[]]. do 2 eexists. reflexivity.
Qed.
Theorem C176_choice_refuted : ~ forall a b g d d', a <> b -> (forall it, In it d -> exists x y z, i_proc it = PWire (LVar x) (ECond (ESlice (EVar a) 0 0) (EVar y) (EVar z))) -> move_sinks a b g false d = Ok d' -> all_moved a b g d d'.
Proof.
  intros C. assert (move_sinks 0%nat 9%nat 1%nat false [give 0 1 1 (ECond (ESlice (EVar 0) 0 0) (EVar 2) (EVar 3))]%nat = Ok [give 0 1 1 (ECond (ESlice (EVar 0) 0 0) (EVar 2) (EVar 3))]%nat) as M by reflexivity.
  refine (stays_by _ _ _ _ _ _ _ M (or_introl eq_refl) eq_refl (or_introl eq_refl) _ (C _ _ _ _ _ _ _ M)); [now left|lia|].
  intros it [<-|[]]. do 3 eexists. reflexivity.
Qed.
(* where they stay in any design: whatever else is in the generator *)
Theorem C176_stay : forall a b g keep d d' it s, a <> b -> In it d -> i_gen it = g -> inside s (body_of (i_proc it)) -> holds a s -> move_sinks a b g keep d = Ok d' ->
  exists it', In it' d' /\ i_id it' = i_id it /\ reads a (body_of (i_proc it')).
Proof.
  intros a b g keep d d' it s Hab I Eg Is Hh M. destruct (C175_stays _ _ _ _ _ _ Hab M) as (d1 & -> & F). clear M. generalize (kept keep d g a b). intros kd. induction F as [|x y l l' [Ei Ex] _ IH]; [destruct I|].
  destruct I as [->|I].
  - exists y. split; [now left|]. split; [exact Ei|]. apply (Ex Eg). exists s. auto.
  - destruct (IH I) as (z & Iz & Hz). exists z. split; [|exact Hz]. now right.
Qed.
Example C176_ex : hides 0%nat (EExtend (EVar 0%nat) 8) /\ holds 0%nat (SAssign Blocking (LDyn 1%nat (EVar 0%nat) 1) (EBin Add (EVar 0%nat) (EVar 2%nat))) /\
  move_sinks 0%nat 9%nat 1%nat false [{| i_id := 0; i_gen := 1; i_proc := PWire (LDyn 1 (EVar 0) 1) (EBin Add (EVar 0) (EVar 2)) |}]%nat =
    Ok [{| i_id := 0; i_gen := 1; i_proc := PWire (LDyn 1 (EVar 0) 1) (EBin Add (EVar 9) (EVar 2)) |}]%nat.
Proof. split; [now constructor|]. split; [apply ho_index; now left|reflexivity]. Qed.

(* C177: an index on the left *)
Definition M2 : design := [{| i_id := 0; i_gen := 1; i_proc := PWire (LDyn 1 (EVar 0) 1) (EVar 2) |}]%nat.
Theorem C177_index_refuted : ~ forall a b g keep d, a <> b -> (forall it, In it d -> exists l x, i_proc it = PWire l (EVar x)) -> exists d', move_sinks a b g keep d = Ok d'.
Proof. intros C. destruct (C 0%nat 9%nat 1%nat false M2) as (d' & M); [lia| |discriminate M]. intros it [<-|[]]. do 2 eexists. reflexivity. Qed.
(* whatever else is in the generator *)
Theorem C177_index_throws : forall a b g keep d it k l x, In it d -> i_gen it = g -> inside (SAssign k l (EVar x)) (body_of (i_proc it)) -> In a (lhs_reads l) -> x <> a ->
  move_sinks a b g keep d = Throw.
Proof. intros a b g keep d it k l x I Eg Is J N. apply C175_throws. exists (SAssign k l (EVar x)). split; [exists it; auto|]. constructor; [now left|exact N]. Qed.
Example C177_ex : move_sinks 0%nat 9%nat 1%nat false M2 = Throw /\ In 0%nat (lhs_reads (LDyn 1%nat (EVar 0%nat) 1)).
Proof. split; [reflexivity|now left]. Qed.
Print Assumptions C175_moves.
Print Assumptions C175_stays.
Print Assumptions C175_throws.
Print Assumptions C175_same_histories.
Print Assumptions C176_extension_refuted.
Print Assumptions C176_concatenation_refuted.
Print Assumptions C176_condition_refuted.
Print Assumptions C176_choice_refuted.
Print Assumptions C176_stay.
Print Assumptions C177_index_refuted.
Print Assumptions C177_index_throws.
