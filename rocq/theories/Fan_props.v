(* C166-C170: removal of single-use wires. *)
From Coq Require Import Relations.
From Verif Require Import Base SV_spec IR IRSem_spec IR_lemmas Design_spec Dce_spec Dce_model Design_proofs Dce_proofs Dce_props Fan_spec Fan_model Retarget_proofs Fan_proofs.
Local Open Scope Z_scope.

(* C166: what the design could do before it can do afterwards, and what it can do afterwards it could do before, as
   far as one can see without the wires that were bypassed *)
Theorem C166_same_histories : forall G M d d', well_named M -> fan_good G M d -> remove_fanout M d = Ok d' ->
  (forall h, Forall (in_range G) h -> history G d h -> history G d' h) /\
  (forall h', Forall (in_range G) h' -> history G d' h' ->
     exists h, Forall (in_range G) h /\ history G d h /\ Forall2 (agree (fun x => ~ bypassed M d d' x)) h h').
Proof.
  intros G M d d' W FG H. destruct (fan_gens_same G M W (m_gens M) d d' FG H) as [S0 _]. split; [apply (sm_fwd _ _ _ _ S0)|apply (sm_bwd _ _ _ _ S0)].
Qed.
(* the pass ends, unless the wires form a circle *)
Theorem C166_ends : forall G M d, well_named M -> fan_good G M d -> (forall x, ~ clos_trans _ (link M d) x x) -> exists d', remove_fanout M d = Ok d'.
Proof. intros G M d W FG A. exact (fan_gens_ends G M W (m_gens M) d FG A). Qed.
(* and leaves no three single-use wires in a row *)
Theorem C166_no_row_left : forall G M d d', well_named M -> fan_good G M d -> remove_fanout M d = Ok d' ->
  forall g x y z w, In g (m_gens M) -> In x (m_names M g) -> link M d' x y -> link M d' y z -> ~ link M d' z w.
Proof.
  intros G M d d' W FG H g x y z w Ig Ix A B C. destruct (fan_gens_same G M W (m_gens M) d d' FG H) as [_ N].
  apply (N g x Ig Ix). exists y, z, w. auto.
Qed.
(* the conditions hold again, so the pass can be repeated; nothing is read that was not *)
Theorem C166_repeatable : forall G M d d', well_named M -> fan_good G M d -> remove_fanout M d = Ok d' ->
  fan_good G M d' /\ forall x, d_reads x d' -> d_reads x d.
Proof.
  intros G M d d' W FG H. destruct (fan_gens_same G M W (m_gens M) d d' FG H) as [S0 _]. split; [apply (sm_good _ _ _ _ S0)|apply (sm_reads _ _ _ _ S0)].
Qed.

(* an example: a counter behind two wires *)
Definition M1 : modules := {|
  m_gens := [0]%nat; m_names := fun g => match g with O => [1; 2; 3; 0; 4]%nat | _ => [] end;
  m_kind := fun x => match x with 0 => KIn | 1 | 2 | 3 => KVar | _ => KOut end%nat; m_owner := fun _ => O |}.
Definition F1 : design := [
  {| i_id := 0; i_gen := 0; i_proc := PFf [(true, 0%nat)] [SAssign NonBlocking (LVar 1) (EBin Add (EVar 4) (EConst 1 4 false))] |};
  wire1 1 0 2 1; wire1 2 0 3 2; wire1 3 0 4 3 ]%nat.
Definition G4 : tenv := fun x => {| d_width := match x with O => 1 | _ => 4 end; d_signed := false |}.
Lemma link_wire : forall M d x y, link M d x y -> exists it, In it d /\ i_proc it = PWire (LVar y) (EVar x).
Proof. intros M d x y (it & I & E & _). eauto. Qed.
Lemma M1_named : well_named M1.
Proof. intros [|g] x I; [reflexivity|destruct I]. Qed.
Lemma F1_links : forall x y, link M1 F1 x y -> (x = 1 /\ y = 2 \/ x = 2 /\ y = 3 \/ x = 3 /\ y = 4)%nat.
Proof. intros x y L. apply link_wire in L. destruct L as (it & I & E). cbn in I. cases; subst it; try discriminate E; cbn in E; injection E as <- <-; auto. Qed.
Lemma F1_order : forall x y, clos_trans _ (link M1 F1) x y -> (x < y)%nat.
Proof. intros x y H. induction H as [x y H|x y z _ IH1 _ IH2]; [apply F1_links in H; lia|lia]. Qed.
Lemma F1_good : fan_good G4 M1 F1.
Proof.
  constructor.
  - cbn. repeat constructor; cbn; intuition congruence.
  - intros it x y I E. cbn in I. cases; subst it; try discriminate E; cbn in E; injection E as <- <-; reflexivity.
  - intros it it' x y I E I' T. apply touches_in in T. cbn in I. cases; subst it; try discriminate E; cbn in E; injection E as <- <-;
      cbn in I'; cases; subst it'; vm_compute in T; cases; congruence.
  - intros it x I K _. cbn in I. cases; subst it; reflexivity.
  - intros x y z A B. apply F1_links in A. apply F1_links in B. assert (x = 1 /\ y = 2 \/ x = 2 /\ y = 3)%nat as [[-> ->]|[-> ->]] by lia; auto.
  - intros x y z A B. apply F1_links in A. apply F1_links in B.
    assert (forall v, v <> O -> ~ d_event v F1) as K.
    { clear A B. intros v N (it & e & I & J & E). cbn in I. cases; subst it; cbn in J; cases. subst e. cbn in E. congruence. }
    split; apply K; lia.
  - intros x y it A I (u & v & st & bd & J). assert (In x (collect_body (fun s => match s with SFor i _ _ _ _ => [i] | _ => [] end) (body_of (i_proc it)))) as B
      by (apply collect_in; eexists; split; [exact J|now left]).
    cbn in I. cases; subst it; vm_compute in B; cases.
  - intros x z it k lh e A I R J E. apply F1_order in A. apply reads_in in R.
    assert (In (k, lhs_var lh) (collect_body (fun s => match s with SAssign k l _ => [(k, lhs_var l)] | _ => [] end) (body_of (i_proc it)))) as B
      by (apply collect_in; eexists; split; [exact J|now left]).
    rewrite E in B. cbn in I. cases; subst it; vm_compute in B, R; cases; injection B as <- <-; subst; try reflexivity; exfalso; revert A; vm_compute; lia.
Qed.
Example C166_ex : well_named M1 /\ fan_good G4 M1 F1 /\ (forall x, ~ clos_trans _ (link M1 F1) x x) /\ link M1 F1 1%nat 2%nat /\
  remove_fanout M1 F1 = Ok [
    {| i_id := 0; i_gen := 0; i_proc := PFf [(true, 0%nat)] [SAssign NonBlocking (LVar 3) (EBin Add (EVar 4) (EConst 1 4 false))] |};
    wire1 3 0 4 3 ]%nat.
Proof.
  split; [exact M1_named|]. split; [exact F1_good|]. split; [intros x H; apply F1_order in H; lia|]. split; [|reflexivity].
  exists (wire1 1 0 2 1)%nat. split; [right; now left|]. split; [reflexivity|]. split; [reflexivity|].
  intros it' I R. apply reads_in in R. cbn in I. cases; subst it'; vm_compute in R; cases; try discriminate R; reflexivity.
Qed.
(* a history: the counter goes from 15 to 0 at the edge *)
Definition s1 : venv := fun x => match x with O => 0 | 1%nat | 2%nat | 3%nat | 4%nat => 15 | _ => 0 end.
Definition s2 : venv := fun x => match x with O => 1 | _ => 0 end.
Example C166_ex_history : Forall (in_range G4) [s2; s1] /\ history G4 F1 [s2; s1] /\
  exists r1 r2, history G4 F1 [r2; r1] /\ r1 4%nat = 15 /\ r2 4%nat = 0.
Proof.
  assert (history G4 F1 [s2; s1]) as H.
  { apply h_next; [apply h_first|split].
    - intros it I E x. cbn in I. cases; subst it; try discriminate E; destruct x as [|[|[|[|[|x]]]]]; reflexivity.
    - intros it I E x. cbn in I. cases; subst it; try discriminate E; destruct x as [|[|[|[|[|x]]]]]; reflexivity.
    - intros x (it & I & E & A). cbn in I. cases; subst it; try (now destruct E). assert (touches x [SAssign NonBlocking (LVar 1) (EBin Add (EVar 4) (EConst 1 4 false))]) as T by now left.
      apply touches_in in T. vm_compute in T. cases. subst x. reflexivity. }
  split; [apply Forall_cons; [|apply Forall_cons; [|constructor]]; intros [|[|[|[|[|x]]]]]; vm_compute; intuition congruence|]. split; [exact H|]. exists s1, s2. auto.
Qed.

(* C167: chains that start or pass at ports.  An input drives b through a; b is left without a driver *)
Definition port_values (M : modules) : list venv -> list venv -> Prop := Forall2 (agree (fun x => m_kind M x <> KVar)).
Definition G1 : tenv := fun _ => {| d_width := 1; d_signed := false |}.
Definition mods (ins vars outs names : list var) : modules := {|
  m_gens := [O]; m_names := fun g => match g with O => names | _ => [] end;
  m_kind := fun x => if mem x ins then KIn else if mem x vars then KVar else KOut; m_owner := fun _ => O |}.
Lemma mods_named : forall a b c n, well_named (mods a b c n).
Proof. intros a b c n [|g] x I; [reflexivity|destruct I]. Qed.
Definition bits (l : list Z) : venv := fun x => nth x l 0.
Lemma bits_range : forall l, Forall (fun z => 0 <= z < 2) l -> in_range G1 (bits l).
Proof. intros l F x. unfold bits. change (2 ^ d_width (G1 x)) with 2. revert x. induction F as [|z l0 Hz _ IH]; intros [|x0]; cbn [nth]; auto; lia. Qed.
Lemma settled_wire : forall d r i g x y, settled G1 d r -> in_range G1 r -> In (wire1 i g y x) d -> r y = r x.
Proof. intros d r i g x y S0 R I. apply (wire_eq G1 x y r R); [reflexivity|]. exact (S0 _ I eq_refl y). Qed.
Definition F2 : design := [wire1 0 0 1 0; wire1 1 0 2 1; wire1 2 0 3 2; wire1 3 0 4 2]%nat.
Definition M2 : modules := (mods [0] [1; 2] [3; 4] [1; 2; 0; 3; 4])%nat.
Theorem C167_input_chain_refuted :
  ~ forall G M d d' h', well_named M -> remove_fanout M d = Ok d' -> Forall (in_range G) h' -> history G d' h' ->
      exists h, Forall (in_range G) h /\ history G d h /\ port_values M h h'.
Proof.
  intros C. destruct (C G1 M2 F2 [wire1 2 0 3 2; wire1 3 0 4 2]%nat [bits [0; 0; 1; 1; 1]]) as (h & R & H & A).
  - apply mods_named.
  - reflexivity.
  - constructor; [|constructor]. apply bits_range. repeat constructor; lia.
  - apply h_first. intros it I E x. cbn in I. cases; subst it; destruct x as [|[|[|[|[|x]]]]]; try reflexivity; destruct x; reflexivity.
  - inversion A as [|r ? ? ? E A1]; subst. inversion A1; subst. inversion H as [? S0|]; subst. inversion R; subst.
    assert (r 0%nat = 0) as E0 by (apply (E 0%nat); discriminate). assert (r 3%nat = 1) as E3 by (apply (E 3%nat); discriminate).
    assert (r 1%nat = r 0%nat /\ r 2%nat = r 1%nat /\ r 3%nat = r 2%nat) as (A0 & A2 & A3).
    { repeat split; eapply (settled_wire F2); eauto; cbn; eauto 6. }
    congruence.
Qed.
Example C167_input_chain_ex : remove_fanout M2 F2 = Ok [wire1 2 0 3 2; wire1 3 0 4 2]%nat /\ ~ d_assigns 2%nat [wire1 2 0 3 2; wire1 3 0 4 2]%nat.
Proof. split; [reflexivity|]. intros (it & I & A). assert (T : touches 2%nat (body_of (i_proc it))) by now left. apply touches_in in T. cbn in I. cases; subst it; vm_compute in T; cases; discriminate. Qed.
(* every signal has one driver *)
Definition one_driver (d : design) : Prop := forall it it' x, In it d -> In it' d -> assigns x (body_of (i_proc it)) -> assigns x (body_of (i_proc it')) -> it = it'.
Fixpoint distinct (l : list nat) : bool := match l with [] => true | x :: r => negb (mem x r) && distinct r end.
Lemma one_driver_by : forall d, forallb (fun it => match i_proc it with PWire _ _ => true | _ => false end) d &&
  distinct (flat_map (fun it => collect_body written (body_of (i_proc it))) d) = true -> one_driver d.
Proof.
  intros d H it it' x I I' A A'. apply andb_true_iff in H as [_ H].
  assert (T : In x (collect_body written (body_of (i_proc it)))) by (apply touches_in; now left).
  assert (T' : In x (collect_body written (body_of (i_proc it')))) by (apply touches_in; now left). clear A A'.
  induction d as [|q d IH]; [destruct I|]. cbn [flat_map] in H.
  assert (forall a b, distinct (a ++ b) = true -> distinct b = true /\ forall x, In x a -> ~ In x b) as K.
  { induction a as [|u a IHa]; intros b Hd; [split; [exact Hd|intros ? []]|]. cbn in Hd. apply andb_true_iff in Hd as [Hu Hd]. destruct (IHa b Hd) as [Hb Hx].
    split; [exact Hb|]. intros y [<-|Iy]; [|auto]. intros Ib. apply negb_true_iff, mem_false in Hu. apply Hu. apply in_or_app. now right. }
  destruct (K _ _ H) as [H1 H2].
  destruct I as [->|I], I' as [->|I']; auto; exfalso.
  - apply (H2 x T). apply in_flat_map. eauto.
  - apply (H2 x T'). apply in_flat_map. eauto.
Qed.
(* an output in the middle of a chain is left without a driver *)
Definition F3 : design := [wire1 0 0 1 0; wire1 1 0 2 1]%nat.
Definition M3 : modules := (mods [0] [] [1; 2] [0; 1; 2])%nat.
Theorem C167_output_in_chain_refuted :
  ~ forall M d d', well_named M -> one_driver d -> remove_fanout M d = Ok d' -> forall x, m_kind M x = KOut -> d_assigns x d -> d_assigns x d'.
Proof.
  intros C. destruct (C M3 F3 [wire1 2 0 2 0]%nat (mods_named _ _ _ _)) with (x := 1%nat) as (it & I & A).
  - apply one_driver_by. reflexivity.
  - reflexivity.
  - reflexivity.
  - exists (wire1 0 0 1 0)%nat. split; [now left|]. do 3 eexists. split; [apply in_here; left; reflexivity|reflexivity].
  - assert (T : touches 1%nat (body_of (i_proc it))) by now left. apply touches_in in T. cbn in I. cases; subst it; vm_compute in T; cases; discriminate.
Qed.
(* a chain between two outputs: the second one gets two drivers *)
Definition F4 : design := [wire1 0 0 1 0; wire1 1 0 2 1; wire1 2 0 3 2; wire1 3 0 4 0]%nat.
Definition M4 : modules := (mods [0] [2] [1; 3; 4] [2; 0; 4; 1; 3])%nat.
Theorem C167_two_drivers_refuted : ~ forall M d d', well_named M -> one_driver d -> remove_fanout M d = Ok d' -> one_driver d'.
Proof.
  intros C. assert (one_driver F4) as O by (apply one_driver_by; reflexivity).
  specialize (C M4 F4 [wire1 0 0 3 0; wire1 3 0 4 0; wire1 4 0 3 1]%nat (mods_named _ _ _ _) O eq_refl (wire1 0 0 3 0)%nat (wire1 4 0 3 1)%nat 3%nat).
  assert ((wire1 0 0 3 0)%nat = (wire1 4 0 3 1)%nat) as X; [|discriminate X]. apply C; [now left|right; right; now left| |];
    do 3 eexists; (split; [apply in_here; left; reflexivity|reflexivity]).
Qed.
(* in general: what the pass removes has no driver any more, be it a port or not *)
Theorem C167_bypassed_undriven : forall G M d d' g x, fan_good G M d -> m_owner M x = g -> fan_var M g d x = Ok d' ->
  forall v, bypassed M d d' v -> ~ d_assigns v d' /\ m_kind M v = KVar.
Proof.
  intros G M d d' g x FG Og H v (K & R & NR). split; [|exact K]. destruct (fan_var_step G M g d x d' FG Og H) as [[-> _]|(l & b & keep & P & L2 & ND & HK & ->)]; [contradiction|].
  intros (it' & I' & A). apply (proj1 (in_d' d x b keep it')) in I'. destruct I' as (it & I & Ke & ->).
  assert (hid l v = true) as Hv.
  { destruct (hid l v) eqn:Hv; [reflexivity|]. exfalso. apply NR. destruct R as (i0 & I0 & R0). exists (to_item x b i0). split.
    - apply (in_d' d x b keep). exists i0. split; [exact I0|]. split; [|reflexivity]. destruct (keep i0) eqn:K0; [reflexivity|]. exfalso.
      apply HK in K0; auto. apply in_map_iff in K0. destruct K0 as ([u i1] & X & Iv). cbn in X. subst i1.
      destruct (path_wires M d _ _ _ u i0 P Iv) as (y1 & _ & E1 & _). rewrite E1 in R0. apply wire_reads in R0. subst u.
      assert (hid l v = true) as X by (apply hid_in; eauto). congruence.
    - rewrite to_body. now apply (proj2 (reads_to x b v _)). }
  eapply to_untouched; [exact FG|exact P|exact L2|exact ND|exact HK|exact I|exact Ke|exact Hv|]. left. exact A.
Qed.

(* C168: a clock is not counted as a use.  The clock goes through two wires; the process stays at the bypassed one *)
Definition F5 : design := [wire1 0 0 1 0; wire1 1 0 2 1;
  {| i_id := 2; i_gen := 0; i_proc := PFf [(true, 1%nat)] [SAssign NonBlocking (LVar 3) (EConst 1 1 false)] |}]%nat.
Definition M5 : modules := (mods [0] [1] [2; 3] [1; 0; 2; 3])%nat.
Definition F5' : design := [{| i_id := 2; i_gen := 0; i_proc := PFf [(true, 1%nat)] [SAssign NonBlocking (LVar 3) (EConst 1 1 false)] |}; wire1 3 0 2 0]%nat.
Theorem C168_clock_chain_refuted :
  ~ forall G M d d' h', well_named M -> (forall x, m_kind M x = KVar -> d_event x d -> d_assigns x d) -> remove_fanout M d = Ok d' ->
      Forall (in_range G) h' -> history G d' h' -> exists h, Forall (in_range G) h /\ history G d h /\ port_values M h h'.
Proof.
  intros C. destruct (C G1 M5 F5 F5' [bits [0; 1; 0; 1]; bits [0; 0; 0; 0]]) as (h & R & H & A).
  - apply mods_named.
  - intros x _ (it & e & I & J & E). cbn in I. cases; subst it; cbn in J; cases; subst e. cbn in E. subst x.
    exists (wire1 0 0 1 0)%nat. split; [now left|]. do 3 eexists. split; [apply in_here; left; reflexivity|reflexivity].
  - reflexivity.
  - apply Forall_cons; [|apply Forall_cons; [|constructor]]; apply bits_range; repeat constructor; lia.
  - apply h_next; [apply h_first|split].
    + intros it I E x. cbn in I. cases; subst it; try discriminate E; destruct x as [|[|[|[|x]]]]; try reflexivity; destruct x; reflexivity.
    + intros it I E x. cbn in I. cases; subst it; try discriminate E; destruct x as [|[|[|[|x]]]]; try reflexivity; destruct x; reflexivity.
    + intros x (it & I & E & A). cbn in I. cases; subst it; try (now destruct E).
      assert (touches x [SAssign NonBlocking (LVar 3) (EConst 1 1 false)]) as T by now left. apply touches_in in T. vm_compute in T. cases. subst x. reflexivity.
  - inversion A as [|r2 ? ? ? E2 A1]; subst. inversion A1 as [|r1 ? ? ? E1 A0]; subst. inversion A0; subst.
    inversion R as [|? ? R2 R1]; subst. inversion R1 as [|? ? R1' _]; subst. inversion H as [|? ? ? H1 N]; subst. destruct N as [S2 N]. inversion H1 as [? S1|]; subst.
    assert (r1 0%nat = 0) as X1 by (apply (E1 0%nat); discriminate). assert (r2 0%nat = 0) as X2 by (apply (E2 0%nat); discriminate).
    assert (r1 3%nat = 0) as X3 by (apply (E1 3%nat); discriminate). assert (r2 3%nat = 1) as X4 by (apply (E2 3%nat); discriminate).
    assert (r1 1%nat = 0) as Y1 by (rewrite <- X1; eapply (settled_wire F5); eauto; cbn; eauto).
    assert (r2 1%nat = 0) as Y2 by (rewrite <- X2; eapply (settled_wire F5); eauto; cbn; eauto).
    assert (clocked F5 3%nat) as Ck. { exists {| i_id := 2; i_gen := 0; i_proc := PFf [(true, 1%nat)] [SAssign NonBlocking (LVar 3) (EConst 1 1 false)] |}%nat.
      split; [right; right; now left|]. split; [discriminate|]. do 3 eexists. split; [apply in_here; left; reflexivity|reflexivity]. }
    specialize (N 3%nat Ck). assert (fired G1 F5 r1 r2 = []) as Fi. { unfold fired, F5. cbn [filter i_proc wire1 events_of existsb]. unfold edge. cbn [fst snd ev]. rewrite Y1, Y2. reflexivity. }
    rewrite Fi in N. cbn in N. congruence.
Qed.
Example C168_clock_chain_ex : remove_fanout M5 F5 = Ok F5' /\ ~ d_assigns 1%nat F5'.
Proof. split; [reflexivity|]. intros (it & I & A). assert (T : touches 1%nat (body_of (i_proc it))) by now left. apply touches_in in T. cbn in I. cases; subst it; vm_compute in T; cases; discriminate. Qed.

(* C169: a process that sets a signal, reads it through two wires and sets it again *)
Definition b6 (x : var) : list stmt := [SAssign Blocking (LVar x) (EConst 0 1 false); SAssign Blocking (LVar 3) (EVar 2); SAssign Blocking (LVar x) (EConst 1 1 false)].
Definition F6 : design := [{| i_id := 0; i_gen := 0; i_proc := PComb (b6 0) |}; wire1 1 0 1 0; wire1 2 0 2 1; wire1 3 0 4 2]%nat.
Definition F6' : design := [{| i_id := 0; i_gen := 0; i_proc := PComb (b6 2) |}; wire1 3 0 4 2]%nat.
Definition M6 : modules := (mods [] [0; 1; 2] [3; 4] [0; 1; 2; 3; 4])%nat.
Theorem C169_blocking_order_refuted :
  ~ forall G M d d' h, well_named M -> (forall x y z, link M d x y -> link M d y z -> m_kind M x = KVar /\ m_kind M y = KVar) -> remove_fanout M d = Ok d' ->
      Forall (in_range G) h -> history G d h -> exists h', Forall (in_range G) h' /\ history G d' h' /\ port_values M h h'.
Proof.
  intros C. destruct (C G1 M6 F6 F6' [bits [1; 1; 1; 1; 1]]) as (h & R & H & A).
  - apply mods_named.
  - intros x y z L1 L2. apply link_wire in L1. apply link_wire in L2. destruct L1 as (i1 & I1 & E1). destruct L2 as (i2 & I2 & E2).
    cbn in I1, I2. cases; subst i1 i2; try discriminate E1; try discriminate E2; cbn in E1, E2; injection E1 as <- <-; try discriminate E2; injection E2 as _; auto.
  - reflexivity.
  - constructor; [|constructor]. apply bits_range. repeat constructor; lia.
  - apply h_first. intros it I E x. cbn in I. cases; subst it; destruct x as [|[|[|[|[|x]]]]]; try reflexivity; destruct x; reflexivity.
  - inversion A as [|? r ? ? E A1]; subst. inversion A1; subst. inversion H as [? S0|]; subst. inversion R as [|? ? R1 _]; subst.
    assert (r 3%nat = 1) as E3 by (symmetry; apply (E 3%nat); discriminate).
    assert (activate G1 (b6 2%nat) r 3%nat = r 3%nat) as X by (apply (S0 {| i_id := 0; i_gen := 0; i_proc := PComb (b6 2) |}%nat); [now left|reflexivity]).
    assert (r 2%nat = 0 \/ r 2%nat = 1) as E2 by (specialize (R1 2%nat); change (2 ^ d_width (G1 2%nat)) with 2 in R1; lia).
    unfold activate, b6, commit, start_state in X. cbn in X. unfold upd in X. cbn in X. rewrite E3 in X. destruct E2 as [E2|E2]; rewrite E2 in X; vm_compute in X; discriminate.
Qed.
Example C169_blocking_order_ex : remove_fanout M6 F6 = Ok F6'.
Proof. reflexivity. Qed.

(* C170: a circle of single-use wires: the search does not end *)
Theorem C170_circle : forall M d g x, NoDup (map i_id d) -> clos_trans _ (link M d) x x -> fan_var M g d x = UB.
Proof. intros M d g x N C. unfold fan_var. now rewrite circle_ub. Qed.
Theorem C170_ends_refuted : ~ forall M d, well_named M -> NoDup (map i_id d) -> exists d', remove_fanout M d = Ok d'.
Proof.
  intros C. destruct (C (mods [] [0; 1] [] [0; 1]) [wire1 0 0 1 0; wire1 1 0 0 1])%nat as (d' & H); [apply mods_named|cbn; repeat constructor; cbn; intuition congruence|].
  vm_compute in H. discriminate.
Qed.
Example C170_ex : clos_trans _ (link (mods [] [0; 1] [] [0; 1]) [wire1 0 0 1 0; wire1 1 0 0 1])%nat 0%nat 0%nat.
Proof.
  eapply t_trans; apply t_step; [exists (wire1 0 0 1 0)%nat|exists (wire1 1 0 0 1)%nat]; (split; [cbn; auto|]; split; [reflexivity|]; split; [reflexivity|]);
    intros it I R; apply reads_in in R; cbn in I; cases; subst it; vm_compute in R; cases; try discriminate R; reflexivity.
Qed.
Print Assumptions C166_same_histories.
Print Assumptions C166_ends.
Print Assumptions C166_no_row_left.
Print Assumptions C166_repeatable.
Print Assumptions C167_input_chain_refuted.
Print Assumptions C167_output_in_chain_refuted.
Print Assumptions C167_two_drivers_refuted.
Print Assumptions C167_bypassed_undriven.
Print Assumptions C168_clock_chain_refuted.
Print Assumptions C169_blocking_order_refuted.
Print Assumptions C170_circle.
Print Assumptions C170_ends_refuted.
