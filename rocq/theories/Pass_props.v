(* C178-C180: the removal of pass-through modules. *)
From Verif Require Import Base SV_spec IR IRSem_spec IR_lemmas IfCase_proofs Design_spec Design_proofs Dce_spec Dce_model Dce_proofs Dce_props Fan_spec Fan_model Retarget_proofs Fan_proofs Fan_props Tie_model Tie_props
  Move_spec Move_model Move_proofs Move_props Pass_spec Pass_model Pass_proofs Pass_run.
Local Open Scope Z_scope.

Lemma pass_suspect : forall H d c, is_pass H d c = true -> suspect H d c.
Proof.
  intros H d c B. split; [unfold is_pass in B; now destruct (h_vars H c)|]. intros o Oo. pose proof (pass_ports H d c B o (proj1 Oo)) as X. unfold port_ok in X.
  replace (is_in H o) with false in X by (unfold is_in; destruct Oo as [_ Oo]; now destruct (h_kind H o)).
  destruct (sources_of d o) as [|[it s] q] eqn:E; [discriminate X|]. assert (In (it, s) (sources_of d o)) as J by (rewrite E; now left). apply in_sources in J. destruct J as (I & Is & As).
  destruct s as [k l e| | | | | | |]; try (destruct q; discriminate X). destruct e as [p| | | | | | |]; try (destruct q; discriminate X). exists it, k, l, p. split; [exact I|]. split; [exact Is|]. split; [now apply Nat.eqb_eq in As|].
  destruct q; [|discriminate X]. intros Z0. now rewrite Z0 in X.
Qed.
Lemma rev_ordered : forall H d, good H d -> ordered H (rev (h_gens H)).
Proof.
  intros H d Gd. split; [apply NoDup_rev, (g_nodup _ _ Gd)|]. intros l1 g l2 E g' I Hp. assert (h_gens H = rev l2 ++ g :: rev l1) as Er.
  { rewrite <- (rev_involutive (h_gens H)), E, rev_app_distr. cbn [rev]. now rewrite <- app_assoc. }
  pose proof (g_order _ _ Gd _ _ _ _ Er Hp) as J. pose proof (g_nodup _ _ Gd) as N. rewrite Er in N. apply in_rev in I. clear - I J N. induction (rev l2) as [|x r IH]; [destruct I|]. cbn [app] in N. inversion N as [|? ? Nx Nr]; subst.
  destruct I as [->|I]; [apply Nx; apply in_or_app; right; now right|auto].
Qed.
(* the instances that are taken out, under the conditions of C178 *)
Lemma removed_iff : forall G H new d c, good H d -> ports_apart H new -> (forall g c, In c (h_gens H) -> h_parent H c = Some g -> suspect H d c -> plain G H new d g c) ->
  removed H (rev (h_gens H)) d c <-> instance H c /\ pass_through H d c.
Proof.
  intros G H new d c Gd PA Pl. split.
  - intros (I & B & g & _ & E). split; [split; [exact I|congruence]|]. eapply (seen_through G H new d g c); [|exact B]. apply Pl; auto. now apply pass_suspect.
  - intros [[I N] P]. destruct (h_parent H c) as [g|] eqn:E; [|contradiction]. assert (suspect H d c) as S0.
    { destruct P as (V & _ & To). split; [exact V|]. intros o Oo. destruct (To o Oo) as (it & Ii & (Eg & i & [_ Ki] & Ep) & _). exists it, Blocking, (LVar o), i. split; [exact Ii|]. rewrite Ep. split; [apply in_here; now left|]. split; [reflexivity|congruence]. }
    split; [exact I|]. split; [|exists g; split; [|exact E]].
    + eapply (through_seen G H new d g c); eauto. apply (g_ids _ _ Gd).
    + apply -> in_rev. destruct (in_split _ _ I) as (l1 & l2 & El). rewrite El. apply in_or_app. right. right. now apply (g_order _ _ Gd l1 c l2 g El).
Qed.

(* C178: the design does what it did before, and nothing else *)
Definition conditions (G : tenv) (H : hierarchy) (new : var -> var) (d : design) : Prop :=
  good H d /\ ports_apart H new /\ forall g c, In c (h_gens H) -> h_parent H c = Some g -> suspect H d c -> plain G H new d g c.
Lemma pass_visited : forall G H new d, conditions G H new d -> exists d', remove_pass_through H new d = Ok d' /\ visited G H new (rev (h_gens H)) d d'.
Proof.
  intros G H new d (Gd & PA & Pl). apply visits_run; [apply (g_nodup _ _ Gd)|exact PA|now apply (rev_ordered H d)|now apply good_pscope|]. intros g c _ I E B. apply Pl; auto. now apply pass_suspect.
Qed.
Lemma carried_iff : forall H new (P Q : nat -> Prop) d, (forall c, P c <-> Q c) -> forall h h', Forall2 (carried H new P d) h h' -> Forall2 (carried H new Q d) h h'.
Proof.
  intros H new P Q d E h h' F. induction F as [|r r' h h' [C1 C2] _ IH]; constructor; [|exact IH]. split.
  - intros x N. apply C1. intros c Pc. apply N. now apply E.
  - intros c i o Qc. apply C2. now apply E.
Qed.
Theorem C178_same_histories : forall G H new d, conditions G H new d -> exists d', remove_pass_through H new d = Ok d' /\
  (forall h, Forall (in_range G) h -> history G d h ->
     exists h', Forall (in_range G) h' /\ history G d' h' /\ Forall2 (carried H new (fun c => instance H c /\ pass_through H d c) d) h h') /\
  (forall h', Forall (in_range G) h' -> history G d' h' ->
     exists h, Forall (in_range G) h /\ history G d h /\ Forall2 (carried H new (fun c => instance H c /\ pass_through H d c) d) h h').
Proof.
  intros G H new d Cd. destruct (pass_visited G H new d Cd) as (d' & E & [Fw Bw _ _ _]). destruct Cd as (Gd & PA & Pl). exists d'. split; [exact E|].
  pose proof (fun c => removed_iff G H new d c Gd PA Pl) as Re. split.
  - intros h R Hh. destruct (Fw h R Hh) as (h' & R' & Hh' & F). exists h'. split; [exact R'|]. split; [exact Hh'|]. eapply carried_iff; [exact Re|exact F].
  - intros h R Hh. destruct (Bw h R Hh) as (h' & R' & Hh' & F). exists h'. split; [exact R'|]. split; [exact Hh'|]. eapply carried_iff; [exact Re|exact F].
Qed.
(* nothing of the pass-throughs is left, and nobody uses their ports any more *)
Theorem C178_gone : forall G H new d d' c, conditions G H new d -> remove_pass_through H new d = Ok d' -> instance H c -> pass_through H d c ->
  forall it, In it d' -> i_gen it <> c /\ forall p, In p (h_ports H c) ->
    ~ reads p (body_of (i_proc it)) /\ ~ touches p (body_of (i_proc it)) /\ ~ In p (map snd (events_of (i_proc it))).
Proof.
  intros G H new d d' c Cd E Ic P it I. destruct (pass_visited G H new d Cd) as (d0 & E0 & V). rewrite E in E0. injection E0 as <-. destruct Cd as (Gd & PA & Pl).
  assert (removed H (rev (h_gens H)) d c) as Rc by (apply (removed_iff G H new d c Gd PA Pl); auto). destruct (vs_gone _ _ _ _ _ _ V it I) as [N M]. split; [intros <-; contradiction|].
  intros p Ip. specialize (M c p Rc Ip). unfold mentions in M. tauto.
Qed.
(* the other generators stay as they are, apart from those around a pass-through *)
Theorem C178_others_stay : forall G H new d d' g, conditions G H new d -> remove_pass_through H new d = Ok d' -> ~ (instance H g /\ pass_through H d g) ->
  (forall c, h_parent H c = Some g -> ~ (instance H c /\ pass_through H d c)) -> forall it, i_gen it = g -> In it d' <-> In it d.
Proof.
  intros G H new d d' g Cd E Ng Nc it Eg. destruct (pass_visited G H new d Cd) as (d0 & E0 & V). rewrite E in E0. injection E0 as <-. destruct Cd as (Gd & PA & Pl).
  pose proof (fun c => removed_iff G H new d c Gd PA Pl) as Re. apply (vs_kept _ _ _ _ _ _ V it); rewrite Eg; [intros X; apply Ng; now apply Re|]. intros c X Ec. apply (Nc c Ec). now apply Re.
Qed.
(* which instances these are *)
Theorem C178_recognised : forall G H new d g c, good H d -> ports_apart H new -> plain G H new d g c -> is_pass H d c = true <-> pass_through H d c.
Proof. intros G H new d g c Gd PA P. split; [eapply seen_through; eauto|eapply through_seen; eauto; apply (g_ids _ _ Gd)]. Qed.

(* An example: instance 0 crosses two wires (1 to 2, 0 to 3); generator 1 around it has a register. *)
Definition PH : hierarchy := {|
  h_gens := [0; 1]; h_parent := fun g => match g with 0 => Some 1 | _ => None end;
  h_vars := fun _ => []; h_ports := fun g => match g with 0 => [0; 1; 2; 3] | 1 => [4; 5; 6; 7] | _ => [] end;
  h_kind := fun x => match x with 0 | 1 | 4 | 5 => KIn | 8 | 9 => KVar | _ => KOut end; h_owner := fun x => match x with 0 | 1 | 2 | 3 => 0 | _ => 1 end |}%nat.
Definition pnew (x : var) : var := (x + 8)%nat.
Definition P1 : design := [
  give 0 1 0 (EVar 5); give 1 1 1 (EVar 6); give 2 0 2 (EVar 1); give 3 0 3 (EVar 0);
  {| i_id := 4; i_gen := 1; i_proc := PFf [(true, 4)] [SAssign NonBlocking (LVar 6) (EBin Xor (EVar 2) (EVar 3))] |};
  give 5 1 7 (EVar 3)]%nat.
Definition P1' : design := [
  give 0 1 8 (EVar 5); give 1 1 9 (EVar 6);
  {| i_id := 4; i_gen := 1; i_proc := PFf [(true, 4)] [SAssign NonBlocking (LVar 6) (EBin Xor (EVar 9) (EVar 8))] |};
  give 5 1 7 (EVar 8)]%nat.
Lemma PH_ports : forall c x, In x (h_ports PH c) -> (c = 0 /\ x < 4 \/ c = 1 /\ 4 <= x < 8)%nat.
Proof. intros [|[|c]] x I; cbn in I; [left|right|contradiction]; lia. Qed.
Lemma PH_apart : ports_apart PH pnew.
Proof.
  split; [|split; [|split]].
  - intros c c' x I J. apply PH_ports in I, J. lia.
  - intros [|[|c]]; cbn; repeat constructor; cbn; lia.
  - intros c c' i i' _ _ E. unfold pnew in E. lia.
  - intros c c' i [I K] J. apply PH_ports in I, J. unfold pnew in J. destruct I as [[-> I]|[-> I]]; [|destruct J; lia]. destruct J as [[_ J]|[_ J]]; lia.
Qed.
(* finite designs over this hierarchy *)
Definition uses (it : item) : list var := collect_body stmt_sinks (body_of (i_proc it)).
Definition stmts (it : item) : list stmt := collect_body (fun s => [s]) (body_of (i_proc it)).
Definition drives (it : item) : list var := flat_map (fun s => match s with SAssign _ l _ => [lhs_var l] | SFor x _ _ _ _ => [x] | _ => [] end) (stmts it).
Lemma uses_iff : forall x it, reads x (body_of (i_proc it)) <-> In x (uses it).
Proof. intros x it. unfold uses. rewrite collect_in. split; intros (s & I & J); exists s; (split; [exact I|now apply reads_sinks]). Qed.
Lemma drives_in : forall x it, touches x (body_of (i_proc it)) -> In x (drives it).
Proof.
  intros x it [(k & l & e & I & E)|(a & b & st & bd & I)]; apply in_flat_map.
  - exists (SAssign k l e). split; [now apply body_stmts|now left].
  - exists (SFor x a b st bd). split; [now apply body_stmts|now left].
Qed.
Definition fits (d : design) : bool := forallb (fun it =>
  match i_gen it with
  | O => forallb (fun x => Nat.ltb x 4) (uses it ++ drives it ++ map snd (events_of (i_proc it)))
  | 1%nat => forallb (fun x => Nat.ltb x 8) (uses it ++ drives it ++ map snd (events_of (i_proc it)))
  | _ => false
  end && forallb (fun x => negb (Nat.ltb x 8) || match h_kind PH x with KIn => if Nat.ltb x 4 then Nat.eqb (i_gen it) 1 else false | _ => true end) (drives it)) d.
Lemma PH_good : forall d, NoDup (map i_id d) -> fits d = true -> (forall x, In x [2; 3]%nat -> d_assigns x d) -> good PH d.
Proof.
  intros d N F Dr. unfold fits in F. rewrite forallb_forall in F. constructor.
  - cbn. repeat constructor; cbn; lia.
  - intros l1 g l2 p E Hp. destruct g as [|g]; [|discriminate Hp]. injection Hp as <-. cbn in E. destruct l1 as [|a l1]; cbn in E.
    + injection E as <-. now left.
    + injection E as <- E. destruct l1 as [|b l1]; cbn in E; [discriminate E|]. injection E as <- E. now destruct l1.
  - exact N.
  - intros g x [].
  - intros g x I. apply PH_ports in I. do 8 (destruct x as [|x]; [cbn; split; [lia|discriminate]|]). lia.
  - intros it x I M. pose proof (F it I) as Fi. apply andb_prop in Fi. destruct Fi as [Fi _].
    assert (In x (uses it ++ drives it ++ map snd (events_of (i_proc it)))) as J by (apply in_or_app; destruct M as [M|[M|M]]; [left; now apply uses_iff|right; apply in_or_app; left; now apply drives_in|right; apply in_or_app; now right]).
    destruct (i_gen it) as [|[|g]]; [| |discriminate Fi]; rewrite forallb_forall in Fi; apply Fi, Nat.ltb_lt in J.
    + left. do 4 (destruct x as [|x]; [reflexivity|]). lia.
    + do 4 (destruct x as [|x]; [right; cbn; tauto|]). left. do 4 (destruct x as [|x]; [reflexivity|]). lia.
  - intros it x I As K E. pose proof (F it I) as Fi. apply andb_prop in Fi. destruct Fi as [_ Fi]. rewrite forallb_forall in Fi. pose proof (Fi x (drives_in x it (or_introl As))) as X.
    rewrite K in X. do 8 (destruct x as [|x]; [cbn in X, E; try discriminate X; try discriminate K; destruct (i_gen it); discriminate|]). do 2 (destruct x as [|x]; [discriminate K|]). discriminate K.
  - intros g x I K Hp R. apply Dr. destruct g as [|g]; [|contradiction]. cbn in I. destruct I as [<-|[<-|[<-|[<-|[]]]]]; try discriminate K; cbn; tauto.
Qed.
Lemma P1_good : good PH P1.
Proof.
  apply PH_good; [cbn; repeat constructor; cbn; lia|reflexivity|]. intros x [<-|[<-|[]]].
  - exists (give 2 0 2 (EVar 1)%nat)%nat. split; [cbn; tauto|]. exists Blocking, (LVar 2%nat), (EVar 1%nat). split; [apply in_here; now left|reflexivity].
  - exists (give 3 0 3 (EVar 0)%nat)%nat. split; [cbn; tauto|]. exists Blocking, (LVar 3%nat), (EVar 0%nat). split; [apply in_here; now left|reflexivity].
Qed.
Lemma port0 : forall x, In x (h_ports PH 0%nat) -> x = 0%nat \/ x = 1%nat \/ x = 2%nat \/ x = 3%nat.
Proof. intros x I. cbn in I. intuition. Qed.
Lemma P1_plain : plain G1 PH pnew P1 1 0.
Proof.
  assert (forall x, input PH 0%nat x -> x = 0%nat \/ x = 1%nat) as Ip by (intros x [I K]; apply port0 in I; destruct I as [->|[->|[->| ->]]]; auto; discriminate K).
  assert (forall x, output PH 0%nat x -> x = 2%nat \/ x = 3%nat) as Op by (intros x [I K]; apply port0 in I; destruct I as [->|[->|[->| ->]]]; auto; exfalso; now apply K).
  constructor.
  - lia.
  - intros it I E. cbn in I. destruct I as [<-|[<-|[<-|[<-|[<-|[<-|[]]]]]]]; try discriminate E.
    + exists 1%nat, 2%nat. unfold input, output. cbn. repeat split; auto. discriminate.
    + exists 0%nat, 3%nat. unfold input, output. cbn. repeat split; auto. discriminate.
  - intros i it Ii I. apply Ip in Ii. rewrite uses_iff. split; [|split].
    + intros J. cbn in I. destruct I as [<-|[<-|[<-|[<-|[<-|[<-|[]]]]]]]; vm_compute in J; destruct Ii as [-> | ->]; try reflexivity; intuition discriminate.
    + intros J. apply drives_in in J. cbn in I. destruct I as [<-|[<-|[<-|[<-|[<-|[<-|[]]]]]]]; vm_compute in J; destruct Ii as [-> | ->]; try reflexivity; intuition discriminate.
    + intros (a & b & st & bd & J). apply inside_collect in J. cbn in I. destruct I as [<-|[<-|[<-|[<-|[<-|[<-|[]]]]]]]; vm_compute in J; intuition discriminate.
  - intros o it Oo I. apply Op in Oo. rewrite uses_iff. split.
    + intros J. cbn in I. destruct I as [<-|[<-|[<-|[<-|[<-|[<-|[]]]]]]]; vm_compute in J; destruct Oo as [-> | ->]; try reflexivity; intuition discriminate.
    + intros J. apply drives_in in J. cbn in I. destruct I as [<-|[<-|[<-|[<-|[<-|[<-|[]]]]]]]; vm_compute in J; destruct Oo as [-> | ->]; try reflexivity; intuition discriminate.
  - intros x Ix (it & e & I & J & E). apply port0 in Ix. cbn in I. destruct I as [<-|[<-|[<-|[<-|[<-|[<-|[]]]]]]]; cbn in J; try contradiction. destruct J as [<-|[]]. cbn in E. lia.
  - intros i o it (w & Iw & Ew & Ep) I R [(k & l & e & J & Nk & V)|(a & b & st & bd & J)].
    + assert (i = 0%nat \/ i = 1%nat) as Ii by (cbn in Iw; destruct Iw as [<-|[<-|[<-|[<-|[<-|[<-|[]]]]]]]; try discriminate Ew; injection Ep as <- <-; auto).
      assert (o = 2%nat \/ o = 3%nat) as Oo by (cbn in Iw; destruct Iw as [<-|[<-|[<-|[<-|[<-|[<-|[]]]]]]]; try discriminate Ew; injection Ep as <- <-; auto).
      apply uses_iff in R. apply inside_collect in J. cbn in I. destruct I as [<-|[<-|[<-|[<-|[<-|[<-|[]]]]]]]; vm_compute in R, J; destruct Oo as [-> | ->]; try (exfalso; clear - R; intuition discriminate);
        destruct J as [J|[]]; injection J as <- <- <-; cbn in V; destruct Ii as [-> | ->]; discriminate V.
    + apply inside_collect in J. cbn in I. destruct I as [<-|[<-|[<-|[<-|[<-|[<-|[]]]]]]]; vm_compute in J; intuition discriminate.
  - intros o it s Oo I Eg Is. apply Op in Oo. apply inside_collect in Is. cbn in I. destruct I as [<-|[<-|[<-|[<-|[<-|[<-|[]]]]]]]; try discriminate Eg; vm_compute in Is; destruct Is as [<-|[]]; destruct Oo as [-> | ->];
      (split; intros X; inversion X; subst; clear X; repeat match goal with
      | H : _ \/ _ |- _ => destruct H
      | H : hides _ _ |- _ => inversion H; subst; clear H
      | H : In _ _ |- _ => vm_compute in H
      | H : elsewhere _ _ |- _ => vm_compute in H
      end; try discriminate; try congruence; try contradiction; auto).
  - reflexivity.
  - intros i it Ii I. apply Ip in Ii. split; [|split].
    + rewrite uses_iff. intros J. cbn in I. destruct I as [<-|[<-|[<-|[<-|[<-|[<-|[]]]]]]]; vm_compute in J; destruct Ii as [-> | ->]; vm_compute in J; intuition discriminate.
    + intros J. apply drives_in in J. cbn in I. destruct I as [<-|[<-|[<-|[<-|[<-|[<-|[]]]]]]]; destruct Ii as [-> | ->]; vm_compute in J; intuition discriminate.
    + intros (it' & e & I' & J & E). cbn in I'. destruct I' as [<-|[<-|[<-|[<-|[<-|[<-|[]]]]]]]; cbn in J; try contradiction. destruct J as [<-|[]]. destruct Ii as [-> | ->]; discriminate E.
Qed.
Example C178_ex : conditions G1 PH pnew P1 /\ instance PH 0%nat /\ pass_through PH P1 0%nat /\ remove_pass_through PH pnew P1 = Ok P1'.
Proof.
  assert (is_pass PH P1 0%nat = true) as B by reflexivity. split; [|split; [|split]].
  - split; [apply P1_good|]. split; [apply PH_apart|]. intros g c _ E _. destruct c as [|c]; [|discriminate E]. injection E as <-. apply P1_plain.
  - split; [now left|discriminate].
  - exact (seen_through G1 PH pnew P1 1%nat 0%nat P1_plain B).
  - reflexivity.
Qed.

(* C179: whatever the pass takes out, the ports of the design behave as before *)
Definition top_port (H : hierarchy) (x : var) : Prop := exists g, h_parent H g = None /\ In x (h_ports H g).
Definition behaves (G : tenv) (H : hierarchy) (d d' : design) : Prop := forall h, Forall (in_range G) h -> history G d h ->
  exists h', Forall (in_range G) h' /\ history G d' h' /\ Forall2 (agree (top_port H)) h h'.
Lemma wire_settled : forall r i o, in_range G1 r -> r o = r i -> forall x, activate G1 [SAssign Blocking (LVar o) (EVar i)] r x = r x.
Proof.
  intros r i o R E x. destruct (Nat.eq_dec x o) as [->|N]; [now apply (wire_eq G1 i o r R)|]. apply activate_off. intros T0. apply N. exact (wire_touches i o x T0).
Qed.
Definition the_bits : list Z := [0; 1; 0; 0; 0; 1; 0; 0].
Lemma the_range : in_range G1 (bits the_bits).
Proof. apply bits_range. repeat constructor; lia. Qed.
(* an instance that holds a value *)
Definition R1' : design := [give 0 1 8 (EVar 4); give 1 1 9 (EVar 5); give 4 1 6 (EVar 9); give 5 1 7 (EVar 8)]%nat.
Lemma no_behaves : forall d, settled G1 d (bits the_bits) -> forall d', In (give 1 1 9 (EVar 5))%nat d' -> In (give 4 1 6 (EVar 9))%nat d' -> ~ behaves G1 PH d d'.
Proof.
  intros d S0 d' I9 I6 B. destruct (B [bits the_bits]) as (h' & R' & Hh & F); [constructor; [apply the_range|constructor]|now apply h_first|].
  inversion F as [|? r' ? h0 A F0]; subst. inversion R' as [|? ? Rr _]; subst. inversion F0; subst. inversion Hh as [? S1|]; subst.
  assert (top_port PH 5%nat /\ top_port PH 6%nat) as [T5 T6] by (split; exists 1%nat; cbn; tauto). pose proof (A _ T5) as E5. pose proof (A _ T6) as E6. cbn in E5, E6.
  pose proof (settled_wire d' r' 1 1 5 9 S1 Rr I9)%nat as W1. pose proof (settled_wire d' r' 4 1 9 6 S1 Rr I6)%nat as W2. rewrite W2, W1, <- E5 in E6. discriminate E6.
Qed.
(* a register whose clock goes through *)
Definition R1 : design := [
  give 0 1 0 (EVar 4); give 1 1 1 (EVar 5); {| i_id := 2; i_gen := 0; i_proc := PFf [(true, 0)] [SAssign NonBlocking (LVar 2) (EVar 1)] |};
  give 3 0 3 (EVar 0); give 4 1 6 (EVar 2); give 5 1 7 (EVar 3)]%nat.
Theorem C179_register_refuted : ~ forall G H new d d', good H d -> ports_apart H new -> remove_pass_through H new d = Ok d' -> behaves G H d d'.
Proof.
  intros C. refine (no_behaves R1 _ R1' _ _ (C G1 PH pnew R1 R1' _ PH_apart eq_refl)).
  - intros it I E. cbn in I. destruct I as [<-|[<-|[<-|[<-|[<-|[<-|[]]]]]]]; try discriminate E; apply wire_settled; try apply the_range; reflexivity.
  - right. now left.
  - right. right. now left.
  - apply PH_good; [cbn; repeat constructor; cbn; lia|reflexivity|]. intros x [<-|[<-|[]]].
    + eexists. split; [right; right; left; reflexivity|]. exists NonBlocking, (LVar 2%nat), (EVar 1%nat). split; [apply in_here; now left|reflexivity].
    + exists (give 3 0 3 (EVar 0)%nat)%nat. split; [cbn; tauto|]. exists Blocking, (LVar 3%nat), (EVar 0%nat). split; [apply in_here; now left|reflexivity].
Qed.
(* an instance without clocks: a transparent latch *)
Definition L1 : design := [
  give 0 1 0 (EVar 4); give 1 1 1 (EVar 5); {| i_id := 2; i_gen := 0; i_proc := PComb [SIf (EVar 0) [SAssign Blocking (LVar 2) (EVar 1)] []] |};
  give 3 0 3 (EVar 2); give 4 1 6 (EVar 2); give 5 1 7 (EVar 3)]%nat.
Theorem C179_latch_refuted : ~ forall G H new d d', good H d -> ports_apart H new -> (forall it, In it d -> events_of (i_proc it) = []) -> remove_pass_through H new d = Ok d' -> behaves G H d d'.
Proof.
  intros C. pose (L1' := [give 0 1 8 (EVar 4); give 1 1 9 (EVar 5); give 4 1 6 (EVar 9); give 5 1 7 (EVar 3)]%nat). refine (no_behaves L1 _ L1' _ _ (C G1 PH pnew L1 L1' _ PH_apart _ eq_refl)).
  - intros it I E. cbn in I. destruct I as [<-|[<-|[<-|[<-|[<-|[<-|[]]]]]]]; try (apply wire_settled; [apply the_range|reflexivity]). intros x. reflexivity.
  - right. now left.
  - right. right. now left.
  - apply PH_good; [cbn; repeat constructor; cbn; lia|reflexivity|]. intros x [<-|[<-|[]]].
    + eexists. split; [right; right; left; reflexivity|]. exists Blocking, (LVar 2%nat), (EVar 1%nat). split; [|reflexivity]. eapply in_then; [now left|]. apply in_here. now left.
    + exists (give 3 0 3 (EVar 2)%nat)%nat. split; [cbn; tauto|]. exists Blocking, (LVar 3%nat), (EVar 2%nat). split; [apply in_here; now left|reflexivity].
  - intros it I. cbn in I. destruct I as [<-|[<-|[<-|[<-|[<-|[<-|[]]]]]]]; reflexivity.
Qed.

(* C180: nothing refers to an instance that is gone *)
Definition mentioned (H : hierarchy) (c : nat) (d : design) : Prop := exists it p, In it d /\ In p (h_ports H c) /\
  (reads p (body_of (i_proc it)) \/ touches p (body_of (i_proc it)) \/ In p (map snd (events_of (i_proc it)))).
Definition wires_only (c : nat) (d : design) : Prop := forall it, In it d -> i_gen it = c -> exists i o, i_proc it = PWire (LVar o) (EVar i).
Lemma from_fits : forall d, NoDup (map i_id d) -> fits d = true -> In (give 2 0 2 (EVar 1))%nat d \/ In {| i_id := 2%nat; i_gen := O; i_proc := PWire (LSlice 2 0 0) (EVar 1)%nat |} d -> In (give 3 0 3 (EVar 0))%nat d -> good PH d.
Proof.
  intros d N F I2 I3. apply PH_good; auto. intros x [<-|[<-|[]]]; [destruct I2 as [I2|I2]; (eexists; split; [exact I2|])|(eexists; split; [exact I3|])]; eexists _, _, _; (split; [apply in_here; left; reflexivity|reflexivity]).
Qed.
Definition Q1 : design := [
  give 0 1 0 (EVar 4); give 1 1 1 (EVar 5); give 2 0 2 (EVar 1); give 3 0 3 (EVar 0);
  {| i_id := 4; i_gen := 1; i_proc := PComb [SIf (EVar 2) [SAssign Blocking (LVar 6) (EVar 5)] [SAssign Blocking (LVar 6) (EVar 4)]] |}; give 5 1 7 (EVar 3)]%nat.
Theorem C180_condition_refuted : ~ forall H new d d' c, good H d -> ports_apart H new -> wires_only c d -> instance H c -> is_pass H d c = true -> remove_pass_through H new d = Ok d' -> ~ mentioned H c d'.
Proof.
  intros C. refine (C PH pnew Q1 [give 0 1 8 (EVar 4); give 1 1 9 (EVar 5);
    {| i_id := 4; i_gen := 1; i_proc := PComb [SIf (EVar 2) [SAssign Blocking (LVar 6) (EVar 5)] [SAssign Blocking (LVar 6) (EVar 4)]] |}; give 5 1 7 (EVar 8)]%nat 0%nat _ PH_apart _ _ eq_refl eq_refl _).
  - apply from_fits; [cbn; repeat constructor; cbn; lia|reflexivity|left; cbn; tauto|cbn; tauto].
  - intros it I E. cbn in I. destruct I as [<-|[<-|[<-|[<-|[<-|[<-|[]]]]]]]; try discriminate E; eexists _, _; reflexivity.
  - split; [now left|discriminate].
  - eexists _, 2%nat. split; [right; right; left; reflexivity|]. split; [cbn; tauto|]. left. eexists. split; [apply in_here; left; reflexivity|]. constructor. now left.
Qed.
Definition Q2 : design := [
  give 0 1 0 (EVar 4); give 1 1 1 (EVar 5); give 2 0 2 (EVar 1); give 3 0 3 (EVar 0);
  {| i_id := 4; i_gen := 1; i_proc := PFf [(true, 3)] [SAssign NonBlocking (LVar 6) (EVar 5)] |}; give 5 1 7 (EVar 2)]%nat.
Theorem C180_clock_refuted : ~ forall H new d d' c, good H d -> ports_apart H new -> wires_only c d -> instance H c -> is_pass H d c = true ->
  (forall it s, In it d -> inside s (body_of (i_proc it)) -> exists k x y, s = SAssign k (LVar x) (EVar y)) -> remove_pass_through H new d = Ok d' -> ~ mentioned H c d'.
Proof.
  intros C. refine (C PH pnew Q2 [give 0 1 8 (EVar 4); give 1 1 9 (EVar 5);
    {| i_id := 4; i_gen := 1; i_proc := PFf [(true, 3)] [SAssign NonBlocking (LVar 6) (EVar 5)] |}; give 5 1 7 (EVar 9)]%nat 0%nat _ PH_apart _ _ eq_refl _ eq_refl _).
  - apply from_fits; [cbn; repeat constructor; cbn; lia|reflexivity|left; cbn; tauto|cbn; tauto].
  - intros it I E. cbn in I. destruct I as [<-|[<-|[<-|[<-|[<-|[<-|[]]]]]]]; try discriminate E; eexists _, _; reflexivity.
  - split; [now left|discriminate].
  - intros it s I Is. apply inside_collect in Is. cbn in I. destruct I as [<-|[<-|[<-|[<-|[<-|[<-|[]]]]]]]; vm_compute in Is; destruct Is as [<-|[]]; eexists _, _, _; reflexivity.
  - eexists _, 3%nat. split; [right; right; left; reflexivity|]. split; [cbn; tauto|]. right. right. now left.
Qed.
(* one bit at a time: only wires in the whole design *)
Definition Q3 : design := [
  give 0 1 0 (EVar 4); give 1 1 1 (EVar 5); {| i_id := 2; i_gen := 0; i_proc := PWire (LSlice 2 0 0) (EVar 1) |}; give 3 0 3 (EVar 0);
  give 4 1 6 (EVar 2); give 5 1 7 (EVar 3)]%nat.
Theorem C180_slice_refuted : ~ forall H new d d' c, good H d -> ports_apart H new -> instance H c -> is_pass H d c = true ->
  (forall it, In it d -> exists l y, i_proc it = PWire l (EVar y)) -> remove_pass_through H new d = Ok d' -> ~ mentioned H c d'.
Proof.
  intros C. refine (C PH pnew Q3 [give 0 1 8 (EVar 4); give 1 1 9 (EVar 5); give 4 1 6 (EVar 2); give 5 1 7 (EVar 8)]%nat 0%nat _ PH_apart _ eq_refl _ eq_refl _).
  - apply from_fits; [cbn; repeat constructor; cbn; lia|reflexivity|right; cbn; tauto|cbn; tauto].
  - split; [now left|discriminate].
  - intros it I. cbn in I. destruct I as [<-|[<-|[<-|[<-|[<-|[<-|[]]]]]]]; eexists _, _; reflexivity.
  - eexists _, 2%nat. split; [right; right; left; reflexivity|]. split; [cbn; tauto|]. left. eexists. split; [apply in_here; left; reflexivity|]. constructor. right. now left.
Qed.
Print Assumptions C178_same_histories.
Print Assumptions C178_gone.
Print Assumptions C178_others_stay.
Print Assumptions C178_recognised.
Print Assumptions C179_register_refuted.
Print Assumptions C179_latch_refuted.
Print Assumptions C180_condition_refuted.
Print Assumptions C180_clock_refuted.
Print Assumptions C180_slice_refuted.
