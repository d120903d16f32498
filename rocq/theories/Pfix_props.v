(* C345-C349: reads of a child's input port in its parent. *)
From Verif Require Import Base SV_spec IR IRSem_spec IR_lemmas IfCase_proofs IR_frame Flow_spec Flow_proofs Design_spec Design_proofs Dce_spec Dce_model Dce_proofs
  Fan_spec Fan_model Fan_proofs Move_spec Move_model Move_proofs Pfix_model.
Local Open Scope Z_scope.

(* a use that the pass is made for: the port as it is, or in an operator in which no use hides (Move_spec), and not as an index on the left *)
Definition operator (e : expr) : Prop := match e with EVar _ | EConst _ _ _ | ESlice _ _ _ => False | _ => True end.
Definition plain_in (a : var) (e : expr) : Prop := ~ In a (evars e) \/ e = EVar a \/ (operator e /\ ~ hides a e).
Definition plain_use (a : var) (s : stmt) : Prop :=
  match s with
  | SAssign _ l e => ~ In a (lhs_reads l) /\ plain_in a e
  | SIf c _ _ => plain_in a c
  | SSwitch e _ _ => plain_in a e
  | SReturn e => ~ In a (evars e)
  | _ => True
  end.

Section Fix.
  Variables a b : var.
  Hypothesis Hab : a <> b.
  Notation fs := (fix_stmt a b).
  Lemma fix_plain : forall e, plain_in a e -> fix_test a b e = in_place a b e.
  Proof.
    intros e H. unfold fix_test. destruct (mem a (evars e)) eqn:M.
    - apply mem_In in M. destruct H as [N|[->|[O N]]]; [contradiction|cbn; now rewrite Nat.eqb_refl|]. unfold fix_expr. destruct e; try (now destruct O); now apply change_moves.
    - symmetry. apply in_place_none. now apply mem_false.
  Qed.
  Lemma fix_assign : forall k l e, plain_use a (SAssign k l e) -> fs (SAssign k l e) = SAssign k l (in_place a b e).
  Proof.
    intros k l e [N P]. cbn [fix_stmt]. f_equal. rewrite <- fix_plain by exact P. unfold fix_test.
    destruct (mem a (evars e)) eqn:M.
    - assert (mem a (lhs_reads l ++ evars e) = true) as ->; [|reflexivity]. apply mem_In. apply in_or_app. right. now apply mem_In.
    - assert (mem a (lhs_reads l ++ evars e) = false) as ->; [|reflexivity]. apply mem_false. rewrite in_app_iff. apply mem_false in M. tauto.
  Qed.
  (* the replacement everywhere *)
  Fixpoint place (s : stmt) : stmt :=
    match s with
    | SAssign k l e => SAssign k l (in_place a b e)
    | SIf c t f => SIf (in_place a b c) (map place t) (map place f)
    | SSwitch e cs d => SSwitch (in_place a b e) (map (fun c => (fst c, map place (snd c))) cs) (match d with Some l => Some (map place l) | None => None end)
    | SFor i u v st l => SFor i u v st (map place l)
    | SBlock l => SBlock (map place l)
    | s => s
    end.
  Definition all_plain (l : list stmt) : Prop := forall s, inside s l -> plain_use a s.
  Lemma plain_sub : forall l l', (forall s, inside s l -> inside s l') -> all_plain l' -> all_plain l.
  Proof. intros l l' Hi P s I. apply P. now apply Hi. Qed.
  Lemma fix_place_aux : forall l, Forall (fun s => all_plain [s] -> fs s = place s) l -> all_plain l -> map fs l = map place l.
  Proof.
    induction 1 as [|s r Hs _ IH]; intros P; [reflexivity|]. cbn [map]. f_equal; [apply Hs|apply IH]; (eapply plain_sub; [|exact P]); intros y; [apply ins_hd|apply ins_tl].
  Qed.
  Lemma fix_place : forall s, all_plain [s] -> fs s = place s.
  Proof.
    induction s as [k l e|c t f Ht Hf|e cs d Hcs Hd|i u v sp body Hb|body Hb|e| |k] using stmt_ind'; intros P; try reflexivity.
    - apply fix_assign. apply P. apply inside_self.
    - cbn [fix_stmt place]. rewrite fix_plain by exact (P _ (inside_self _)).
      rewrite (fix_place_aux t Ht), (fix_place_aux f Hf); [reflexivity| |]; (eapply plain_sub; [|exact P]); intros y Hy; [now apply ins_else|now apply ins_then].
    - cbn [fix_stmt place]. rewrite fix_plain by exact (P _ (inside_self _)). f_equal.
      + assert (forall k l, In (k, l) cs -> all_plain l) as N1 by (intros k l X; eapply plain_sub; [|exact P]; intros y Hy; eapply ins_case; eauto). clear P Hd.
        induction Hcs as [|[k l] r Hb Hr IH]; [reflexivity|]. cbn [map fst snd]. rewrite (fix_place_aux l Hb) by (apply (N1 k); now left). f_equal. apply IH. intros k1 l1 I. apply (N1 k1). now right.
      + destruct d as [l|]; [|reflexivity]. f_equal. apply fix_place_aux; [now apply Hd|]. eapply plain_sub; [|exact P]. intros y Hy. now apply ins_def.
    - cbn [fix_stmt place]. rewrite (fix_place_aux body Hb); [reflexivity|]. eapply plain_sub; [|exact P]. intros y Hy. now apply ins_for.
    - cbn [fix_stmt place]. rewrite (fix_place_aux body Hb); [reflexivity|]. eapply plain_sub; [|exact P]. intros y Hy. now apply ins_block.
  Qed.
  Lemma fix_places : forall l, all_plain l -> map fs l = map place l.
  Proof. intros l P. apply fix_place_aux; [|exact P]. apply Forall_forall. intros s _. apply fix_place. Qed.

  Lemma place_inside : forall s l, inside s (map place l) -> exists s0, inside s0 l /\ s = place s0.
  Proof.
    intros s l H. remember (map place l) as m eqn:E. revert l E. induction H as [m I|m c t f I _ IH|m c t f I _ IH|m e cs d k bd I J _ IH|m e cs bd I _ IH|m i u v st bd I _ IH|m bd I _ IH]; intros l ->;
      apply in_map_iff in I; destruct I as (s0 & E & I).
    - exists s0. split; [now apply in_here|now symmetry].
    - destruct s0; try discriminate. cbn in E. injection E as _ <- <-. destruct (IH _ eq_refl) as (s1 & I1 & ->). exists s1. split; [|reflexivity]. eapply in_then; eauto.
    - destruct s0; try discriminate. cbn in E. injection E as _ <- <-. destruct (IH _ eq_refl) as (s1 & I1 & ->). exists s1. split; [|reflexivity]. eapply in_else; eauto.
    - destruct s0 as [| |e0 cs0 d0| | | | |]; try discriminate. cbn in E. injection E as _ <- <-. apply in_map_iff in J. destruct J as ([k0 b0] & E & J). cbn in E. injection E as <- <-.
      destruct (IH _ eq_refl) as (s1 & I1 & ->). exists s1. split; [|reflexivity]. eapply in_case; eauto.
    - destruct s0 as [| |e0 cs0 d0| | | | |]; try discriminate. cbn in E. destruct d0 as [b0|]; [|discriminate]. injection E as _ <- <-.
      destruct (IH _ eq_refl) as (s1 & I1 & ->). exists s1. split; [|reflexivity]. eapply in_default; eauto.
    - destruct s0; try discriminate. cbn in E. injection E as -> -> -> -> <-. destruct (IH _ eq_refl) as (s1 & I1 & ->). exists s1. split; [|reflexivity]. eapply in_for; eauto.
    - destruct s0; try discriminate. cbn in E. injection E as <-. destruct (IH _ eq_refl) as (s1 & I1 & ->). exists s1. split; [|reflexivity]. eapply in_block; eauto.
  Qed.
  Lemma inside_place : forall s l, inside s l -> inside (place s) (map place l).
  Proof.
    intros s l H. induction H as [l I|l c t f I _ IH|l c t f I _ IH|l e cs d k bd I J _ IH|l e cs bd I _ IH|l i u v st bd I _ IH|l bd I _ IH];
      apply (in_map place) in I.
    - now apply in_here.
    - eapply in_then; [exact I|exact IH].
    - eapply in_else; [exact I|exact IH].
    - eapply (in_case _ _ _ _ _ k (map place bd)); [exact I| |exact IH]. apply in_map_iff. exists (k, bd). auto.
    - eapply in_default; [exact I|exact IH].
    - eapply in_for; [exact I|exact IH].
    - eapply in_block; [exact I|exact IH].
  Qed.
  Lemma place_reads : forall x s, plain_use a s -> reads_stmt x (place s) <-> (x <> a /\ reads_stmt x s) \/ (x = b /\ reads_stmt a s).
  Proof.
    intros x s P. destruct s as [k l e|c t f|e cs dd|i u v st bd|bd|e| |k]; cbn [place].
    - destruct P as [N _]. pose proof (in_place_reads a b e x) as K. split.
      + intros X; inversion X as [? ? ? H0| | |]; subst. rewrite K in H0. destruct H0 as [H0|[[H0 H1]|[-> H1]]].
        * left. split; [intros ->; contradiction|constructor; now left].
        * left. split; [exact H0|constructor; now right].
        * right. split; [reflexivity|constructor; now right].
      + intros [[Nx X]|[-> X]]; inversion X as [? ? ? H0| | |]; subst; constructor; rewrite K; tauto.
    - pose proof (in_place_reads a b c x) as K. split.
      + intros X; inversion X; subst. match goal with H0 : In x _ |- _ => apply K in H0; destruct H0 as [[H0 H1]|[-> H1]] end; [left; split; [exact H0|now constructor]|right; split; [reflexivity|now constructor]].
      + intros [[Nx X]|[-> X]]; inversion X; subst; constructor; apply K; tauto.
    - pose proof (in_place_reads a b e x) as K. split.
      + intros X; inversion X; subst. match goal with H0 : In x _ |- _ => apply K in H0; destruct H0 as [[H0 H1]|[-> H1]] end; [left; split; [exact H0|now constructor]|right; split; [reflexivity|now constructor]].
      + intros [[Nx X]|[-> X]]; inversion X; subst; constructor; apply K; tauto.
    - split; [intros X; inversion X|intros [[_ X]|[_ X]]; inversion X].
    - split; [intros X; inversion X|intros [[_ X]|[_ X]]; inversion X].
    - cbn in P. split.
      + intros X. left. split; [|exact X]. intros ->. inversion X; contradiction.
      + intros [[_ X]|[_ X]]; [exact X|inversion X; contradiction].
    - split; [intros X; inversion X|intros [[_ X]|[_ X]]; inversion X].
    - split; [intros X; inversion X|intros [[_ X]|[_ X]]; inversion X].
  Qed.
  Lemma place_assigns : forall x l, assigns x (map place l) <-> assigns x l.
  Proof.
    intros x l. split.
    - intros (k & lh & e & I & E). apply place_inside in I. destruct I as (s0 & I & E0). destruct s0; try discriminate. cbn in E0. injection E0 as -> -> ->. do 3 eexists. split; [exact I|exact E].
    - intros (k & lh & e & I & E). apply inside_place in I. cbn in I. do 3 eexists. split; [exact I|exact E].
  Qed.
  Lemma fix_body : forall p, body_of (fix_proc a b p) = map fs (body_of p).
  Proof. now intros [l e|l|evs l]. Qed.
  Lemma fix_events : forall p, events_of (fix_proc a b p) = events_of p.
  Proof. now intros [l e|l|evs l]. Qed.
  Lemma fix_moved : forall g it, i_gen it = g -> all_plain (body_of (i_proc it)) -> moved a b it (fix_item a b g it).
  Proof.
    intros g it Eg P. unfold fix_item. rewrite Eg, Nat.eqb_refl. constructor; cbn [i_id i_gen i_proc]; auto using fix_events.
    - intros x. rewrite fix_body, fix_places by exact P. apply place_assigns.
    - intros x. rewrite fix_body, fix_places by exact P. split.
      + intros (s & I & R). apply place_inside in I. destruct I as (s0 & I & ->). apply place_reads in R; [|now apply P].
        destruct R as [[N R]|[-> R]]; [left; split; [exact N|exists s0; auto]|right; split; [reflexivity|exists s0; auto]].
      + intros [[N (s & I & R)]|[-> (s & I & R)]]; exists (place s); (split; [now apply inside_place|]); apply place_reads; auto.
  Qed.
  Variable G : tenv.
  Hypothesis HG : G a = G b.
  Definition QP (s : stmt) : Prop := steady a b [s] -> forall st, eqv a b st -> all_plain [s] -> exec G (place s) st = exec G s st.
  Lemma place_ev : forall st e, eqv a b st -> ev G (st_cur st) (in_place a b e) = ev G (st_cur st) e.
  Proof. intros st e E. apply (partly_ev a b); [exact HG|exact E|apply partly_all]. Qed.
  Lemma place_run_aux : forall l, Forall QP l -> steady a b l -> all_plain l -> forall st, eqv a b st -> run G (map place l) st = run G l st.
  Proof.
    induction 1 as [|s r Hs _ IH]; intros F P st E; [reflexivity|]. cbn [map]. rewrite !run_cons.
    assert (steady a b [s]) as F1 by (eapply steady_sub; [|exact F]; intros y; apply ins_hd). assert (steady a b r) as F2 by (eapply steady_sub; [|exact F]; intros y; apply ins_tl).
    assert (all_plain [s]) as P1 by (eapply plain_sub; [|exact P]; intros y; apply ins_hd). assert (all_plain r) as P2 by (eapply plain_sub; [|exact P]; intros y; apply ins_tl).
    rewrite (Hs F1 st E P1). destruct (st_status (exec G s st)); auto. apply IH; auto. now apply eqv_exec.
  Qed.
  Lemma place_exec : forall s, QP s.
  Proof.
    induction s as [k l e|c t f Ht Hf|e cs d Hcs Hd|i u v sp body Hb|body Hb|e| |k] using stmt_ind'; intros F st E P; try reflexivity.
    - cbn [place exec]. unfold do_assign. now rewrite place_ev.
    - cbn [place]. rewrite !exec_if. unfold truth. rewrite (place_ev st c E).
      destruct (negb _); apply place_run_aux; auto; first [eapply steady_sub; [|exact F]|eapply plain_sub; [|exact P]]; intros y Hy; first [now apply ins_then|now apply ins_else].
    - cbn [place]. rewrite !exec_switch, (place_ev st e E). destruct (partly_type a b G _ _ HG (partly_all a b e)) as [-> _].
      assert (forall k l, In (k, l) cs -> steady a b l /\ all_plain l) as N1 by (intros k l X; split; [eapply steady_sub; [|exact F]|eapply plain_sub; [|exact P]]; intros y Hy; eapply ins_case; eauto).
      assert (forall l, d = Some l -> steady a b l /\ all_plain l) as N2 by (intros l ->; split; [eapply steady_sub; [|exact F]|eapply plain_sub; [|exact P]]; intros y Hy; now apply ins_def).
      generalize (ev G (st_cur st) e) (ewidth G e). intros z w. clear F P.
      induction Hcs as [|[k l] r Hb Hr IH]; cbn [map fst snd pick].
      + destruct d as [l|]; [|reflexivity]. destruct (N2 l eq_refl). apply place_run_aux; auto.
      + destruct (z =? enc w k); [destruct (N1 k l (or_introl eq_refl)); apply place_run_aux; auto|]. apply IH. intros k1 b1 I1. apply (N1 k1). now right.
    - cbn [place]. rewrite !exec_for. assert (steady a b body) as N by (eapply steady_sub; [|exact F]; intros y Hy; now apply ins_for).
      assert (all_plain body) as NP by (eapply plain_sub; [|exact P]; intros y Hy; now apply ins_for).
      assert (i <> a /\ i <> b) as [Na Nb] by (destruct F as [F1 F2]; split; intros ->; [apply F1|apply F2]; right; do 4 eexists; apply inside_self).
      clear F P. revert st E. induction (for_values u v sp) as [|z vs IH]; intros st E; [reflexivity|]. cbn [loop].
      set (s1 := {| st_cur := upd (st_cur st) i _; st_nba := _; st_status := _ |}).
      assert (eqv a b s1) as E1 by (unfold eqv, s1, upd; cbn [st_cur]; destruct (Nat.eqb_spec a i); [congruence|]; destruct (Nat.eqb_spec b i); [congruence|exact E]).
      rewrite (place_run_aux body Hb N NP s1 E1). destruct (st_status (run G body s1)); auto. apply IH. now apply eqv_run.
    - cbn [place]. rewrite !exec_block. apply place_run_aux; auto; [eapply steady_sub; [|exact F]|eapply plain_sub; [|exact P]]; intros y Hy; now apply ins_block.
  Qed.
  Lemma place_run : forall l st, steady a b l -> all_plain l -> eqv a b st -> run G (map place l) st = run G l st.
  Proof. intros l st F P E. apply place_run_aux; auto. apply Forall_forall. intros; apply place_exec. Qed.
  Lemma place_none : forall l, ~ reads a l -> map place l = l.
  Proof.
    clear Hab HG G. assert (forall l l' : list stmt, (forall y, inside y l -> inside y l') -> ~ reads a l' -> ~ reads a l) as Sub.
    { intros l l' Hi N (y & I & R). apply N. exists y. auto. }
    assert (forall l, Forall (fun s => ~ reads a [s] -> place s = s) l -> ~ reads a l -> map place l = l) as L.
    { induction 1 as [|s r Hs _ IH]; intros N; [reflexivity|]. cbn [map]. f_equal; [apply Hs|apply IH]; (eapply Sub; [|exact N]); intros y; [apply ins_hd|apply ins_tl]. }
    intros l. apply L. apply Forall_forall. intros s _. clear l.
    induction s as [k l e|c t f Ht Hf|e cs d Hcs Hd|i u v sp body Hb|body Hb|e| |k] using stmt_ind'; intros N; try reflexivity; cbn [place].
    - rewrite in_place_none; [reflexivity|]. intros X. apply N. exists (SAssign k l e). split; [apply inside_self|constructor; now right].
    - rewrite in_place_none by (intros X; apply N; exists (SIf c t f); split; [apply inside_self|now constructor]).
      rewrite (L t Ht), (L f Hf); [reflexivity| |]; (eapply Sub; [|exact N]); intros y Hy; [now apply ins_else|now apply ins_then].
    - rewrite in_place_none by (intros X; apply N; exists (SSwitch e cs d); split; [apply inside_self|now constructor]). f_equal.
      + assert (forall k l, In (k, l) cs -> ~ reads a l) as N1 by (intros k l X; eapply Sub; [|exact N]; intros y Hy; eapply ins_case; eauto). clear N Hd.
        induction Hcs as [|[k l] r Hb Hr IH]; [reflexivity|]. cbn [map fst snd]. rewrite (L l Hb) by (apply (N1 k); now left). f_equal. apply IH. intros k1 l1 I. apply (N1 k1). now right.
      + destruct d as [l|]; [|reflexivity]. f_equal. apply L; [now apply Hd|]. eapply Sub; [|exact N]. intros y Hy. now apply ins_def.
    - rewrite L; auto. eapply Sub; [|exact N]. intros y Hy. now apply ins_for.
    - rewrite L; auto. eapply Sub; [|exact N]. intros y Hy. now apply ins_block.
  Qed.
End Fix.

(* the port a of a generator in g is given the signal b, and nothing else is assigned to it *)
Definition driven_by (d : design) (g : nat) (a b : var) : Prop :=
  (exists i, In {| i_id := i; i_gen := g; i_proc := PWire (LVar a) (EVar b) |} d) /\
  (forall it k l e, In it d -> inside (SAssign k l e) (body_of (i_proc it)) -> lhs_var l = a -> e = EVar b).
Lemma sources_in : forall d a e, In e (sources a d) <-> exists it k l, In it d /\ inside (SAssign k l e) (body_of (i_proc it)) /\ lhs_var l = a.
Proof.
  intros d a e. unfold sources. rewrite in_flat_map. split.
  - intros (it & I & J). apply collect_in in J. destruct J as (s & Is & J). destruct s; cbn in J; try (now destruct J). destruct (Nat.eqb_spec (lhs_var l) a); [|destruct J].
    destruct J as [<-|[]]. exists it, k, l. auto.
  - intros (it & k & l & I & J & E). exists it. split; [exact I|]. apply collect_in. exists (SAssign k l e). split; [exact J|]. cbn. rewrite E, Nat.eqb_refl. now left.
Qed.
Lemma sources_driven : forall d g a b, driven_by d g a b -> exists r, sources a d = EVar b :: r.
Proof.
  intros d g a b [(i & I) A]. assert (In (EVar b) (sources a d)) as J.
  { apply sources_in. eexists. exists Blocking, (LVar a). split; [exact I|]. split; [apply inside_self|reflexivity]. }
  destruct (sources a d) as [|e r] eqn:E; [destruct J|]. assert (In e (sources a d)) as K by (rewrite E; now left). apply sources_in in K.
  destruct K as (it & k & l & K1 & K2 & K3). rewrite (A it k l e K1 K2 K3). now exists r.
Qed.
Lemma sunk_reads : forall a g d, sunk a g d = false -> forall it, In it d -> i_gen it = g -> ~ reads a (body_of (i_proc it)).
Proof.
  intros a g d S it I Eg (s & Is & R). assert (sunk a g d = true) as X; [|congruence]. apply existsb_exists. exists it. split; [exact I|]. rewrite Eg, Nat.eqb_refl. cbn.
  apply existsb_exists. exists s. split; [apply collect_in; exists s; split; [exact Is|now left]|]. unfold uses. apply mem_In. now apply reads_sinks.
Qed.
(* C345: reads become reads of the source, and the design does the same *)
Theorem C345_reads : forall own a b g d, a <> b -> own b = g -> driven_by d g a b ->
  (forall it, In it d -> i_gen it = g -> all_plain a (body_of (i_proc it))) ->
  exists d', legal_fix own a g d = Some (Ok d') /\ Forall2 (fun it it' => (i_gen it = g -> moved a b it it') /\ (i_gen it <> g -> it' = it)) d d'.
Proof.
  intros own a b g d Hab Ho D P. unfold legal_fix. destruct (sources_driven _ _ _ _ D) as [r ->]. rewrite Ho, Nat.eqb_refl. destruct (sunk a g d) eqn:S.
  - eexists. split; [reflexivity|]. clear D S. induction d as [|it d IH]; cbn [map]; constructor; [|apply IH; intros; apply P; auto; now right].
    split; [intros E; apply fix_moved; auto; apply P; [now left|exact E]|]. intros N. unfold fix_item. destruct (Nat.eqb_spec (i_gen it) g); [contradiction|reflexivity].
  - eexists. split; [reflexivity|]. pose proof (sunk_reads _ _ _ S) as NR. clear D S P. induction d as [|it d IH]; constructor; [|apply IH; intros; apply NR; auto; now right].
    split; [intros E|reflexivity]. specialize (NR it (or_introl eq_refl) E). constructor; auto; intros x; [reflexivity|]. split; [|intros [[_ X]|[_ X]]; [exact X|contradiction]].
    intros X. left. split; [intros ->; contradiction|exact X].
Qed.
Theorem C345_same_histories : forall G own a b g d d', a <> b -> G a = G b -> driven_by d g a b ->
  (forall it, In it d -> i_gen it = g -> all_plain a (body_of (i_proc it))) ->
  (forall it, In it d -> i_gen it = g -> reads a (body_of (i_proc it)) -> ~ changes_now a (body_of (i_proc it)) /\ ~ changes_now b (body_of (i_proc it))) ->
  legal_fix own a g d = Some (Ok d') -> forall h, Forall (in_range G) h -> history G d h <-> history G d' h.
Proof.
  intros G own a b g d d' Hab HG D P St M h R. unfold legal_fix in M. destruct (sources_driven _ _ _ _ D) as [r E]. rewrite E in M. destruct (sunk a g d).
  2: { inversion M; subst. reflexivity. }
  destruct (Nat.eqb (own b) g); [|discriminate]. assert (d' = map (fix_item a b g) d) as -> by (now inversion M). clear M E.
  destruct D as [(i & I) _].
  assert (forall d0 r, In {| i_id := i; i_gen := g; i_proc := PWire (LVar a) (EVar b) |} d0 -> in_range G r -> settled G d0 r -> r a = r b) as W.
  { intros d0 r0 J Rr S0. apply (proj1 (wire_eq G b a r0 Rr (eq_sym HG))). exact (S0 _ J eq_refl a). }
  apply (alike_history G (fun r => r a = r b)); [|intros r0; apply W; exact I| |exact R].
  - clear I W R h. induction d as [|it d IH]; cbn [map]; constructor; [|apply IH; intros; [apply P|apply St]; auto; now right]. unfold fix_item. destruct (Nat.eqb_spec (i_gen it) g) as [Eg|]; [|constructor; tauto].
    specialize (P it (or_introl eq_refl) Eg). constructor; cbn [i_proc].
    + apply fix_events.
    + intros x. rewrite fix_body, fix_places by exact P. apply place_assigns.
    + intros s Es. rewrite fix_body, fix_places by exact P. destruct (in_dec Nat.eq_dec a (collect_body stmt_sinks (body_of (i_proc it)))) as [J|N].
      * assert (reads a (body_of (i_proc it))) as Ra by (apply collect_in in J; destruct J as (s0 & I0 & S0); exists s0; split; [exact I0|now apply reads_sinks]).
        apply place_run; [exact HG|exact (St it (or_introl eq_refl) Eg Ra)|exact P|exact Es].
      * rewrite place_none; [reflexivity|]. intros (s0 & I0 & R0). apply N. apply collect_in. exists s0. split; [exact I0|now apply reads_sinks].
  - intros r0. apply W. apply in_map_iff. eexists. split; [|exact I]. unfold fix_item. cbn [i_gen]. rewrite Nat.eqb_refl. cbn [i_id i_gen i_proc fix_proc lhs_reads app evars].
    assert (mem a [b] = false) as ->; [|reflexivity]. apply mem_false. intros [X|[]]. congruence.
Qed.
(* signals: 0 a port of generator 2 (in generator 1), 1 its source, 2 to 4 others of generator 1 *)
Definition PG : tenv := fun x => {| d_width := match x with 2%nat => 1 | _ => 2 end; d_signed := false |}.
Definition PO : var -> nat := fun x => match x with 0%nat => 2%nat | _ => 1%nat end.
Definition wire (i : nat) (l : lhs) (e : expr) : item := {| i_id := i; i_gen := 1; i_proc := PWire l e |}.
Definition PE : design := [wire 0 (LVar 0) (EVar 1); wire 1 (LVar 3) (EVar 0); wire 2 (LVar 4) (EBin Add (EVar 0) (ESlice (EVar 0) 1 1));
  {| i_id := 3; i_gen := 1; i_proc := PComb [SIf (EVar 0) [SAssign Blocking (LVar 2) (EUn UInvert (EVar 0))] []] |};
  {| i_id := 4; i_gen := 2; i_proc := PWire (LVar 5) (EVar 0) |}]%nat.
Example C345_ex : driven_by PE 1%nat 0%nat 1%nat /\ (forall it, In it PE -> i_gen it = 1%nat -> all_plain 0%nat (body_of (i_proc it))) /\
  legal_fix PO 0%nat 1%nat PE = Some (Ok [wire 0 (LVar 0) (EVar 1); wire 1 (LVar 3) (EVar 1); wire 2 (LVar 4) (EBin Add (EVar 1) (ESlice (EVar 1) 1 1));
  {| i_id := 3; i_gen := 1; i_proc := PComb [SIf (EVar 1) [SAssign Blocking (LVar 2) (EUn UInvert (EVar 1))] []] |};
  {| i_id := 4; i_gen := 2; i_proc := PWire (LVar 5) (EVar 0) |}])%nat.
Proof.
  assert (K : forall it, In it PE -> forall s, inside s (body_of (i_proc it)) -> In s (collect_body (fun s => [s]) (body_of (i_proc it)))).
  { intros it _ s I. apply collect_in. exists s. split; [exact I|now left]. }
  split; [|split; [|reflexivity]].
  - split; [exists 0%nat; now left|]. intros it k l e I J E. apply (K it I) in J. cbn in I. destruct I as [<-|[<-|[<-|[<-|[<-|[]]]]]]; cbn in J; repeat destruct J as [J|J]; try discriminate J; try (now destruct J); injection J as <- <- <-; try discriminate E; reflexivity.
  - intros it I Eg s J. apply (K it I) in J. cbn in I. destruct I as [<-|[<-|[<-|[<-|[<-|[]]]]]]; try discriminate Eg; cbn in J; repeat destruct J as [J|J]; try (now destruct J); subst s; cbn; unfold plain_in.
    + split; [tauto|]. left. cbn. intros [X|[]]. discriminate.
    + split; [tauto|]. right. now left.
    + split; [tauto|]. right. right. split; [exact I|]. intros X; inversion X as [| | |? ? ? X0|? ? ? X0| | | | | | | |]; subst; inversion X0; subst. now apply H1.
    + right. now left.
    + split; [tauto|]. right. right. split; [exact I|]. intros X; inversion X as [| |? ? X0| | | | | | | | | |]; subst; inversion X0.
Qed.

(* what is claimed of uses that are not plain, and of ports that are not given one signal *)
Definition same (G : tenv) (d d' : design) : Prop := forall h, Forall (in_range G) h -> history G d h <-> history G d' h.
Lemma not_same : forall G d d' r, in_range G r -> settled G d r -> ~ settled G d' r -> ~ same G d d'.
Proof.
  intros G d d' r R S N E. apply N. assert (history G d' [r]) as H by (apply (E [r]); [constructor; [exact R|constructor]|now constructor]). now inversion H.
Qed.
Definition st5 (l : list Z) : venv := fun x => nth x l 0.
Lemma st5_range : forall l, Forall (fun v => 0 <= v < 4) l -> 0 <= nth 2%nat l 0 < 2 -> in_range PG (st5 l).
Proof.
  intros l F L x. unfold PG, st5. cbn [d_width]. destruct (Nat.eq_dec x 2) as [->|N]; [exact L|].
  assert (0 <= nth x l 0 < 4) as K by (destruct (le_lt_dec (List.length l) x); [rewrite nth_overflow by assumption; lia|rewrite Forall_forall in F; apply F; now apply nth_In]).
  destruct x as [|[|[|x]]]; cbn; try lia.
Qed.
Ltac settle := intros it I _ x; cbn in I; repeat (destruct I as [<-|I]; [do 6 (destruct x as [|x]; [vm_compute; reflexivity|]); vm_compute; reflexivity|]); destruct I.
Lemma inside_one : forall s k l e, inside s [SAssign k l e] -> s = SAssign k l e.
Proof. intros s k l e H. inversion H as [? I|? ? ? ? I|? ? ? ? I|? ? ? ? ? ? I|? ? ? ? I|? ? ? ? ? ? I|? ? I]; subst; destruct I as [I|[]]; try discriminate; now symmetry. Qed.
(* C346: bits of the port *)
Theorem C346_bits_refuted :
  ~ (forall G own a b g d d', a <> b -> G a = G b -> driven_by d g a b -> (forall it, In it d -> i_gen it = g -> ~ assigns b (body_of (i_proc it))) ->
       legal_fix own a g d = Some (Ok d') -> same G d d').
Proof.
  intros C. pose (d := [wire 0 (LVar 0) (EVar 1); wire 1 (LVar 2) (ESlice (EVar 0) 1 1)]).
  refine (not_same PG d [wire 0 (LVar 0) (EVar 1); wire 1 (LVar 2) (EVar 1)] (st5 [2; 2; 1]) _ _ _ (C PG PO 0%nat 1%nat 1%nat d _ _ _ _ _ _)).
  - apply st5_range; [repeat constructor; lia|cbn; lia].
  - settle.
  - intros S. specialize (S _ (or_intror (or_introl eq_refl)) eq_refl 2%nat). vm_compute in S. discriminate.
  - lia.
  - reflexivity.
  - split; [exists 0%nat; now left|]. intros it k l e [<-|[<-|[]]] J E; apply inside_one in J; injection J as -> -> ->; [reflexivity|discriminate E].
  - intros it [<-|[<-|[]]] _ (k & l & e & J & E); apply inside_one in J; injection J as -> -> ->; discriminate E.
  - reflexivity.
Qed.
(* C347: the port as an index on the left *)
Theorem C347_index_refuted :
  ~ (forall G own a b g d d', a <> b -> G a = G b -> driven_by d g a b -> (forall it, In it d -> i_gen it = g -> ~ assigns b (body_of (i_proc it))) ->
       legal_fix own a g d = Some (Ok d') -> same G d d').
Proof.
  intros C. pose (d := [wire 0 (LVar 0) (EVar 1); wire 1 (LDyn 3 (EVar 0) 1) (EVar 2)]).
  refine (not_same PG d [wire 0 (LVar 0) (EVar 1); wire 1 (LDyn 3 (EVar 0) 1) (EVar 1)] (st5 [1; 1; 0; 0]) _ _ _ (C PG PO 0%nat 1%nat 1%nat d _ _ _ _ _ _)).
  - apply st5_range; [repeat constructor; lia|cbn; lia].
  - settle.
  - intros S. specialize (S _ (or_intror (or_introl eq_refl)) eq_refl 3%nat). vm_compute in S. discriminate.
  - lia.
  - reflexivity.
  - split; [exists 0%nat; now left|]. intros it k l e [<-|[<-|[]]] J E; apply inside_one in J; injection J as -> -> ->; [reflexivity|discriminate E].
  - intros it [<-|[<-|[]]] _ (k & l & e & J & E); apply inside_one in J; injection J as -> -> ->; discriminate E.
  - reflexivity.
Qed.
(* C348: a port that is assigned bit by bit *)
Theorem C348_parts_refuted :
  ~ (forall G own a g d d', (forall it, In it d -> i_gen it = g -> all_plain a (body_of (i_proc it))) -> legal_fix own a g d = Some (Ok d') -> same G d d').
Proof.
  intros C. pose (d := [wire 0 (LSlice 0 0 0) (EVar 1); wire 1 (LSlice 0 1 1) (EVar 2); wire 2 (LVar 3) (EVar 0)]).
  refine (not_same PG d [wire 0 (LSlice 0 0 0) (EVar 1); wire 1 (LSlice 0 1 1) (EVar 2); wire 2 (LVar 3) (EVar 1)] (st5 [3; 1; 1; 3]) _ _ _ (C PG PO 0%nat 1%nat d _ _ _)).
  - apply st5_range; [repeat constructor; lia|cbn; lia].
  - settle.
  - intros S. specialize (S _ (or_intror (or_intror (or_introl eq_refl))) eq_refl 3%nat). vm_compute in S. discriminate.
  - intros it [<-|[<-|[<-|[]]]] _ s J; apply inside_one in J; subst s; cbn; unfold plain_in; (split; [tauto|]); [left|left|right; now left]; cbn; intros [X|[]]; discriminate.
  - reflexivity.
Qed.
(* C349: a port that is given a constant, whatever else is in the design *)
Theorem C349_constant_refuted : forall own a d i j x v w s, In (wire j (LVar x) (EVar a)) d ->
  legal_fix own a 1%nat (wire i (LVar a) (EConst v w s) :: d) = Some Throw /\
  ~ (forall own a g d, (exists d', legal_fix own a g d = Some (Ok d')) \/ legal_fix own a g d = None).
Proof.
  assert (K : forall own a d i j x v w s, In (wire j (LVar x) (EVar a)) d -> legal_fix own a 1%nat (wire i (LVar a) (EConst v w s) :: d) = Some Throw).
  { intros own a d i j x v w s I. unfold legal_fix, sources. cbn [flat_map wire i_proc body_of collect_body collect source_of lhs_var]. rewrite Nat.eqb_refl. cbn [app].
    assert (sunk a 1 (wire i (LVar a) (EConst v w s) :: d) = true) as ->; [|reflexivity].
    apply existsb_exists. exists (wire j (LVar x) (EVar a)). split; [now right|]. cbn. unfold uses. cbn. now rewrite Nat.eqb_refl. }
  intros own a d i j x v w s I. split; [now apply (K own a d i j x)|]. intros C. destruct (C own a 1%nat (wire i (LVar a) (EConst v w s) :: d)) as [[d' E]|E]; rewrite (K own a d i j x v w s I) in E; discriminate.
Qed.
Example C349_ex : legal_fix PO 0%nat 1%nat [wire 0 (LVar 0) (EConst 3 2 false); wire 1 (LVar 3) (EVar 0)] = Some Throw.
Proof. reflexivity. Qed.
Print Assumptions C345_reads.
Print Assumptions C345_same_histories.
Print Assumptions C346_bits_refuted.
Print Assumptions C347_index_refuted.
Print Assumptions C348_parts_refuted.
Print Assumptions C349_constant_refuted.
