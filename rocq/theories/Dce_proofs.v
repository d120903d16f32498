(* Proofs about Dce_model. *)
From Verif Require Import Base SV_spec IR IRSem_spec IR_lemmas IfCase_proofs IR_frame Flow_spec Flow_proofs Design_spec Design_proofs
  Dce_spec Dce_model.
Local Open Scope Z_scope.

Lemma inside_some : forall s l, inside s l -> exists q, In q l /\ inside s [q].
Proof.
  intros s l I. destruct I as [l I|l c t f I K|l c t f I K|l e cs d k b I J K|l e cs b I K|l i a b st body I K|l body I K].
  - exists s. split; auto. apply inside_self.
  - exists (SIf c t f). split; auto. now apply ins_then.
  - exists (SIf c t f). split; auto. now apply ins_else.
  - exists (SSwitch e cs d). split; auto. eapply ins_case; eauto.
  - exists (SSwitch e cs (Some b)). split; auto. now apply ins_def.
  - exists (SFor i a b st body). split; auto. now apply ins_for.
  - exists (SBlock body). split; auto. now apply ins_block.
Qed.
Lemma inside_cons : forall s a l, inside s (a :: l) -> inside s [a] \/ inside s l.
Proof.
  intros s a l I. destruct (inside_some _ _ I) as (q & [<-|J] & K); [now left|]. right. eapply inside_elem; eauto.
Qed.

(* ---- taking statements away ---- *)
Section Drop.
  Variable gone : stmt -> bool.
  Hypothesis only : forall s, gone s = true -> exists k l e, s = SAssign k l e.
  Notation ds := (drop_stmt gone).
  Notation db := (drop_body gone).
  Lemma drop_if : forall c t f, ds (SIf c t f) = SIf c (db t) (db f).
  Proof. reflexivity. Qed.
  Lemma drop_switch : forall e cs d, ds (SSwitch e cs d) =
    SSwitch e (map (fun cb => (fst cb, db (snd cb))) cs) (match d with Some b => Some (db b) | None => None end).
  Proof. reflexivity. Qed.
  Lemma drop_for : forall i a b s body, ds (SFor i a b s body) = SFor i a b s (db body).
  Proof. reflexivity. Qed.
  Lemma drop_block : forall b, ds (SBlock b) = SBlock (db b).
  Proof. reflexivity. Qed.
  Lemma in_db : forall l s, In s (db l) <-> exists s0, In s0 l /\ gone s0 = false /\ s = ds s0.
  Proof.
    induction l as [|a l IH]; intros s; cbn [drop_body].
    - split; [intros []|intros (? & [] & _)].
    - destruct (gone a) eqn:Ga.
      + rewrite IH. split; intros (s0 & I & R); exists s0; [split; [now right|exact R]|].
        destruct I as [->|I]; [destruct R; congruence|auto].
      + cbn. rewrite IH. split.
        * intros [<-|(s0 & I & R)]; [exists a|exists s0]; tauto.
        * intros (s0 & [->|I] & G & ->); [now left|right; exists s0; auto].
  Qed.
  Lemma drop_inside : forall s l, inside s (db l) -> exists s0, inside s0 l /\ gone s0 = false /\ s = ds s0.
  Proof.
    intros s l I. remember (db l) as m eqn:Em. revert l Em.
    induction I as [m I|m c t f I K IH|m c t f I K IH|m e cs d k b I J K IH|m e cs b I K IH|m i a b st body I K IH|m body I K IH];
      intros l ->; apply in_db in I; destruct I as (s0 & I & G0 & E).
    - exists s0. repeat split; auto. now apply in_here.
    - destruct s0; try discriminate. rewrite drop_if in E. injection E as -> -> ->. destruct (IH _ eq_refl) as (s1 & I1 & R).
      exists s1. split; auto. eapply in_then; eauto.
    - destruct s0; try discriminate. rewrite drop_if in E. injection E as -> -> ->. destruct (IH _ eq_refl) as (s1 & I1 & R).
      exists s1. split; auto. eapply in_else; eauto.
    - destruct s0 as [| |e0 cs0 d0| | | | |]; try discriminate. rewrite drop_switch in E. injection E as -> -> ->.
      apply in_map_iff in J. destruct J as ([k0 b0] & E & J). cbn in E. injection E as <- <-. destruct (IH _ eq_refl) as (s1 & I1 & R).
      exists s1. split; auto. eapply in_case; eauto.
    - destruct s0 as [| |e0 cs0 [b0|]| | | | |]; try discriminate. rewrite drop_switch in E. injection E as -> -> ->. destruct (IH _ eq_refl) as (s1 & I1 & R).
      exists s1. split; auto. eapply in_default; eauto.
    - destruct s0; try discriminate. rewrite drop_for in E. injection E as -> -> -> -> ->. destruct (IH _ eq_refl) as (s1 & I1 & R).
      exists s1. split; auto. eapply in_for; eauto.
    - destruct s0; try discriminate. rewrite drop_block in E. injection E as ->. destruct (IH _ eq_refl) as (s1 & I1 & R).
      exists s1. split; auto. eapply in_block; eauto.
  Qed.
  Lemma inside_drop : forall s l, inside s l -> gone s = false -> inside (ds s) (db l).
  Proof.
    assert (forall s, (forall k l e, s <> SAssign k l e) -> gone s = false) as K0.
    { intros s N. destruct (gone s) eqn:Gs; [|reflexivity]. destruct (only _ Gs) as (k & l & e & E). now apply N in E. }
    intros s l I Gs. induction I as [m I|m c t f I K IH|m c t f I K IH|m e cs d k b I J K IH|m e cs b I K IH|m i a b st body I K IH|m body I K IH].
    - apply in_here. apply in_db. eauto.
    - eapply in_then; [apply in_db; exists (SIf c t f); split; [exact I|]; split; [apply K0; congruence|reflexivity]|exact IH].
    - eapply in_else; [apply in_db; exists (SIf c t f); split; [exact I|]; split; [apply K0; congruence|reflexivity]|exact IH].
    - eapply in_case; [apply in_db; exists (SSwitch e cs d); split; [exact I|]; split; [apply K0; congruence|rewrite drop_switch; reflexivity]| |exact IH].
      apply in_map_iff. exists (k, b). auto.
    - eapply in_default; [apply in_db; exists (SSwitch e cs (Some b)); split; [exact I|]; split; [apply K0; congruence|rewrite drop_switch; reflexivity]|exact IH].
    - eapply in_for; [apply in_db; exists (SFor i a b st body); split; [exact I|]; split; [apply K0; congruence|reflexivity]|exact IH].
    - eapply in_block; [apply in_db; exists (SBlock body); split; [exact I|]; split; [apply K0; congruence|reflexivity]|exact IH].
  Qed.
  Lemma reads_ds : forall x s, reads_stmt x (ds s) <-> reads_stmt x s.
  Proof.
    intros x s. destruct s; try (split; exact (fun H => H)).
    - rewrite drop_if. split; intros R; inversion R; subst; now constructor.
    - rewrite drop_switch. split; intros R; inversion R; subst; now constructor.
    - rewrite drop_for. split; intros R; inversion R.
    - rewrite drop_block. split; intros R; inversion R.
  Qed.
  Lemma reads_db : forall x l, reads x (db l) <-> exists s, inside s l /\ gone s = false /\ reads_stmt x s.
  Proof.
    intros x l. split.
    - intros (s & I & R). destruct (drop_inside _ _ I) as (s0 & I0 & G0 & ->). exists s0. repeat split; auto. now apply reads_ds.
    - intros (s & I & G0 & R). exists (ds s). split; [now apply inside_drop|now apply reads_ds].
  Qed.
  Lemma ds_assign : forall s k l e, ds s = SAssign k l e <-> s = SAssign k l e.
  Proof. intros s k l e. destruct s; try (split; exact (fun H => H)); split; discriminate. Qed.
  Lemma assigns_db : forall x l, assigns x (db l) <-> exists k lh e, inside (SAssign k lh e) l /\ gone (SAssign k lh e) = false /\ lhs_var lh = x.
  Proof.
    intros x l. split.
    - intros (k & lh & e & I & R). destruct (drop_inside _ _ I) as (s0 & I0 & G0 & E). symmetry in E. apply (proj1 (ds_assign s0 k lh e)) in E. subst s0. eauto 7.
    - intros (k & lh & e & I & G0 & R). exists k, lh, e. split; [|exact R]. now apply (inside_drop _ _ I).
  Qed.
  Lemma touches_db : forall x l, touches x (db l) -> touches x l.
  Proof.
    intros x l [A|(a & b & st & bd & I)].
    - apply assigns_db in A. destruct A as (k & lh & e & I & _ & E). left. exists k, lh, e. auto.
    - destruct (drop_inside _ _ I) as (s0 & I0 & _ & E). right.
      destruct s0; try discriminate. rewrite drop_for in E. injection E as -> -> -> -> ->. eauto.
  Qed.

  Variables (G : tenv) (h : var -> bool).
  Definition into (s : stmt) : bool := match s with SAssign _ l _ => h (lhs_var l) | _ => false end.
  Definition fine (l : list stmt) : Prop := forall s, inside s l ->
    gone s = into s /\ (gone s = false -> forall y, reads_stmt y s -> h y = false).
  Lemma fine_incl : forall a b, (forall s, inside s a -> inside s b) -> fine b -> fine a.
  Proof. intros a b I F s Hs. apply F. auto. Qed.
  Definition QD (s : stmt) : Prop := fine [s] -> gone s = false -> forall st st', st_status st = Running -> rel h st st' ->
    rel h (exec G s st) (exec G (ds s) st').
  Lemma ev_rel : forall e st st', rel h st st' -> (forall y, In y (evars e) -> h y = false) ->
    ev G (st_cur st) e = ev G (st_cur st') e.
  Proof. intros e st st' (A & _) H. apply ev_agree. intros x I. apply A. auto. Qed.
  Lemma drop_gone : forall s st st', gone s = true -> into s = true -> rel h st st' ->
    rel h (exec G s st) st' /\ st_status (exec G s st) = st_status st.
  Proof.
    intros s st st' Gs Is (A & B & C). destruct s as [k l e| | | | | | |]; try discriminate. cbn in Is. cbn [exec].
    unfold do_assign. destruct k; (split; [|reflexivity]); repeat split; cbn; auto;
      try (intros x Hx; unfold do_write, upd; rewrite target_var; destruct (Nat.eqb_spec x (lhs_var l)); [congruence|auto]).
    rewrite filter_app. cbn. unfold vis at 2. rewrite target_var, Is. cbn. now rewrite app_nil_r.
  Qed.
  Lemma drop_run : forall l, Forall QD l -> fine l -> forall st st', st_status st = Running -> rel h st st' ->
    rel h (run G l st) (run G (db l) st').
  Proof.
    induction 1 as [|s r Hs Hr IH]; intros F st st' St R; [exact R|].
    assert (fine r) as F1 by (eapply fine_incl; [|exact F]; intros y; apply ins_tl).
    destruct (F s) as [F2 F3]; [apply ins_hd, inside_self|].
    cbn [drop_body]. rewrite run_cons. destruct (gone s) eqn:Gs.
    - destruct (drop_gone s st st' Gs (eq_sym F2) R) as [R2 S2]. rewrite S2, St. apply IH; auto. congruence.
    - rewrite run_cons. assert (rel h (exec G s st) (exec G (ds s) st')) as R2
        by (apply Hs; auto; eapply fine_incl; [|exact F]; intros y; apply ins_hd).
      destruct R2 as (A & B & C). rewrite <- C. destruct (st_status (exec G s st)) eqn:E; try (split; [exact A|split; [exact B|congruence]]).
      apply IH; auto. split; [exact A|split; [exact B|congruence]].
  Qed.
  Lemma drop_sim : forall s, QD s.
  Proof.
    induction s as [k l e|c t f Ht Hf|e cs d Hcs Hd|i a b sp body Hb|body Hb|e| |k] using stmt_ind'; intros F Gs st st' St R;
      destruct (F _ (inside_self _)) as [F2 F3]; specialize (F3 Gs).
    - change (ds (SAssign k l e)) with (SAssign k l e). cbn [exec]. unfold do_assign.
      rewrite <- (ev_rel e st st' R) by (intros y I; apply F3; constructor; auto).
      assert (target G (st_cur st) l (ev G (st_cur st) e) = target G (st_cur st') l (ev G (st_cur st) e)) as E2.
      { destruct l as [x|x hi lo|x ix w]; cbn; try reflexivity.
        rewrite (ev_rel ix st st' R) by (intros y I; apply F3; constructor; auto). reflexivity. }
      rewrite <- E2. rewrite Gs in F2. cbn in F2. destruct R as (A & B & C).
      assert (forall x, h x = false -> do_write (st_cur st) (target G (st_cur st) l (ev G (st_cur st) e)) x =
                                      do_write (st_cur st') (target G (st_cur st) l (ev G (st_cur st) e)) x) as W.
      { intros x Hx. unfold do_write, upd. rewrite target_var. destruct (Nat.eqb_spec x (lhs_var l)) as [->|]; auto. now rewrite A. }
      destruct k; (split; [|split]); cbn; auto. rewrite filter_app, B. cbn. unfold vis at 1. rewrite target_var, <- F2. reflexivity.
    - rewrite drop_if, !exec_if. unfold truth. rewrite (ev_rel c st st' R) by (intros y I; apply F3; now constructor).
      destruct (negb _); apply drop_run; auto; eapply fine_incl; try exact F; intros y Hy; [now apply ins_then|now apply ins_else].
    - rewrite drop_switch, !exec_switch, (ev_rel e st st' R) by (intros y I; apply F3; now constructor).
      assert (forall k b, In (k, b) cs -> fine b) as N1
        by (intros k b I; eapply fine_incl; try exact F; intros y Hy; eapply ins_case; eauto).
      assert (forall b, d = Some b -> fine b) as N2
        by (intros b ->; eapply fine_incl; try exact F; intros y Hy; now apply ins_def).
      generalize (ev G (st_cur st') e) (ewidth G e). intros v w. clear F F2 F3 Gs.
      induction Hcs as [|[k b] r Hb Hr IH]; cbn [map fst snd pick].
      + destruct d as [b|]; [|exact R]. apply drop_run; auto.
      + destruct (v =? enc w k); [apply drop_run; auto; apply (N1 k); now left|].
        apply IH. intros k1 b1 I1. apply (N1 k1). now right.
    - rewrite drop_for, !exec_for. assert (fine body) as N by (eapply fine_incl; try exact F; intros y Hy; now apply ins_for).
      clear F F2 F3 Gs. revert st st' St R. induction (for_values a b sp) as [|v vs IH]; intros st st' St R; [exact R|]. cbn [loop].
      set (s1 := {| st_cur := upd (st_cur st) i _; st_nba := _; st_status := _ |}).
      set (s2 := {| st_cur := upd (st_cur st') i _; st_nba := _; st_status := _ |}).
      assert (rel h s1 s2) as R1.
      { destruct R as (A & B & C). subst s1 s2. split; [|split]; cbn; auto. intros x Hx. unfold upd. destruct (Nat.eqb x i); auto. }
      assert (rel h (run G body s1) (run G (db body) s2)) as R2 by (apply drop_run; auto; subst s1; exact St).
      destruct R2 as (A & B & C). rewrite <- C. destruct (st_status (run G body s1)) eqn:E.
      * apply IH; auto. split; [exact A|split; [exact B|congruence]].
      * split; [exact A|split; [exact B|reflexivity]].
      * split; [exact A|split; [exact B|congruence]].
    - rewrite drop_block, !exec_block. apply drop_run; auto. eapply fine_incl; try exact F; intros y Hy; now apply ins_block.
    - change (ds (SReturn e)) with (SReturn e). cbn [exec]. rewrite (ev_rel e st st' R) by (intros y I; apply F3; now constructor).
      destruct R as (A & B & C). split; [exact A|split; [exact B|reflexivity]].
    - destruct R as (A & B & C). split; [exact A|split; [exact B|reflexivity]].
    - exact R.
  Qed.
  Lemma drop_simulates : forall l, fine l -> simulates G h l (db l).
  Proof. intros l F st st' St R. apply drop_run; auto. apply Forall_forall. intros; apply drop_sim. Qed.
  Lemma drop_shrunk : forall it, fine (body_of (i_proc it)) -> (forall e, In e (events_of (i_proc it)) -> h (snd e) = false) ->
    shrunk G h it (drop_item gone it).
  Proof.
    intros it F Ev. unfold drop_item. destruct (i_proc it) as [l e|b|evs b] eqn:E; cbn [body_of] in F.
    - destruct (F _ (inside_self _)) as [F2 F3]. destruct (gone (SAssign Blocking l e)) eqn:Gs.
      + left. split; [reflexivity|]. rewrite E. cbn [body_of]. intros x [(k & lh & e1 & I & <-)|(a & b & st & bd & I)].
        * apply inside_subs in I. cbn in I. destruct I as [I|[]]. injection I as _ <- _. now symmetry.
        * apply inside_subs in I. cbn in I. destruct I as [I|[]]. discriminate.
      + right. exists it. rewrite E. split; [reflexivity|]. repeat (split; [reflexivity|]). split; [exact Ev|].
        cbn [body_of]. pose proof (drop_simulates _ F) as S0. cbn [drop_body] in S0. rewrite Gs in S0. exact S0.
    - right. eexists. split; [reflexivity|]. rewrite E. cbn. repeat (split; [reflexivity|]). split; [exact Ev|]. now apply drop_simulates.
    - right. eexists. split; [reflexivity|]. rewrite E. cbn. repeat (split; [reflexivity|]). split; [exact Ev|]. now apply drop_simulates.
  Qed.
  (* what is in the items that stay *)
  Lemma drop_item_in : forall it it', In it' (drop_item gone it) -> i_id it' = i_id it /\ i_gen it' = i_gen it /\
    events_of (i_proc it') = events_of (i_proc it) /\ body_of (i_proc it') = db (body_of (i_proc it)).
  Proof.
    intros it it' I. unfold drop_item in I. destruct (i_proc it) as [l e|b|evs b] eqn:E.
    - destruct (gone (SAssign Blocking l e)) eqn:Gs; [destruct I|]. destruct I as [<-|[]]. rewrite E. cbn. rewrite Gs. auto.
    - destruct I as [<-|[]]. cbn. auto.
    - destruct I as [<-|[]]. cbn. auto.
  Qed.
  Lemma drop_item_some : forall it s, inside s (body_of (i_proc it)) -> gone s = false ->
    exists it', In it' (drop_item gone it) /\ body_of (i_proc it') = db (body_of (i_proc it)) /\ i_gen it' = i_gen it.
  Proof.
    intros it s I Gs. unfold drop_item. destruct (i_proc it) as [l e|b|evs b] eqn:E.
    - cbn in I. apply inside_subs in I. cbn in I. destruct I as [<-|[]]. rewrite Gs. exists it. rewrite E. cbn. rewrite Gs.
      split; [now left|auto].
    - eexists. split; [now left|]. auto.
    - eexists. split; [now left|]. auto.
  Qed.
End Drop.
Lemma drop_none : forall l, drop_body (fun _ => false) l = l.
Proof.
  assert (forall s, drop_stmt (fun _ => false) s = s) as A.
  { assert (forall l, Forall (fun s => drop_stmt (fun _ => false) s = s) l -> drop_body (fun _ => false) l = l) as B
      by (induction 1 as [|s r E _ IH]; cbn [drop_body]; [reflexivity|]; now rewrite E, IH).
    induction s as [k l e|c t f Ht Hf|e cs d Hcs Hd|i a b sp body Hb|body Hb|e| |k] using stmt_ind'; try reflexivity.
    - rewrite drop_if, !B; auto.
    - rewrite drop_switch. f_equal.
      + induction Hcs as [|[k b] r Hb Hr IH]; cbn; [reflexivity|]. cbn in IH. rewrite IH, B by exact Hb. reflexivity.
      + destruct d as [b|]; [|reflexivity]. f_equal. apply B, Hd. reflexivity.
    - rewrite drop_for, B; auto.
    - rewrite drop_block, B; auto. }
  induction l as [|s r IH]; cbn [drop_body]; [reflexivity|]. now rewrite A, IH.
Qed.

(* ---- sinks and sources ---- *)
Section CollectIn.
  Context {A : Type}.
  Variable f : stmt -> list A.
  Lemma collect_eq : forall s, collect f s = (f s ++
    match s with
    | SIf _ t e => collect_body f t ++ collect_body f e
    | SSwitch _ cs d => flat_map (fun cb => collect_body f (snd cb)) cs ++ match d with Some b => collect_body f b | None => [] end
    | SFor _ _ _ _ b => collect_body f b
    | SBlock b => collect_body f b
    | _ => []
    end)%list.
  Proof. intros []; reflexivity. Qed.
  Lemma collect_in : forall a l, In a (collect_body f l) <-> exists s, inside s l /\ In a (f s).
  Proof.
    intros a. assert (forall s, In a (collect f s) <-> exists s0, inside s0 [s] /\ In a (f s0)) as K.
    { assert (forall l, Forall (fun s => In a (collect f s) <-> exists s0, inside s0 [s] /\ In a (f s0)) l ->
               (In a (collect_body f l) <-> exists s, inside s l /\ In a (f s))) as B.
      { induction 1 as [|s r E _ IH]; [split; [intros []|intros (s & I & _); inversion I; tauto]|].
        unfold collect_body in *. cbn [flat_map]. rewrite in_app_iff, E, IH. split.
        - intros [(s0 & I & J)|(s0 & I & J)]; exists s0; split; auto; [now apply ins_hd|now apply ins_tl].
        - intros (s0 & I & J). destruct (inside_cons _ _ _ I); [left|right]; eauto. }
      induction s as [k l e|c t f0 Ht Hf|e cs d Hcs Hd|i a0 b sp body Hb|body Hb|e| |k] using stmt_ind'; rewrite collect_eq;
        try (rewrite app_nil_r; split; [intros J; eexists; split; [apply inside_self|exact J]|
             intros (s0 & I & J); apply inside_subs in I; cbn in I; destruct I as [<-|[]]; exact J]).
      - rewrite !in_app_iff, (B t Ht), (B f0 Hf). split.
        + intros [J|[(s0 & I & J)|(s0 & I & J)]]; [exists (SIf c t f0); split; auto; apply inside_self|exists s0; split; auto; now apply ins_then|exists s0; split; auto; now apply ins_else].
        + intros (s0 & I & J). inversion I; subst; match goal with H : In _ [_] |- _ => destruct H as [E|[]] end; try discriminate;
            [subst; now left|injection E as <- <- <-; right; left; eauto|injection E as <- <- <-; right; right; eauto].
      - rewrite !in_app_iff, in_flat_map. split.
        + intros [J|[([k b] & I & J)|J]].
          * exists (SSwitch e cs d); split; auto; apply inside_self.
          * rewrite Forall_forall in Hcs. apply (B b (Hcs _ I)) in J. destruct J as (s0 & I0 & J). exists s0; split; auto. eapply ins_case; eauto.
          * destruct d as [b|]; [|destruct J]. apply (B b (Hd b eq_refl)) in J. destruct J as (s0 & I0 & J). exists s0; split; auto. now apply ins_def.
        + intros (s0 & I & J). inversion I; subst; match goal with H : In _ [_] |- _ => destruct H as [E|[]] end; try discriminate.
          * subst; now left.
          * injection E as <- <- <-. right; left. exists (k, b). split; auto. rewrite Forall_forall in Hcs. apply (B b (Hcs (k, b) H0)). eauto.
          * injection E as <- <- ->. right; right. apply (B b (Hd b eq_refl)). eauto.
      - rewrite in_app_iff, (B body Hb). split.
        + intros [J|(s0 & I & J)]; [exists (SFor i a0 b sp body); split; auto; apply inside_self|exists s0; split; auto; now apply ins_for].
        + intros (s0 & I & J). inversion I; subst; match goal with H : In _ [_] |- _ => destruct H as [E|[]] end; try discriminate;
            [subst; now left|injection E as <- <- <- <- <-; right; eauto].
      - rewrite in_app_iff, (B body Hb). split.
        + intros [J|(s0 & I & J)]; [exists (SBlock body); split; auto; apply inside_self|exists s0; split; auto; now apply ins_block].
        + intros (s0 & I & J). inversion I; subst; match goal with H : In _ [_] |- _ => destruct H as [E|[]] end; try discriminate;
            [subst; now left|injection E as <-; right; eauto]. }
    intros l. unfold collect_body. rewrite in_flat_map. split.
    - intros (s & I & J). apply K in J. destruct J as (s0 & I0 & J). exists s0. split; auto. eapply inside_elem; eauto.
    - intros (s0 & I & J). destruct (inside_some _ _ I) as (q & Iq & I2). exists q. split; auto. apply K. eauto.
  Qed.
End CollectIn.
Lemma reads_sinks : forall x s, In x (stmt_sinks s) <-> reads_stmt x s.
Proof.
  intros x s. destruct s; cbn [stmt_sinks]; split; intros H; try solve [destruct H|inversion H].
  - constructor. now apply in_app_iff.
  - inversion H; subst. now apply in_app_iff.
  - now constructor.
  - inversion H; auto.
  - now constructor.
  - inversion H; auto.
  - now constructor.
  - inversion H; auto.
Qed.
Lemma sinks_in : forall x d, In x (sinks d) <-> d_reads x d.
Proof.
  intros x d. unfold sinks. rewrite in_flat_map. split; intros (it & I & J); exists it; split; auto.
  - apply collect_in in J. destruct J as (s & J & K). exists s. split; auto. now apply reads_sinks.
  - destruct J as (s & J & K). apply collect_in. exists s. split; auto. now apply reads_sinks.
Qed.
Lemma sources_in : forall x d, In x (sources d) <-> d_assigns x d.
Proof.
  intros x d. unfold sources. rewrite in_flat_map. split; intros (it & I & J); exists it; split; auto.
  - apply collect_in in J. destruct J as (s & J & K). destruct s as [k l e| | | | | | |]; try destruct K as [].
    + exists k, l, e. auto.
    + destruct H.
  - destruct J as (k & l & e & J & K). apply collect_in. exists (SAssign k l e). split; auto. now left.
Qed.
Lemma mem_false : forall x l, mem x l = false <-> ~ In x l.
Proof. intros x l. rewrite <- mem_In. destruct (mem x l); split; congruence. Qed.
Lemma no_sink_true : forall s x, no_sink s x = true <-> ~ d_reads x (s_design s) /\ ~ In x (s_stale s).
Proof. intros s x. unfold no_sink. now rewrite andb_true_iff, !negb_true_iff, !mem_false, sinks_in. Qed.
Lemma no_source_true : forall s x, no_source s x = true <-> ~ d_assigns x (s_design s).
Proof. intros s x. unfold no_source. now rewrite negb_true_iff, mem_false, sources_in. Qed.

(* ---- removing one signal ---- *)
Definition rem (x : var) (st : stmt) : bool := assigns_to x st || assign_reads x st.
Lemma rem_only : forall x s, rem x s = true -> exists k l e, s = SAssign k l e.
Proof. intros x [k l e| | | | | | |] H; try discriminate. eauto. Qed.
Lemma rem_unread : forall x d it s, ~ d_reads x d -> In it d -> inside s (body_of (i_proc it)) -> rem x s = assigns_to x s.
Proof.
  intros x d it s N I J. unfold rem. destruct s as [k l e| | | | | | |]; try reflexivity. cbn [assign_reads].
  destruct (mem x _) eqn:M; [|apply orb_false_r]. exfalso. apply N. exists it. split; auto. exists (SAssign k l e). split; auto.
  constructor. apply in_app_iff. now apply mem_In.
Qed.
Lemma in_drop : forall g d it', In it' (drop_design g d) <-> exists it, In it d /\ In it' (drop_item g it).
Proof. intros. apply in_flat_map. Qed.
Lemma remove_agree : forall G x d, NoDup (map i_id d) -> ~ d_reads x d -> ~ d_event x d ->
  forall sched r y, y <> x -> c_cur (play G d sched (init r)) y = c_cur (play G (drop_design (rem x) d) sched (init r)) y.
Proof.
  intros G x d N R E sched r y Hy. unfold drop_design. apply (lock_agree G (Nat.eqb x) (drop_item (rem x)) d N).
  - intros it I. apply drop_shrunk.
    + intros s J. rewrite (rem_unread x d it s R I J). split.
      * destruct s; try reflexivity. cbn. apply Nat.eqb_sym.
      * intros _ z Rz. destruct (Nat.eqb_spec x z) as [<-|]; [|reflexivity]. exfalso. apply R. exists it. split; auto. exists s. auto.
    + intros e Ie. destruct (Nat.eqb_spec x (snd e)) as [->|]; [|reflexivity]. exfalso. apply E. exists it, e. auto.
  - apply Nat.eqb_neq. congruence.
Qed.
Lemma drop_ids : forall g d, NoDup (map i_id d) -> NoDup (map i_id (drop_design g d)).
Proof.
  intros g. assert (forall d i, In i (map i_id (drop_design g d)) -> In i (map i_id d)) as A.
  { intros d i I. apply in_map_iff in I. destruct I as (it' & <- & I). apply in_drop in I. destruct I as (it & I & J).
    apply drop_item_in in J. destruct J as [-> _]. now apply in_map. }
  induction d as [|a d IH]; intros N; [constructor|]. inversion N as [|? ? N1 N2]; subst.
  cbn [drop_design flat_map]. fold (drop_design g d). unfold drop_item.
  destruct (i_proc a); [destruct (g _)| |]; cbn; auto; constructor; auto.
Qed.

(* ---- the whole pass ---- *)
Section Whole.
  Variables (H : hierarchy) (d : design).
  Hypothesis W : good H d.
  Notation vars := (h_vars H).
  Notation ports := (h_ports H).
  Notation parent := (h_parent H).
  Notation kind := (h_kind H).
  Notation owner := (h_owner H).
  Notation gens := (h_gens H).
  Definition removable (x : var) : Prop := exists g, In x (vars g) \/ (In x (ports g) /\ parent g <> None).
  Definition part (b' b : list stmt) : Prop :=
    (forall x, reads x b' -> reads x b) /\ (forall k l e, inside (SAssign k l e) b' -> inside (SAssign k l e) b) /\
    (forall x, touches x b' -> touches x b).
  Definition sub (d' d : design) : Prop := forall it', In it' d' -> exists it, In it d /\ i_gen it' = i_gen it /\
    events_of (i_proc it') = events_of (i_proc it) /\ part (body_of (i_proc it')) (body_of (i_proc it)).
  Lemma part_assigns : forall x b' b, part b' b -> assigns x b' -> assigns x b.
  Proof. intros x b' b (_ & P & _) (k & l & e & I & E). exists k, l, e. auto. Qed.
  Lemma sub_reads : forall x a b, sub a b -> d_reads x a -> d_reads x b.
  Proof. intros x a b S0 (it' & I & R). destruct (S0 _ I) as (it & J & _ & _ & P & _). exists it. auto. Qed.
  Lemma sub_assigns : forall x a b, sub a b -> d_assigns x a -> d_assigns x b.
  Proof. intros x a b S0 (it' & I & R). destruct (S0 _ I) as (it & J & _ & _ & P). exists it. split; auto. eapply part_assigns; eauto. Qed.
  Lemma sub_event : forall x a b, sub a b -> d_event x a -> d_event x b.
  Proof. intros x a b S0 (it' & e & I & J & E). destruct (S0 _ I) as (it & K & _ & Ev & _). exists it, e. rewrite <- Ev. auto. Qed.
  Lemma sub_trans : forall a b c, sub a b -> sub b c -> sub a c.
  Proof.
    intros a b c S1 S2 i1 I1. destruct (S1 _ I1) as (i2 & I2 & E1 & E2 & P1 & P2 & P3). destruct (S2 _ I2) as (i3 & I3 & F1 & F2 & Q1 & Q2 & Q3).
    exists i3. split; auto. split; [congruence|]. split; [congruence|]. repeat split; auto.
  Qed.
  Lemma sub_drop : forall x a, sub (drop_design (rem x) a) a.
  Proof.
    intros x a it' I. apply in_drop in I. destruct I as (it & I & J). apply drop_item_in in J. destruct J as (_ & E1 & E2 & E3).
    exists it. split; auto. split; auto. split; auto. rewrite E3. split; [|split].
    - intros y R. apply reads_db in R; [|apply rem_only]. destruct R as (s & R1 & _ & R2). exists s. auto.
    - intros k l e R. destruct (drop_inside _ _ _ R) as (s0 & R1 & _ & R2). symmetry in R2. apply (proj1 (ds_assign _ _ _ _ _)) in R2. now subst.
    - intros y R. eapply touches_db; eauto. apply rem_only.
  Qed.

  Definition no_event (s : dstate) : Prop := forall x, d_event x d -> ~ In x (s_gone s).
  Record Inv (s : dstate) : Prop := {
    v_ids : NoDup (map i_id (s_design s));
    v_sub : sub (s_design s) d;
    v_outs : forall g x, In x (ports g) -> kind x = KOut -> parent g <> None -> d_reads x (s_design s) -> d_assigns x (s_design s);
    v_gone : forall x, In x (s_gone s) -> ~ d_reads x (s_design s) /\ ~ d_assigns x (s_design s);
    v_rem : forall x, In x (s_gone s) -> removable x;
    v_agree : no_event s -> forall G sched r y, ~ In y (s_gone s) ->
      c_cur (play G d sched (init r)) y = c_cur (play G (s_design s) sched (init r)) y }.
  Lemma part_refl : forall b, part b b.
  Proof. intros b; split; [|split]; auto. Qed.
  Lemma inv_start : Inv {| s_design := d; s_stale := []; s_gone := [] |}.
  Proof.
    split; cbn.
    - apply W.
    - intros it I. exists it. repeat (split; auto).
    - intros. eapply g_outputs; eauto.
    - intros x [].
    - intros x [].
    - reflexivity.
  Qed.
  Lemma inv_remove : forall s x, Inv s -> ~ d_reads x (s_design s) -> removable x -> Inv (remove_var x s).
  Proof.
    intros s x V N Rx. pose proof (sub_drop x (s_design s)) as SD. split; cbn [remove_var s_design s_gone s_stale].
    - apply drop_ids, V.
    - eapply sub_trans; [exact SD|]. apply V.
    - intros g p I K P R. pose proof (v_outs _ V g p I K P (sub_reads _ _ _ SD R)) as (it & Ii & k & l & e & Is & E).
      assert (p <> x) as Hp by (intros ->; apply N; eapply sub_reads; eauto).
      assert (rem x (SAssign k l e) = false) as Gs.
      { rewrite (rem_unread x _ it _ N Ii Is). cbn. rewrite E. now apply Nat.eqb_neq. }
      destruct (drop_item_some (rem x) it _ Is Gs) as (it' & I' & Eb & _). exists it'. split; [apply in_drop; eauto|].
      rewrite Eb. apply assigns_db; [apply rem_only|]. eauto 7.
    - assert (~ d_assigns x (drop_design (rem x) (s_design s))) as Nx.
      { intros (it' & I & R). apply in_drop in I. destruct I as (it & I & J). apply drop_item_in in J. destruct J as (_ & _ & _ & Eb).
        rewrite Eb in R. apply assigns_db in R; [|apply rem_only]. destruct R as (k & l & e & R1 & R2 & R3).
        unfold rem in R2. cbn in R2. rewrite R3, Nat.eqb_refl in R2. discriminate. }
      intros y [<-|Iy].
      + split; [intros R; apply N; eapply sub_reads; eauto|exact Nx].
      + destruct (v_gone _ V y Iy) as [A B]. split; intros R; [apply A; eapply sub_reads; eauto|apply B; eapply sub_assigns; eauto].
    - intros y [<-|Iy]; [exact Rx|]. now apply V.
    - intros Ev G sched r y Hy. cbn in Hy.
      rewrite (v_agree _ V) by (try (intros z Hz Iz; apply (Ev z Hz); now right); tauto).
      apply remove_agree; [apply V|exact N| |intros ->; apply Hy; now left].
      intros E. apply (Ev x); [|now left]. eapply sub_event; [apply V|exact E].
  Qed.
  (* what later steps keep *)
  Definition later (s s' : dstate) : Prop :=
    sub (s_design s') (s_design s) /\ incl (s_gone s) (s_gone s') /\ incl (s_stale s) (s_stale s').
  Lemma later_refl : forall s, later s s.
  Proof. intros s. split; [|split; apply incl_refl]. intros it I. exists it. repeat (split; auto). Qed.
  Lemma later_trans : forall a b c, later a b -> later b c -> later a c.
  Proof. intros a b c (A1 & A2 & A3) (B1 & B2 & B3). split; [eapply sub_trans; eauto|split; eapply incl_tran; eauto]. Qed.
  Lemma later_remove : forall x s, later s (remove_var x s).
  Proof. intros x s. split; [apply sub_drop|]. split; [apply incl_tl, incl_refl|apply incl_appl, incl_refl]. Qed.
  (* reads of a variable stay while nothing that is assigned in its generator is removed *)
  Definition local_reads (g : nat) (x : var) (s : dstate) : Prop := exists it, In it (s_design s) /\ i_gen it = g /\ reads x (body_of (i_proc it)).
  Definition away (g : nat) (y : var) : Prop := forall it, In it d -> assigns y (body_of (i_proc it)) -> i_gen it <> g.
  Lemma keep_reads : forall g x y s, Inv s -> ~ d_reads y (s_design s) -> away g y -> local_reads g x s -> local_reads g x (remove_var y s).
  Proof.
    intros g x y s V N A (it & I & Eg & st & Is & R). destruct (v_sub _ V _ I) as (it0 & I0 & Eg0 & _ & P).
    assert (rem y st = false) as Gs.
    { rewrite (rem_unread y _ it _ N I Is). destruct st as [k l e| | | | | | |]; try reflexivity. cbn. apply Nat.eqb_neq. intros E.
      apply (A it0 I0); [|congruence]. eapply part_assigns; eauto. exists k, l, e. auto. }
    destruct (drop_item_some (rem y) it _ Is Gs) as (it' & I' & Eb & Eg'). exists it'. split; [apply in_drop; eauto|].
    split; [congruence|]. rewrite Eb. apply reads_db; [apply rem_only|]. eauto.
  Qed.

  Lemma left_in : forall s l x, In x (left_over s l) <-> In x l /\ ~ In x (s_gone s).
  Proof. intros. unfold left_over. rewrite filter_In, negb_true_iff, mem_false. tauto. Qed.
  Notation remove_dead := (remove_dead vars).
  Lemma dead_props : forall n g s, Inv s -> Inv (remove_dead n g s) /\ later s (remove_dead n g s) /\
    (forall g' x, g' <> g -> local_reads g' x s -> local_reads g' x (remove_dead n g s)).
  Proof.
    induction n as [|n IH]; intros g s V; cbn [Dce_model.remove_dead]; [split; [exact V|split; [apply later_refl|auto]]|].
    destruct (find _ _) as [x|] eqn:F; [|split; [exact V|split; [apply later_refl|auto]]].
    apply List.find_some in F. destruct F as [I N]. apply left_in in I. destruct I as [I _]. apply no_sink_true in N. destruct N as [N _].
    assert (Inv (remove_var x s)) as V1 by (apply inv_remove; auto; exists g; auto).
    destruct (IH g _ V1) as (A & B & C). split; [exact A|]. split; [eapply later_trans; [apply later_remove|exact B]|].
    intros g' y Hg L. apply C; auto. apply keep_reads; auto.
    intros it Ii As E. destruct (g_scope _ _ W it x Ii) as [K|(_ & _ & K)]; [right; left; now left| |].
    - destruct (g_vars _ _ W g x I) as [O _]. congruence.
    - destruct (g_vars _ _ W g x I) as [_ O]. destruct (g_ports _ _ W _ _ K) as [_ Q]. congruence.
  Qed.
  Lemma left_shrinks : forall s x l, In x (left_over s l) -> (length (left_over (remove_var x s) l) < length (left_over s l))%nat.
  Proof.
    intros s x l I. unfold left_over in *. cbn [remove_var s_gone].
    assert (forall a, mem a (x :: s_gone s) = Nat.eqb a x || mem a (s_gone s)) as E by reflexivity.
    assert (forall l0, (length (filter (fun y => negb (mem y (x :: s_gone s))) l0) <= length (filter (fun y => negb (mem y (s_gone s))) l0))%nat) as A.
    { induction l0 as [|a l0 IH]; [auto|]. cbn [filter]. rewrite E.
      destruct (Nat.eqb a x), (mem a (s_gone s)); cbn [orb negb length]; lia. }
    induction l as [|a l IH]; [destruct I|]. cbn [filter] in *. rewrite E. specialize (A l).
    destruct (Nat.eqb_spec a x) as [->|Hx]; cbn [orb negb].
    - destruct (mem x (s_gone s)) eqn:M; cbn [negb] in *; [apply IH; auto|]. cbn [length]. apply Nat.lt_succ_r. exact A.
    - destruct (mem a (s_gone s)) eqn:M; cbn [negb] in *; [apply IH; auto|]. destruct I as [->|I]; [congruence|]. cbn [length]. apply -> Nat.succ_lt_mono. exact (IH I).
  Qed.
  Lemma dead_none : forall n g s, (length (left_over s (vars g)) <= n)%nat -> forall x, In x (vars g) ->
    In x (s_gone (remove_dead n g s)) \/ no_sink (remove_dead n g s) x = false.
  Proof.
    assert (forall g s, find (no_sink s) (left_over s (vars g)) = None -> forall x, In x (vars g) -> In x (s_gone s) \/ no_sink s x = false) as K.
    { intros g s F x I. destruct (mem x (s_gone s)) eqn:M; [left; now apply mem_In|right].
      apply (List.find_none _ _ F). apply left_in. split; auto. now apply mem_false. }
    induction n as [|n IH]; intros g s L x I; cbn [Dce_model.remove_dead].
    - apply (K g); auto. destruct (left_over s (vars g)); [reflexivity|cbn in L; lia].
    - destruct (find _ _) as [y|] eqn:F; [|now apply (K g)]. apply IH; auto.
      apply List.find_some in F. destruct F as [Iy _]. apply left_shrinks in Iy. lia.
  Qed.
  Notation clear_ports := (clear_ports kind ports parent).
  Lemma ports_props : forall l s, Inv s -> (forall x, In x l -> ~ d_reads x (s_design s) /\ removable x) ->
    let s' := fold_left (fun s x => remove_var x s) l s in
    Inv s' /\ later s s' /\ incl l (s_gone s') /\
    (forall g x, (forall y, In y l -> away g y) -> local_reads g x s -> local_reads g x s').
  Proof.
    induction l as [|y l IH]; intros s V P; cbn [fold_left]; cbv zeta.
    - split; [exact V|]. split; [apply later_refl|]. split; [intros x []|auto].
    - destruct (P y (or_introl eq_refl)) as [N R]. pose proof (inv_remove s y V N R) as V1.
      destruct (IH (remove_var y s) V1) as (A & B & C & D).
      { intros x I. destruct (P x (or_intror I)) as [Nx Rx]. split; auto. intros X. apply Nx. eapply sub_reads; eauto. apply sub_drop. }
      split; [exact A|]. split; [eapply later_trans; [apply later_remove|exact B]|]. split.
      + intros x [<-|I]; [|auto]. apply B. now left.
      + intros g x Aw L. apply D; [intros z Iz; apply Aw; now right|]. apply keep_reads; auto. apply Aw. now left.
  Qed.
  Lemma chosen_ports : forall g s x, Inv s -> parent g <> None -> In x (filter (unused_port kind s) (left_over s (ports g))) ->
    ~ d_reads x (s_design s) /\ removable x /\ (forall g', parent g <> Some g' -> away g' x \/ ~ d_assigns x (s_design s)).
  Proof.
    intros g s x V Pg I. apply filter_In in I. destruct I as [I U]. apply left_in in I. destruct I as [I _]. unfold unused_port in U.
    destruct (kind x) eqn:K; [discriminate| |].
    - apply no_sink_true in U. destruct U as [U _]. split; auto. split; [exists g; auto|]. intros g' Ng. left. intros it Ii As E.
      destruct (g_scope _ _ W it x Ii) as [O|(O & _ & _)]; [right; left; now left| |].
      + apply (g_inputs _ _ W it x Ii As K O).
      + destruct (g_ports _ _ W g x I) as [Ox _]. rewrite Ox in O. congruence.
    - apply no_source_true in U. assert (~ d_reads x (s_design s)) as N by (intros R; apply U; eapply v_outs; eauto).
      split; auto. split; [exists g; auto|]. auto.
  Qed.
  (* removing a port nothing drives takes nothing away *)
  Lemma keep_reads2 : forall g x y s, ~ d_reads y (s_design s) -> ~ d_assigns y (s_design s) -> local_reads g x s -> local_reads g x (remove_var y s).
  Proof.
    intros g x y s N A (it & I & Eg & st & Is & R).
    assert (rem y st = false) as Gs.
    { rewrite (rem_unread y _ it _ N I Is). destruct st as [k l e| | | | | | |]; try reflexivity. cbn. apply Nat.eqb_neq. intros E.
      apply A. exists it. split; auto. exists k, l, e. auto. }
    destruct (drop_item_some (rem y) it _ Is Gs) as (it' & I' & Eb & Eg'). exists it'. split; [apply in_drop; eauto|].
    split; [congruence|]. rewrite Eb. apply reads_db; [apply rem_only|]. eauto.
  Qed.
  Lemma ports_reads : forall l g x s, Inv s -> (forall y, In y l -> ~ d_reads y (s_design s) /\ removable y /\ (away g y \/ ~ d_assigns y (s_design s))) ->
    local_reads g x s -> local_reads g x (fold_left (fun s x => remove_var x s) l s).
  Proof.
    induction l as [|y l IH]; intros g x s V P L; cbn [fold_left]; [exact L|].
    destruct (P y (or_introl eq_refl)) as (N & R & A). apply IH.
    - apply inv_remove; auto.
    - intros z Iz. destruct (P z (or_intror Iz)) as (Nz & Rz & Az). split; [|split; [exact Rz|]].
      + intros X. apply Nz. eapply sub_reads; eauto. apply sub_drop.
      + destruct Az as [Az|Az]; [now left|right]. intros X. apply Az. eapply sub_assigns; eauto. apply sub_drop.
    - destruct A as [A|A]; [apply keep_reads; auto|apply keep_reads2; auto].
  Qed.
  Lemma clear_props : forall g s, Inv s -> Inv (clear_ports g s) /\ later s (clear_ports g s) /\
    (forall g' x, parent g <> Some g' -> local_reads g' x s -> local_reads g' x (clear_ports g s)) /\
    (forall x, parent g <> None -> In x (ports g) -> unused_port kind s x = true -> In x (s_gone (clear_ports g s))).
  Proof.
    intros g s V. unfold Dce_model.clear_ports. destruct (parent g) as [p|] eqn:P; [|split; [exact V|split; [apply later_refl|split; [auto|congruence]]]].
    assert (parent g <> None) as P0 by congruence.
    destruct (ports_props (filter (unused_port kind s) (left_over s (ports g))) s V) as (A & B & C & _).
    { intros x I. destruct (chosen_ports g s x V P0 I) as (N & R & _). auto. }
    split; [exact A|]. split; [exact B|]. split.
    - intros g' x Ng L. apply ports_reads; auto. intros y Iy. destruct (chosen_ports g s y V P0 Iy) as (N & R & Aw). split; [exact N|]. split; [exact R|].
      apply Aw. congruence.
    - intros x _ I U. destruct (mem x (s_gone s)) eqn:M; [apply B; now apply mem_In|].
      apply C. apply filter_In. split; auto. apply left_in. split; auto. now apply mem_false.
  Qed.
  Notation visit := (visit kind vars ports parent).
  Lemma visit_props : forall g s, Inv s -> Inv (visit s g) /\ later s (visit s g) /\
    (forall g' x, g' <> g -> parent g <> Some g' -> local_reads g' x s -> local_reads g' x (visit s g)) /\
    (forall x, parent g <> None -> In x (ports g) -> unused_port kind (remove_dead (length (vars g)) g s) x = true -> In x (s_gone (visit s g))) /\
    (parent g <> Some g -> forall x, In x (vars g) -> In x (s_gone (visit s g)) \/ local_reads g x (visit s g) \/ In x (s_stale (visit s g))).
  Proof.
    intros g s V. unfold Dce_model.visit. destruct (dead_props (length (vars g)) g s V) as (A & B & C).
    destruct (clear_props g _ A) as (D & E & F & F2). split; [exact D|]. split; [eapply later_trans; eauto|]. split.
    - intros g' x Ng Np L. apply F; auto.
    - split; [exact F2|]. intros Np x I. destruct (dead_none (length (vars g)) g s) with (x := x) as [L|L]; auto.
      { unfold left_over. generalize (vars g). induction l as [|a l IH]; [auto|]. cbn [filter]. destruct (negb _); cbn [length]; [now apply le_n_S|now apply le_S]. }
      + left. now apply E.
      + unfold no_sink in L. apply andb_false_iff in L. destruct L as [L|L]; apply negb_false_iff, mem_In in L.
        * right; left. apply F; auto. apply sinks_in in L. destruct L as (it & Ii & R). exists it. split; auto. split; auto.
          destruct (v_sub _ A _ Ii) as (it0 & I0 & Eg & _ & P & _). rewrite Eg.
          destruct (g_vars _ _ W g x I) as [O K].
          destruct (g_scope _ _ W it0 x I0) as [O2|(_ & _ & O2)]; [left; auto|congruence|].
          destruct (g_ports _ _ W _ _ O2) as [_ Q]. congruence.
        * right; right. now apply E.
  Qed.
  Lemma fold_props : forall l s, Inv s -> Inv (fold_left visit l s) /\ later s (fold_left visit l s) /\
    (forall g' x, ~ In g' l -> (forall g, In g l -> parent g <> Some g') -> local_reads g' x s -> local_reads g' x (fold_left visit l s)).
  Proof.
    induction l as [|g l IH]; intros s V; cbn [fold_left]; [split; [exact V|split; [apply later_refl|auto]]|].
    destruct (visit_props g s V) as (A & B & C & _). destruct (IH _ A) as (D & E & F). split; [exact D|]. split; [eapply later_trans; eauto|].
    intros g' x Ng Np L. apply F; [intros X; apply Ng; now right|intros g0 I0; apply Np; now right|].
    apply C; auto; [intros ->; apply Ng; now left|apply Np; now left].
  Qed.
  Notation dce_vars := (dce_vars kind vars ports parent).
  Lemma dce_inv : Inv (dce_vars gens d).
  Proof. apply fold_props. apply inv_start. Qed.
  Lemma split_props : forall l1 g l2, gens = l1 ++ g :: l2 -> exists s, Inv s /\ later {| s_design := d; s_stale := []; s_gone := [] |} s /\
    dce_vars gens d = fold_left visit l2 (visit s g).
  Proof.
    intros l1 g l2 E. unfold Dce_model.dce_vars. rewrite E, fold_left_app. cbn [fold_left].
    destruct (fold_props l1 _ inv_start) as (A & B & _). eauto.
  Qed.
  Lemma after : forall l1 g l2, gens = l1 ++ g :: l2 -> ~ In g l2 /\ parent g <> Some g /\ forall g', In g' l2 -> parent g' <> Some g.
  Proof.
    intros l1 g l2 E. pose proof (g_nodup _ _ W) as N. rewrite E in N. apply NoDup_remove_2 in N.
    assert (~ In g l2) as N2 by (intros X; apply N; apply in_or_app; now right).
    split; [exact N2|]. split.
    - intros P. apply N2. eapply g_order; eauto.
    - intros g' I P. apply in_split in I. destruct I as (a & b & ->). apply N2. apply in_or_app. right. right.
      apply (g_order _ _ W (l1 ++ g :: a) g' b g); auto. rewrite E, <- app_assoc. reflexivity.
  Qed.
  Lemma dce_complete : forall g x, In g gens -> In x (vars g) ->
    In x (s_gone (dce_vars gens d)) \/ local_reads g x (dce_vars gens d) \/ In x (s_stale (dce_vars gens d)).
  Proof.
    intros g x Ig Ix. apply in_split in Ig. destruct Ig as (l1 & l2 & E). destruct (after l1 g l2 E) as (N1 & N2 & N3).
    destruct (split_props l1 g l2 E) as (s & V & _ & ->). destruct (visit_props g s V) as (A & _ & _ & _ & B).
    destruct (fold_props l2 _ A) as (_ & L & K). destruct (B N2 x Ix) as [C|[C|C]]; [left; now apply L|right; left; apply K; auto|right; right; now apply L].
  Qed.
  (* ports of instances that nothing reads, or nothing drives *)
  Lemma stale_unread : forall x s, (forall y, In y (s_stale s) -> d_reads y d) -> Inv s -> ~ d_reads x d -> no_sink s x = true.
  Proof. intros x s St V N. apply no_sink_true. split; [|auto]. intros R. apply N. eapply sub_reads; [apply V|exact R]. Qed.
  Definition stale_ok (s : dstate) : Prop := forall y, In y (s_stale s) -> d_reads y d.
  Lemma stale_remove : forall x s, Inv s -> stale_ok s -> stale_ok (remove_var x s).
  Proof.
    intros x s V St y I. cbn in I. apply in_app_iff in I. destruct I as [I|I]; auto.
    apply in_flat_map in I. destruct I as (it & I & J). apply collect_in in J. destruct J as (st & J & K).
    eapply sub_reads; [apply V|]. exists it. split; auto. exists st. split; auto.
    destruct st as [k l e| | | | | | |]; try destruct K. cbn [left_behind] in K.
    constructor. apply in_app_iff. destruct (Nat.eqb _ _); [apply filter_In in K; tauto|].
    destruct (mem _ _); [apply filter_In in K; tauto|destruct K].
  Qed.
  Lemma stale_dead : forall n g s, Inv s -> stale_ok s -> stale_ok (remove_dead n g s).
  Proof.
    induction n as [|n IH]; intros g s V St; cbn [Dce_model.remove_dead]; auto.
    destruct (find _ _) as [x|] eqn:F; auto. apply List.find_some in F. destruct F as [I N]. apply left_in in I. destruct I as [I _].
    apply no_sink_true in N. destruct N as [N _]. apply IH; [apply inv_remove; auto; exists g; auto|]. now apply stale_remove.
  Qed.
  Lemma stale_ports : forall l s, Inv s -> (forall x, In x l -> ~ d_reads x (s_design s) /\ removable x) -> stale_ok s ->
    stale_ok (fold_left (fun s x => remove_var x s) l s).
  Proof.
    induction l as [|y l IH]; intros s V P St; cbn [fold_left]; auto. destruct (P y (or_introl eq_refl)) as [N R]. apply IH.
    - now apply inv_remove.
    - intros x I. destruct (P x (or_intror I)) as [Nx Rx]. split; auto. intros X. apply Nx. eapply sub_reads; eauto. apply sub_drop.
    - now apply stale_remove.
  Qed.
  Lemma stale_visit : forall g s, Inv s -> stale_ok s -> stale_ok (visit s g).
  Proof.
    intros g s V St. unfold Dce_model.visit. destruct (dead_props (length (vars g)) g s V) as (A & _).
    pose proof (stale_dead (length (vars g)) g s V St) as B. unfold Dce_model.clear_ports. destruct (parent g) as [p|] eqn:P; auto.
    apply stale_ports; auto. intros x I. assert (parent g <> None) as P0 by congruence. destruct (chosen_ports g _ x A P0 I) as (N & R & _). auto.
  Qed.
  Lemma stale_fold : forall l s, Inv s -> stale_ok s -> stale_ok (fold_left visit l s).
  Proof.
    induction l as [|g l IH]; intros s V St; cbn [fold_left]; auto. apply IH; [apply (visit_props g s V)|]. now apply stale_visit.
  Qed.
  Lemma port_gone : forall g x, In g gens -> parent g <> None -> In x (ports g) ->
    (kind x = KIn /\ ~ d_reads x d) \/ (kind x = KOut /\ ~ d_assigns x d) -> In x (s_gone (dce_vars gens d)).
  Proof.
    intros g x Ig Pg Ix C. apply in_split in Ig. destruct Ig as (l1 & l2 & E). unfold Dce_model.dce_vars. rewrite E, fold_left_app. cbn [fold_left].
    set (s := fold_left visit l1 _). assert (Inv s) as V by (apply fold_props, inv_start).
    assert (stale_ok s) as St by (apply stale_fold; [apply inv_start|intros y []]).
    destruct (visit_props g s V) as (A & _ & _ & B & _). destruct (fold_props l2 _ A) as (_ & L & _). apply L. apply B; auto.
    destruct (dead_props (length (vars g)) g s V) as (A2 & _). pose proof (stale_dead (length (vars g)) g s V St) as St2.
    unfold unused_port. destruct C as [[-> N]|[-> N]]; [now apply stale_unread|].
    apply no_source_true. intros X. apply N. eapply sub_assigns; [apply A2|exact X].
  Qed.
  (* without slices nothing is left on record *)
  Lemma freed_all : forall e x, unsliced e = true -> In x (evars e) -> In x (freed e).
  Proof.
    induction e; cbn; intros y U I; auto; try discriminate; repeat (apply andb_true_iff in U; destruct U as [U ?]);
      rewrite ?in_app_iff in *; intuition auto.
  Qed.
  Lemma slices_stale : no_slices d -> forall x s, Inv s -> ~ d_reads x (s_design s) -> s_stale s = [] -> s_stale (remove_var x s) = [].
  Proof.
    intros NS x s V N E. cbn. rewrite E. cbn. destruct (flat_map _ _) as [|y l] eqn:F; [reflexivity|]. exfalso.
    assert (In y (y :: l)) as I by now left. rewrite <- F in I. apply in_flat_map in I. destruct I as (it & I & J).
    apply collect_in in J. destruct J as (st & J & K). destruct st as [k lh e| | | | | | |]; try destruct K. cbn [left_behind] in K.
    destruct (v_sub _ V _ I) as (it0 & I0 & _ & _ & _ & P & _). destruct (NS it0 k lh e I0 (P _ _ _ J)) as [U L]. rewrite L in K. cbn [app] in K.
    destruct (Nat.eqb _ _).
    - apply filter_In in K. destruct K as [K1 K2]. apply negb_true_iff, mem_false in K2. apply K2. now apply freed_all.
    - destruct (mem x (evars e)) eqn:M; [|destruct K]. apply N. exists it. split; auto. exists (SAssign k lh e). split; auto.
      constructor. right. now apply mem_In.
  Qed.
  Lemma slices_dead : no_slices d -> forall n g s, Inv s -> s_stale s = [] -> s_stale (remove_dead n g s) = [].
  Proof.
    intros NS. induction n as [|n IH]; intros g s V St; cbn [Dce_model.remove_dead]; auto.
    destruct (find _ _) as [x|] eqn:F; auto. apply List.find_some in F. destruct F as [I N]. apply left_in in I. destruct I as [I _].
    apply no_sink_true in N. destruct N as [N _]. apply IH; [apply inv_remove; auto; exists g; auto|]. now apply slices_stale.
  Qed.
  Lemma slices_ports : no_slices d -> forall l s, Inv s -> (forall x, In x l -> ~ d_reads x (s_design s) /\ removable x) -> s_stale s = [] ->
    s_stale (fold_left (fun s x => remove_var x s) l s) = [].
  Proof.
    intros NS. induction l as [|y l IH]; intros s V P St; cbn [fold_left]; auto. destruct (P y (or_introl eq_refl)) as [N R]. apply IH.
    - now apply inv_remove.
    - intros x I. destruct (P x (or_intror I)) as [Nx Rx]. split; auto. intros X. apply Nx. eapply sub_reads; eauto. apply sub_drop.
    - now apply slices_stale.
  Qed.
  Lemma slices_fold : no_slices d -> forall l s, Inv s -> s_stale s = [] -> s_stale (fold_left visit l s) = [].
  Proof.
    intros NS. induction l as [|g l IH]; intros s V St; cbn [fold_left]; auto. apply IH; [apply (visit_props g s V)|].
    unfold Dce_model.visit. destruct (dead_props (length (vars g)) g s V) as (A & _).
    pose proof (slices_dead NS (length (vars g)) g s V St) as B. unfold Dce_model.clear_ports. destruct (parent g) as [p|] eqn:P; auto.
    apply slices_ports; auto. intros x I. assert (parent g <> None) as P0 by congruence. destruct (chosen_ports g _ x A P0 I) as (N & R & _). auto.
  Qed.
  (* the instances that stay *)
  Notation alive := (alive ports parent).
  Lemma alive_right : forall l s, alive l s = fold_right (fun g k => stay ports parent s k g) [] l.
  Proof. intros l s. unfold Dce_model.alive. rewrite <- (rev_involutive l) at 2. now rewrite fold_left_rev_right. Qed.
  Lemma alive_in : forall l s g, In g (alive l s) -> In g l.
  Proof.
    intros l s. rewrite alive_right. induction l as [|a l IH]; intros g; cbn [fold_right]; [auto|].
    unfold stay at 1. destruct (parent a) as [p|].
    - destruct (_ && _); [intros [->|I]; [now left|right; auto]|right; auto].
    - intros [->|I]; [now left|right; auto].
  Qed.
  Lemma alive_iff : forall s l, NoDup l -> (forall l1 g l2 p, l = l1 ++ g :: l2 -> parent g = Some p -> In p l2) -> forall g, In g l ->
    (In g (alive l s) <-> match parent g with None => True | Some p => In p (alive l s) /\ no_ports ports s g = false end).
  Proof.
    intros s. induction l as [|a l IH]; intros N O g I; [destruct I|]. inversion N as [|? ? Na Nl]; subst.
    assert (forall l1 g0 l2 p, l = l1 ++ g0 :: l2 -> parent g0 = Some p -> In p l2) as O2
      by (intros l1 g0 l2 p E; apply (O (a :: l1)); now rewrite E).
    specialize (IH Nl O2).
    assert (forall g0, g0 <> a -> (In g0 (alive (a :: l) s) <-> In g0 (alive l s))) as X.
    { intros g0 Hg. rewrite !alive_right. cbn [fold_right]. unfold stay at 1. destruct (parent a) as [p|].
      - destruct (_ && _); [|tauto]. cbn. split; [intros [E|E]; [congruence|auto]|auto].
      - cbn. split; [intros [E|E]; [congruence|auto]|auto]. }
    destruct (Nat.eq_dec g a) as [->|Hg].
    - destruct (parent a) as [p|] eqn:P.
      + assert (p <> a) as Hp by (intros ->; apply Na; apply (O [] a l a); auto).
        rewrite (X p Hp). split.
        * intros J. rewrite alive_right in J. cbn [fold_right] in J. unfold stay at 1 in J. rewrite P in J. rewrite <- alive_right in J.
          destruct (mem p (alive l s) && negb (no_ports ports s a)) eqn:B.
          -- apply andb_true_iff in B. destruct B as [B1 B2]. apply mem_In in B1. apply negb_true_iff in B2. auto.
          -- exfalso. apply Na. eapply alive_in; eauto.
        * intros [J K]. rewrite alive_right. cbn [fold_right]. unfold stay at 1. rewrite P, <- alive_right.
          apply mem_In in J. rewrite J, K. now left.
      + split; auto. intros _. rewrite alive_right. cbn [fold_right]. unfold stay at 1. rewrite P. now left.
    - destruct I as [->|I]; [congruence|]. rewrite (X g Hg), (IH g I). destruct (parent g) as [p|] eqn:P; [|tauto].
      assert (p <> a) as Hp. { intros ->. apply Na. apply in_split in I. destruct I as (u & v & ->). apply in_or_app. right. right. eapply O2; eauto. }
      now rewrite (X p Hp).
  Qed.
  Notation dce := (dce kind vars ports parent).
  Lemma alive_spec : forall g, In g gens -> (In g (alive gens (dce_vars gens d)) <->
    match parent g with None => True | Some p => In p (alive gens (dce_vars gens d)) /\ no_ports ports (dce_vars gens d) g = false end).
  Proof. intros g I. apply alive_iff; auto; apply W. Qed.
  Lemma no_ports_gone : forall s g, no_ports ports s g = true <-> (forall x, In x (ports g) -> In x (s_gone s)).
  Proof.
    intros s g. unfold no_ports. destruct (left_over s (ports g)) as [|a l] eqn:E; split; try discriminate; auto.
    - intros _ x I. destruct (mem x (s_gone s)) eqn:M; [now apply mem_In|]. assert (In x (left_over s (ports g))) as J
        by (apply left_in; split; auto; now apply mem_false). rewrite E in J. destruct J.
    - intros A. exfalso. assert (In a (left_over s (ports g))) as J by (rewrite E; now left). apply left_in in J. destruct J as [J K]. auto.
  Qed.
  Lemma filter_flat : forall (A : Type) (p : A -> bool) l, filter p l = flat_map (fun a => if p a then [a] else []) l.
  Proof. intros A p; induction l as [|a l IH]; [reflexivity|]. cbn. rewrite IH. destruct (p a); reflexivity. Qed.
  Lemma dce_agree : no_event (dce gens d) -> forall G sched r y, ~ In y (s_gone (dce gens d)) -> In (owner y) (alive gens (dce_vars gens d)) ->
    c_cur (play G d sched (init r)) y = c_cur (play G (s_design (dce gens d)) sched (init r)) y.
  Proof.
    intros Ev G sched r y Hy Oy. pose proof dce_inv as V. set (s := dce_vars gens d) in *.
    rewrite (v_agree _ V) by (auto; exact Ev). unfold Dce_model.dce. fold s. cbn [s_design]. rewrite filter_flat.
    apply (lock_agree G (fun x => negb (mem (owner x) (alive gens s)))); [apply V| |apply negb_false_iff; now apply mem_In].
    intros it I. destruct (v_sub _ V _ I) as (it0 & I0 & Eg & Eev & P).
    assert (forall x, reads x (body_of (i_proc it)) \/ touches x (body_of (i_proc it)) \/ In x (map snd (events_of (i_proc it))) ->
      owner x = i_gen it \/ (parent (owner x) = Some (i_gen it) /\ In (owner x) gens /\ In x (ports (owner x)))) as Sc.
    { intros x Hx. rewrite Eg. apply (g_scope _ _ W it0 x I0). rewrite <- Eev. destruct P as (P1 & _ & P3). destruct Hx as [Hx|[Hx|Hx]]; auto. }
    destruct (mem (i_gen it) (alive gens s)) eqn:M.
    - right. exists it. split; [reflexivity|]. repeat (split; [reflexivity|]).
      assert (forall x, (reads x (body_of (i_proc it)) \/ touches x (body_of (i_proc it)) \/ In x (map snd (events_of (i_proc it)))) ->
                ~ In x (s_gone s) -> mem (owner x) (alive gens s) = true) as K.
      { intros x Hx Nx. destruct (Sc x Hx) as [->|(Pc & Ic & Ip)]; [exact M|]. apply mem_In. apply alive_spec; auto. fold s. rewrite Pc.
        split; [now apply mem_In|]. destruct (no_ports ports s (owner x)) eqn:E; [|reflexivity]. exfalso. apply Nx.
        now apply (proj1 (no_ports_gone s (owner x)) E). }
      split.
      + intros e Ie. rewrite K; [reflexivity|right; right; now apply in_map|]. apply Ev. exists it0, e. rewrite <- Eev. auto.
      + pose proof (drop_simulates (fun _ => false) G (fun x => negb (mem (owner x) (alive gens s))) (body_of (i_proc it))) as S0.
        rewrite drop_none in S0. apply S0. intros st Is. split.
        * destruct st as [k l e| | | | | | |]; try reflexivity. cbn. symmetry. apply negb_false_iff.
          assert (assigns (lhs_var l) (body_of (i_proc it))) as As by (exists k, l, e; auto).
          apply K; [right; left; left; exact As|]. intros X. apply (proj2 (v_gone _ V _ X)). exists it. auto.
        * intros _ z Rz. apply negb_false_iff. assert (reads z (body_of (i_proc it))) as As by (exists st; auto).
          apply K; [left; exact As|]. intros X. apply (proj1 (v_gone _ V _ X)). exists it. auto.
    - left. split; [reflexivity|]. intros x Tx. apply negb_true_iff. destruct (Sc x (or_intror (or_introl Tx))) as [->|(Pc & Ic & Ip)]; [exact M|].
      apply mem_false. intros X. apply alive_spec in X; auto. fold s in X. rewrite Pc in X. destruct X as [X _]. apply mem_false in M. contradiction.
  Qed.
End Whole.
