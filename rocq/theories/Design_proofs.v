(* Two designs that run in step: statements and processes taken away from one of them only write signals
   that nothing left reads. *)
From Verif Require Import Base SV_spec IR IRSem_spec IR_lemmas IfCase_proofs IR_frame Flow_spec Flow_proofs Design_spec.
Local Open Scope Z_scope.

Definition vis (h : var -> bool) (u : write) : bool := negb (h (w_var u)).
Definition rel (h : var -> bool) (st st' : pstate) : Prop :=
  (forall x, h x = false -> st_cur st x = st_cur st' x) /\
  filter (vis h) (st_nba st) = st_nba st' /\ st_status st = st_status st'.

Lemma target_var : forall G r l v, w_var (target G r l v) = lhs_var l.
Proof. intros G r [x|x hi lo|x i w] v; reflexivity. Qed.
Lemma writes_off : forall h l r r', (forall x, h x = false -> r x = r' x) ->
  forall x, h x = false -> fold_left do_write l r x = fold_left do_write (filter (vis h) l) r' x.
Proof.
  intros h; induction l as [|u l IH]; intros r r' A x Hx; cbn [fold_left filter]; [now apply A|].
  unfold vis at 1. destruct (h (w_var u)) eqn:E; cbn [negb fold_left].
  - apply IH; auto. intros y Hy. unfold do_write, upd. destruct (Nat.eqb_spec y (w_var u)); [congruence|auto].
  - apply IH; auto. intros y Hy. unfold do_write, upd. destruct (Nat.eqb_spec y (w_var u)) as [->|]; auto. now rewrite A.
Qed.

Section Off.
  Variables (G : tenv) (h : var -> bool).
  Definition QO (s : stmt) : Prop := (forall x, touches x [s] -> h x = true) -> forall st,
    filter (vis h) (st_nba (exec G s st)) = filter (vis h) (st_nba st).
  Lemma touches_incl : forall x a b, (forall s, inside s a -> inside s b) -> touches x a -> touches x b.
  Proof.
    intros x a b H [(k & l & e & I & L)|(s & t & u & bd & I)]; [left; exists k, l, e; auto|right].
    exists s, t, u, bd; auto.
  Qed.
  Lemma off_block : forall l, Forall QO l -> (forall x, touches x l -> h x = true) -> forall st,
    filter (vis h) (st_nba (run G l st)) = filter (vis h) (st_nba st).
  Proof.
    induction 1 as [|s r Hs Hr IH]; intros N st; [reflexivity|]. rewrite run_cons.
    assert (filter (vis h) (st_nba (exec G s st)) = filter (vis h) (st_nba st)) as E
      by (apply Hs; intros x Hx; apply N; eapply touches_incl; [|exact Hx]; intros y; apply ins_hd).
    destruct (st_status _); auto. rewrite IH; auto.
    intros x Hx; apply N; eapply touches_incl; [|exact Hx]; intros y; apply ins_tl.
  Qed.
  Lemma off_all : forall s, QO s.
  Proof.
    induction s as [k l e|c t f Ht Hf|e cs d Hcs Hd|i a b sp body Hb|body Hb|e| |k] using stmt_ind'; intros N st; try reflexivity.
    - cbn. assert (h (lhs_var l) = true) as A by (apply N; left; exists k, l, e; split; [apply inside_self|reflexivity]).
      destruct k; try reflexivity. cbn. rewrite filter_app. cbn. unfold vis at 2. rewrite target_var, A. cbn. now rewrite app_nil_r.
    - rewrite exec_if. destruct (truth _ _ _); apply off_block; auto; intros x Hx; apply N; eapply touches_incl; try exact Hx; intros y Hy;
        [now apply ins_then|now apply ins_else].
    - rewrite exec_switch, pick_chosen. destruct (chosen _ _ cs d) as [b|] eqn:E; [|reflexivity].
      apply off_block.
      + destruct (chosen_in _ _ _ _ _ E) as [[k I]| ->]; [|now apply Hd].
        rewrite Forall_forall in Hcs. exact (Hcs _ I).
      + intros x Hx; apply N; eapply touches_incl; try exact Hx; intros y Hy. eapply ins_chosen; eauto.
    - rewrite exec_for. assert (forall x, touches x body -> h x = true) as N1
        by (intros x Hx; apply N; eapply touches_incl; [|exact Hx]; intros y Hy; now apply ins_for).
      revert st. induction (for_values a b sp) as [|v vs IH]; intros st; [reflexivity|]. cbn [loop].
      set (st1 := {| st_cur := _ |}).
      pose proof (off_block body Hb N1 st1) as E. change (st_nba st1) with (st_nba st) in E.
      destruct (st_status (run G body st1)); cbn [set_status st_nba]; auto. now rewrite IH.
    - rewrite exec_block. apply off_block; auto. intros x Hx; apply N; eapply touches_incl; try exact Hx; intros y Hy. now apply ins_block.
  Qed.
  Lemma off_run : forall l, (forall x, touches x l -> h x = true) -> forall st,
    filter (vis h) (st_nba (run G l st)) = filter (vis h) (st_nba st) /\
    (forall x, h x = false -> st_cur (run G l st) x = st_cur st x).
  Proof.
    intros l N st. split; [apply off_block; auto; apply Forall_forall; intros; apply off_all|].
    intros x Hx. apply run_frame. intros [(k & lh & e & I & _ & L)|F].
    - rewrite (N x) in Hx; [discriminate|]. left. exists k, lh, e. auto.
    - rewrite (N x) in Hx; [discriminate|]. now right.
  Qed.
End Off.

(* a process and what becomes of it *)
Definition is_ff (p : proc) : bool := match p with PFf _ _ => true | _ => false end.
Definition simulates (G : tenv) (h : var -> bool) (b b' : list stmt) : Prop :=
  forall st st', st_status st = Running -> rel h st st' -> rel h (run G b st) (run G b' st').
Definition shrunk (G : tenv) (h : var -> bool) (it : item) (o : list item) : Prop :=
  (o = [] /\ forall x, touches x (body_of (i_proc it)) -> h x = true) \/
  (exists it', o = [it'] /\ i_id it' = i_id it /\ events_of (i_proc it') = events_of (i_proc it) /\
     is_ff (i_proc it') = is_ff (i_proc it) /\ (forall e, In e (events_of (i_proc it)) -> h (snd e) = false) /\
     simulates G h (body_of (i_proc it)) (body_of (i_proc it'))).

Lemma mem_In : forall x l, mem x l = true <-> In x l.
Proof.
  intros x l. unfold mem. rewrite existsb_exists. split; [intros (y & I & E); apply Nat.eqb_eq in E; now subst|].
  intros I; exists x; split; auto. apply Nat.eqb_refl.
Qed.
Lemma mem_app : forall x a b, mem x (a ++ b) = mem x a || mem x b.
Proof. intros; apply existsb_app. Qed.

Section Lock.
  Variables (G : tenv) (h : var -> bool) (f : item -> list item) (d : design).
  Hypothesis Hid : NoDup (map i_id d).
  Hypothesis Hf : forall it, In it d -> shrunk G h it (f it).
  Notation d' := (flat_map f d).

  Lemma find_some : forall l it i, find_item l i = Some it -> In it l /\ i_id it = i.
  Proof. intros l it i H. apply find_some in H. destruct H as [H E]. apply Nat.eqb_eq in E. auto. Qed.
  Lemma find_in : forall l it, NoDup (map i_id l) -> In it l -> find_item l (i_id it) = Some it.
  Proof.
    induction l as [|a l IH]; intros it N I; [destruct I|]. cbn. inversion N as [|x y Nx N1]; subst.
    destruct I as [->|I]; [now rewrite Nat.eqb_refl|].
    destruct (Nat.eqb_spec (i_id a) (i_id it)) as [E|]; [|now apply IH].
    exfalso. apply Nx. rewrite E. now apply in_map.
  Qed.
  Lemma find_none : forall l i, ~ In i (map i_id l) -> find_item l i = None.
  Proof.
    induction l as [|a l IH]; intros i N; [reflexivity|]. cbn. cbn in N.
    destruct (Nat.eqb_spec (i_id a) i); [exfalso; auto|]. apply IH. tauto.
  Qed.
  Lemma f_ids : forall l, (forall it, In it l -> shrunk G h it (f it)) -> forall i, In i (map i_id (flat_map f l)) -> In i (map i_id l).
  Proof.
    intros l Hl i I. apply in_map_iff in I. destruct I as (it' & <- & I). apply in_flat_map in I. destruct I as (it & I & J).
    destruct (Hl it I) as [[E _]|(it2 & E & E2 & _)]; rewrite E in J; [destruct J|]. destruct J as [->|[]].
    rewrite E2. now apply in_map.
  Qed.
  Lemma find_d' : forall l i, NoDup (map i_id l) -> (forall it, In it l -> shrunk G h it (f it)) ->
    find_item (flat_map f l) i = match find_item l i with Some it => hd_error (f it) | None => None end.
  Proof.
    induction l as [|a l IH]; intros i N Hl; [reflexivity|]. cbn [flat_map]. inversion N as [|x y Nx N1]; subst.
    assert (forall it, In it l -> shrunk G h it (f it)) as Hl1 by (intros; apply Hl; now right).
    cbn [find_item find]. fold (find_item l i).
    destruct (Hl a (or_introl eq_refl)) as [[E _]|(a' & E & E2 & _)]; rewrite E; cbn [app].
    - destruct (Nat.eqb_spec (i_id a) i) as [<-|]; [|now apply IH]. rewrite E. cbn.
      apply find_none. intros I. apply Nx. now apply f_ids.
    - cbn [find_item find]. rewrite E2. destruct (Nat.eqb_spec (i_id a) i) as [<-|]; [now rewrite E|]. now apply IH.
  Qed.
  Lemma trig_find : forall l r r' i, NoDup (map i_id l) ->
    mem i (triggered G l r r') = match find_item l i with Some it => existsb (edge G r r') (events_of (i_proc it)) | None => false end.
  Proof.
    intros l r r' i N. destruct (find_item l i) as [it|] eqn:E.
    - apply find_some in E as [I E]. subst i. destruct (existsb _ _) eqn:X.
      + apply mem_In. unfold triggered. apply in_map. apply filter_In. auto.
      + destruct (mem _ _) eqn:M; [|reflexivity]. apply mem_In in M. unfold triggered in M. apply in_map_iff in M.
        destruct M as (it2 & E2 & I2). apply filter_In in I2. destruct I2 as [I2 X2].
        pose proof (find_in l it2 N I2) as F2. rewrite E2, (find_in l it N I) in F2. injection F2 as <-. congruence.
    - destruct (mem _ _) eqn:M; [|reflexivity]. apply mem_In in M. unfold triggered in M. apply in_map_iff in M.
      destruct M as (it2 & E2 & I2). apply filter_In in I2. destruct I2 as [I2 X2].
      rewrite <- E2, (find_in l it2 N I2) in E. discriminate.
  Qed.
  Lemma nodup' : forall l, NoDup (map i_id l) -> (forall it, In it l -> shrunk G h it (f it)) -> NoDup (map i_id (flat_map f l)).
  Proof.
    induction l as [|a l IH]; intros N Hl; [constructor|]. cbn [flat_map]. inversion N as [|x y Nx N1]; subst.
    assert (forall it, In it l -> shrunk G h it (f it)) as Hl1 by (intros; apply Hl; now right).
    destruct (Hl a (or_introl eq_refl)) as [[E _]|(a' & E & E2 & _)]; rewrite E; cbn; auto.
    constructor; auto. rewrite E2. intros I. apply Nx. now apply f_ids.
  Qed.

  Definition stays (i : nat) : bool := match find_item d' i with Some _ => true | None => false end.
  Definition crel (c c' : conf) : Prop :=
    (forall x, h x = false -> c_cur c x = c_cur c' x) /\ filter (vis h) (c_nba c) = c_nba c' /\
    forall i, stays i = true -> mem i (c_pend c) = mem i (c_pend c').

  Lemma edge_off : forall r s r' s' e, h (snd e) = false -> (forall x, h x = false -> r x = s x) ->
    (forall x, h x = false -> r' x = s' x) -> edge G r r' e = edge G s s' e.
  Proof. intros r s r' s' e He A B. unfold edge. cbn [ev]. now rewrite (A _ He), (B _ He). Qed.
  Lemma become_rel : forall c c' r r' n n' p p', crel c c' -> (forall x, h x = false -> r x = r' x) ->
    filter (vis h) n = n' -> (forall i, stays i = true -> mem i p = mem i p') ->
    crel (become G d c r n p) (become G d' c' r' n' p').
  Proof.
    intros c c' r r' n n' p p' (A & B & C) Hr Hn Hp. split; [exact Hr|]. split; [exact Hn|].
    intros i Si. cbn [c_pend become]. rewrite !mem_app, (Hp i Si). f_equal.
    rewrite !trig_find by (auto; apply nodup'; auto).
    rewrite find_d' by auto. unfold stays in Si. rewrite find_d' in Si by auto.
    destruct (find_item d i) as [it|] eqn:F; [|discriminate]. destruct (find_some _ _ _ F) as [I _].
    destruct (Hf it I) as [[E _]|(it' & E & _ & E3 & _ & Ev & _)]; rewrite E in Si |- *; [discriminate|]. cbn. rewrite E3.
    clear - Ev A Hr. induction (events_of (i_proc it)) as [|e l IH]; [reflexivity|]. cbn.
    rewrite IH by (intros; apply Ev; now right). f_equal. apply edge_off; auto. apply Ev. now left.
  Qed.
  Lemma mem_filter_ne : forall i j p, mem i (filter (fun k => negb (Nat.eqb k j)) p) = mem i p && negb (Nat.eqb i j).
  Proof.
    intros i j; induction p as [|k p IH]; [reflexivity|]. cbn.
    destruct (Nat.eqb_spec k j) as [->|Hk]; cbn; fold (mem i p); fold (mem i (filter (fun k => negb (Nat.eqb k j)) p)); rewrite IH.
    - destruct (Nat.eqb_spec i j); cbn; [|reflexivity]. now rewrite andb_false_r.
    - destruct (Nat.eqb_spec i k) as [->|]; [|reflexivity]. cbn. destruct (Nat.eqb_spec k j); [contradiction|reflexivity].
  Qed.
  Lemma step_rel : forall c c' a, crel c c' -> crel (step G d c a) (step G d' c' a).
  Proof.
    intros c c' a (A & B & C). destruct a as [x v|i|].
    - cbn [step]. apply become_rel; [split; auto| |auto|auto]. intros y Hy. unfold upd. destruct (Nat.eqb y x); auto.
    - cbn [step]. rewrite find_d' by auto. destruct (find_item d i) as [it|] eqn:F; [|split; auto].
      destruct (find_some _ _ _ F) as [I Ei].
      assert (stays i = match hd_error (f it) with Some _ => true | None => false end) as Si
        by (unfold stays; rewrite find_d' by auto; now rewrite F).
      destruct (Hf it I) as [[E T]|(it' & E & E2 & E3 & E4 & Ev & Sim)]; rewrite E in Si |- *; cbn [hd_error] in Si |- *.
      + destruct (ready it c); [|split; auto]. cbv zeta.
        destruct (off_run G h _ T {| st_cur := c_cur c; st_nba := c_nba c; st_status := Running |}) as [N W]. cbn [st_nba st_cur] in N, W.
        split; [|split].
        * intros x Hx. cbn [c_cur become]. rewrite W by auto. now apply A.
        * cbn [c_nba become]. now rewrite N.
        * intros j Sj. cbn [c_pend become]. rewrite mem_app, mem_filter_ne.
          assert (Nat.eqb j i = false) as -> by (apply Nat.eqb_neq; congruence). rewrite andb_true_r.
          rewrite trig_find by auto. rewrite <- C by auto.
          unfold stays in Sj. rewrite find_d' in Sj by auto. destruct (find_item d j) as [jt|] eqn:Fj; [|discriminate].
          destruct (find_some _ _ _ Fj) as [Ij _].
          destruct (Hf jt Ij) as [[Ej _]|(jt' & Ej & _ & _ & _ & Evj & _)]; rewrite Ej in Sj; [discriminate|].
          assert (existsb (edge G (c_cur c) (st_cur (run G (body_of (i_proc it)) {| st_cur := c_cur c; st_nba := c_nba c; st_status := Running |})))
                    (events_of (i_proc jt)) = false) as X; [|now rewrite X, orb_false_r].
          clear - Evj W. induction (events_of (i_proc jt)) as [|e l IH]; [reflexivity|]. cbn.
          rewrite IH by (intros; apply Evj; now right). unfold edge. cbn [ev].
          rewrite W by (apply Evj; now left). destruct (fst e), (enc _ _ =? 0); reflexivity.
      + assert (ready it c = ready it' c') as R.
        { unfold ready. rewrite E2. destruct (i_proc it), (i_proc it'); cbn in E4; try discriminate; auto; rewrite Ei; auto. }
        rewrite R. destruct (ready it' c'); [|split; auto]. cbv zeta.
        destruct (Sim {| st_cur := c_cur c; st_nba := c_nba c; st_status := Running |}
                      {| st_cur := c_cur c'; st_nba := c_nba c'; st_status := Running |} eq_refl) as (S1 & S2 & _).
        { split; [exact A|]. split; [exact B|reflexivity]. }
        apply become_rel; auto; [split; auto|]. intros j Sj. rewrite !mem_filter_ne. now rewrite C.
    - cbn [step]. apply become_rel; [split; auto| |reflexivity|auto]. intros x Hx. rewrite <- B. now apply writes_off.
  Qed.
  Lemma lockstep : forall sched c c', crel c c' -> crel (play G d sched c) (play G d' sched c').
  Proof. unfold play. induction sched as [|a l IH]; intros c c' R; [exact R|]. cbn [fold_left]. apply IH. now apply step_rel. Qed.
  Theorem lock_agree : forall sched r x, h x = false ->
    c_cur (play G d sched (init r)) x = c_cur (play G d' sched (init r)) x.
  Proof. intros sched r x Hx. apply (lockstep sched (init r) (init r)); auto. split; [auto|]. split; [reflexivity|]. auto. Qed.
End Lock.
