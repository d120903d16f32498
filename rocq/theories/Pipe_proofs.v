From Verif Require Import Base SV_spec IR IRSem_spec IR_lemmas IfCase_proofs IR_frame Fsm_sem Pipe_spec Pipe_model.
Local Open Scope Z_scope.

Section Proofs.
  Variables (G : tenv) (ports : list var) (stage : var -> nat -> var) (n : nat).
  Hypothesis n_pos : (1 <= n)%nat.
  Hypothesis inj : forall p q i j, In p ports -> In q ports -> stage p i = stage q j -> p = q /\ i = j.
  Hypothesis apart : forall p i, In p ports -> ~ In (stage p i) ports.
  Hypothesis same_decl : forall p i, In p ports -> G (stage p i) = G p.
  Hypothesis nodup : NoDup ports.
  Definition is_stage (x : var) : Prop := exists p i, In p ports /\ x = stage p i.
  Notation fst0 := (first ports stage).
  Notation mv := (move_src ports stage).

  Lemma is_port_iff : forall x, is_port ports x = true <-> In x ports.
  Proof.
    intros x. unfold is_port. rewrite existsb_exists. split.
    - intros (y & I & E). apply Nat.eqb_eq in E as ->. exact I.
    - intros I. exists x. split; [exact I|apply Nat.eqb_refl].
  Qed.
  Lemma first_port : forall p, In p ports -> fst0 p = stage p 0.
  Proof. intros p I. unfold first. apply is_port_iff in I. now rewrite I. Qed.
  Lemma first_other : forall x, ~ In x ports -> fst0 x = x.
  Proof. intros x I. unfold first. destruct (is_port ports x) eqn:E; auto. apply is_port_iff in E. contradiction. Qed.
  Lemma first_inj : forall x y, ~ is_stage x -> ~ is_stage y -> fst0 x = fst0 y -> x = y.
  Proof.
    intros x y Nx Ny E. destruct (in_dec Nat.eq_dec x ports) as [Ix|Ix]; destruct (in_dec Nat.eq_dec y ports) as [Iy|Iy].
    - rewrite !first_port in E by assumption. now apply inj in E.
    - rewrite first_port, first_other in E by assumption. exfalso. apply Ny. exists x, 0%nat. auto.
    - rewrite first_other, first_port in E by assumption. exfalso. apply Nx. exists y, 0%nat. auto.
    - now rewrite !first_other in E by assumption.
  Qed.
  Lemma first_decl : forall x, G (fst0 x) = G x.
  Proof.
    intros x. destruct (in_dec Nat.eq_dec x ports) as [I|I]; [rewrite first_port by exact I; now apply same_decl|now rewrite first_other].
  Qed.
  (* the ports and the later stages: only the new processes write these *)
  Definition hidden (y : var) : Prop := In y ports \/ exists p i, In p ports /\ y = stage p (S i).
  Lemma first_not_hidden : forall x, ~ is_stage x -> ~ hidden (fst0 x).
  Proof.
    intros x N H. destruct (in_dec Nat.eq_dec x ports) as [I|I].
    - rewrite first_port in H by exact I. destruct H as [H|(p & i & J & E)]; [exact (apart _ _ I H)|]. apply inj in E as [_ E]; auto. discriminate E.
    - rewrite first_other in H by exact I. destruct H as [H|(p & i & J & E)]; [contradiction|]. apply N. exists p, (S i). auto.
  Qed.

  Definition rel (r r' : venv) : Prop := forall x, ~ is_stage x -> r' (fst0 x) = r x.
  Definition plain (x : var) : Prop := ~ In x ports /\ ~ is_stage x.
  Lemma rel_ev : forall r r' e, rel r r' -> (forall x, In x (evars e) -> plain x) -> ev G r' e = ev G r e.
  Proof.
    intros r r' e R H. apply ev_agree. intros x I. destruct (H x I) as [A B]. rewrite <- (R x B). now rewrite first_other.
  Qed.
  Definition mvw (u : write) : write := {| w_var := fst0 (w_var u); w_lo := w_lo u; w_n := w_n u; w_val := w_val u |}.
  Lemma rel_write : forall r r' u, rel r r' -> ~ is_stage (w_var u) -> rel (do_write r u) (do_write r' (mvw u)).
  Proof.
    intros r r' u R N x Nx. unfold do_write, upd, mvw. cbn [w_var w_lo w_n w_val].
    destruct (Nat.eqb_spec (fst0 x) (fst0 (w_var u))) as [E|E].
    - apply first_inj in E; auto. subst x. rewrite Nat.eqb_refl. now rewrite (R _ N).
    - destruct (Nat.eqb_spec x (w_var u)) as [->|F]; [congruence|]. now apply R.
  Qed.
  Lemma hidden_write : forall r u y, ~ is_stage (w_var u) -> hidden y -> do_write r (mvw u) y = r y.
  Proof.
    intros r u y N H. unfold do_write, upd, mvw. cbn [w_var]. destruct (Nat.eqb_spec y (fst0 (w_var u))) as [->|F]; [|reflexivity]. exfalso. now apply (first_not_hidden (w_var u)).
  Qed.

  (* statements of the module and the moved statements *)
  Record SR (k : venv) (st st' : pstate) : Prop := {
    sr_cur : rel (st_cur st) (st_cur st');
    sr_hid : forall y, hidden y -> st_cur st' y = k y;
    sr_nba : st_nba st' = map mvw (st_nba st);
    sr_ok : Forall (fun u => ~ is_stage (w_var u)) (st_nba st);
    sr_status : st_status st' = st_status st }.
  Definition fine (l : list stmt) : Prop :=
    (forall x, reads x l -> plain x) /\ (forall x, writes x l -> ~ is_stage x) /\ (forall x, loops x l -> ~ In x ports).
  Lemma fine_sub : forall a b, fine b -> (forall s, inside s a -> inside s b) -> fine a.
  Proof.
    intros a b (R & W & L) I. split; [|split].
    - intros x (s & S & X). apply R. exists s. auto.
    - intros x [(k & lh & e & S & X)|(p & q & st & bd & S)]; apply W; [left; exists k, lh, e; auto|right; exists p, q, st, bd; auto].
    - intros x (p & q & st & bd & S). apply L. exists p, q, st, bd; auto.
  Qed.
  Definition PS (s : stmt) : Prop := fine [s] -> forall k st st', SR k st st' -> SR k (exec G s st) (exec G (mv s) st').
  Lemma run_sr_aux : forall l, Forall PS l -> fine l -> forall k st st', SR k st st' -> SR k (run G l st) (run G (map mv l) st').
  Proof.
    induction 1 as [|s r Hs Hr IH]; intros F k st st' R; [exact R|]. cbn [map]. rewrite !run_cons.
    assert (SR k (exec G s st) (exec G (mv s) st')) as R1.
    { apply Hs; [|exact R]. apply (fine_sub _ (s :: r)); [exact F|]. intros x I. eapply inside_elem; eauto. now left. }
    rewrite (sr_status _ _ _ R1). destruct (st_status (exec G s st)); auto. apply IH; auto.
    apply (fine_sub _ (s :: r)); [exact F|]. intros x I. eapply inside_mono; eauto. intros z; now right.
  Qed.
  Lemma sr_assign : forall ak l e k st st', fine [SAssign ak l e] -> SR k st st' -> SR k (do_assign G ak l e st) (do_assign G ak (first_lhs ports stage l) e st').
  Proof.
    intros ak l e k st st' (Rd & Wr & _) [C H N O Sx].
    assert (forall x, In x (reads_of (SAssign ak l e)) -> plain x) as Pl by (intros x I; apply Rd; exists (SAssign ak l e); split; [apply inside_self|exact I]).
    assert (~ is_stage (lhs_var l)) as Ns by (apply Wr; left; exists ak, l, e; split; [apply inside_self|reflexivity]).
    assert (ev G (st_cur st') e = ev G (st_cur st) e) as Ee by (apply rel_ev; [exact C|intros x I; apply Pl; destruct l; cbn; auto; apply in_or_app; auto]).
    assert (target G (st_cur st') (first_lhs ports stage l) (ev G (st_cur st') e) = mvw (target G (st_cur st) l (ev G (st_cur st) e))) as T.
    { rewrite Ee. destruct l as [x|x h lo|x i w]; cbn [first_lhs target mvw w_var w_lo w_n w_val]; unfold mvw; cbn [w_var w_lo w_n w_val]; [now rewrite first_decl|reflexivity|].
      assert (ev G (st_cur st') i = ev G (st_cur st) i) as -> by (apply rel_ev; [exact C|intros y I; apply Pl; cbn; apply in_or_app; auto]). reflexivity. }
    assert (w_var (target G (st_cur st) l (ev G (st_cur st) e)) = lhs_var l) as Wv by (destruct l; reflexivity).
    unfold do_assign. rewrite T. destruct ak; constructor; cbn [st_cur st_nba st_status]; auto;
      try (apply rel_write; [exact C|now rewrite Wv]);
      try (intros y Hy; rewrite hidden_write by (rewrite ?Wv; auto); now apply H).
    - rewrite N, map_app. reflexivity.
    - apply Forall_app. split; [exact O|]. constructor; [now rewrite Wv|constructor].
  Qed.
  Lemma exec_sr : forall s, PS s.
  Proof.
    intros s. induction s as [k l e|c t f Ht Hf|e cs d Hcs Hd|i a b sp body Hb|body Hb|e| |k] using stmt_ind'; intros F k0 st st' R.
    - cbn [move_src exec]. now apply sr_assign.
    - cbn [move_src]. rewrite !exec_if.
      assert (truth G (st_cur st') c = truth G (st_cur st) c) as ->.
      { unfold truth. rewrite (rel_ev (st_cur st)); [reflexivity|apply (sr_cur _ _ _ R)|]. intros x I. destruct F as [Rd _]. apply Rd. exists (SIf c t f). split; [apply inside_self|exact I]. }
      destruct (truth G (st_cur st) c); apply run_sr_aux; auto; eapply fine_sub; eauto; intros y Hy; [eapply in_then|eapply in_else]; eauto; now left.
    - cbn [move_src]. rewrite !exec_switch.
      assert (ev G (st_cur st') e = ev G (st_cur st) e) as ->.
      { apply rel_ev; [apply (sr_cur _ _ _ R)|]. intros x I. destruct F as [Rd _]. apply Rd. exists (SSwitch e cs d). split; [apply inside_self|exact I]. }
      assert (forall k b, In (k, b) cs -> fine b) as N1 by (intros k b Hk; eapply fine_sub; eauto; intros y Hy; eapply in_case; eauto; now left).
      assert (forall b, d = Some b -> fine b) as N2 by (intros b ->; eapply fine_sub; eauto; intros y Hy; eapply in_default; eauto; now left).
      generalize (ev G (st_cur st) e) (ewidth G e). intros v w. clear F. induction Hcs as [|[k b] r Hb Hr IH]; cbn.
      + destruct d; auto. apply run_sr_aux; auto.
      + destruct (v =? enc w k); [apply run_sr_aux; auto; apply (N1 k); now left|]. apply IH. intros k1 b1 I. apply (N1 k1). now right.
    - cbn [move_src]. rewrite !exec_for. generalize (for_values a b sp). intros vs.
      assert (fine body) as Fb by (eapply fine_sub; eauto; intros y Hy; eapply in_for; eauto; now left).
      assert (plain i) as Pi.
      { destruct F as (_ & W & L). split; [apply L; exists a, b, sp, body; apply inside_self|apply W; right; exists a, b, sp, body; apply inside_self]. }
      revert st st' R. induction vs as [|v vs IH]; intros st st' R; [exact R|]. cbn [loop].
      set (st1 := {| st_cur := upd (st_cur st) i _ |}). set (st1' := {| st_cur := upd (st_cur st') i _ |}).
      assert (SR k0 st1 st1') as R1.
      { destruct R as [C H N O Sx]. constructor; cbn; auto.
        - intros x Nx. unfold upd. destruct Pi as [P1 P2]. destruct (Nat.eqb_spec x i) as [->|E].
          + rewrite (first_other i P1), Nat.eqb_refl. reflexivity.
          + destruct (Nat.eqb_spec (fst0 x) i) as [E2|E2]; [|now apply C]. exfalso. apply E. apply first_inj; auto. now rewrite (first_other i P1).
        - intros y Hy. unfold upd. destruct (Nat.eqb_spec y i) as [->|E]; [|now apply H]. exfalso. destruct Pi as [P1 P2]. destruct Hy as [Hy|(p & j & J & E)]; [contradiction|]. apply P2. exists p, (S j). auto. }
      assert (SR k0 (run G body st1) (run G (map mv body) st1')) as R2 by (apply run_sr_aux; auto).
      rewrite (sr_status _ _ _ R2). destruct (st_status (run G body st1)) eqn:E; auto.
      destruct R2 as [C H N O Sx]. constructor; cbn; auto.
    - cbn [move_src]. rewrite !exec_block. apply run_sr_aux; auto. eapply fine_sub; eauto. intros y Hy. eapply in_block; eauto. now left.
    - cbn [move_src exec]. assert (ev G (st_cur st') e = ev G (st_cur st) e) as ->.
      { apply rel_ev; [apply (sr_cur _ _ _ R)|]. intros x I. destruct F as [Rd _]. apply Rd. exists (SReturn e). split; [apply inside_self|exact I]. }
      destruct R as [C H N O Sx]. constructor; cbn; auto.
    - cbn [move_src exec]. destruct R as [C H N O Sx]. constructor; cbn; auto.
    - exact R.
  Qed.
  Lemma run_sr : forall l k st st', fine l -> SR k st st' -> SR k (run G l st) (run G (map mv l) st').
  Proof. intros l k st st' F R. apply run_sr_aux; auto. apply Forall_forall. intros s _. apply exec_sr. Qed.
  Lemma run_all_sr : forall ps k st st', Forall fine ps -> SR k st st' -> SR k (run_all G ps st) (run_all G (map (map mv) ps) st').
  Proof.
    unfold run_all. induction ps as [|b ps IH]; intros k st st' F R; [exact R|]. inversion F; subst. cbn [map fold_left]. apply IH; auto.
    destruct (run_sr b k st st' H1 R) as [C H N O Sx]. constructor; cbn; auto.
  Qed.
  Lemma commit_sr : forall us r r', Forall (fun u => ~ is_stage (w_var u)) us -> rel r r' ->
    rel (fold_left do_write us r) (fold_left do_write (map mvw us) r') /\ (forall y, hidden y -> fold_left do_write (map mvw us) r' y = r' y).
  Proof.
    induction us as [|u us IH]; intros r r' F R; [split; auto|]. inversion F; subst. cbn [map fold_left].
    destruct (IH (do_write r u) (do_write r' (mvw u)) H2 (rel_write r r' u R H1)) as [A B]. split; [exact A|]. intros y Hy. rewrite B by exact Hy. now apply hidden_write.
  Qed.
  Lemma start_sr : forall r r', rel r r' -> SR r' (start_state r) (start_state r').
  Proof. intros r r' R. constructor; cbn; auto. Qed.
  Lemma together_sr : forall ps r r', Forall fine ps -> rel r r' ->
    rel (together G ps r) (together G (map (map mv) ps) r') /\ (forall y, hidden y -> together G (map (map mv) ps) r' y = r' y).
  Proof.
    intros ps r r' F R. unfold together, commit. destruct (run_all_sr ps r' _ _ F (start_sr r r' R)) as [C H N O Sx]. rewrite N.
    destruct (commit_sr _ _ _ O C) as [A B]. split; [exact A|]. intros y Hy. rewrite B by exact Hy. now apply H.
  Qed.
  Lemma run_all_frame : forall x ps st, Forall (fun b => ~ changes_now x b) ps -> st_cur (run_all G ps st) x = st_cur st x.
  Proof.
    intros x. unfold run_all. induction ps as [|b ps IH]; intros st F; [reflexivity|]. inversion F; subst. cbn [fold_left]. rewrite IH by assumption. cbn. now apply run_frame.
  Qed.

  (* the new processes *)
  Definition reg (p : var) (j : nat) : var := if Nat.eqb j n then p else stage p j.
  Lemma block_reg : forall i, (i < n)%nat -> block ports stage n i = map (fun p => SAssign NonBlocking (LVar (reg p (S i))) (EVar (reg p i))) ports.
  Proof.
    intros i I. unfold block, reg. apply map_ext. intros p. replace (i =? n - 1)%nat with (S i =? n)%nat by (destruct (Nat.eqb_spec (S i) n); destruct (Nat.eqb_spec i (n - 1)); lia || reflexivity).
    replace (i =? n)%nat with false by (symmetry; apply Nat.eqb_neq; lia). reflexivity.
  Qed.
  Definition shift (r : venv) (ip : nat * var) : write :=
    {| w_var := reg (snd ip) (S (fst ip)); w_lo := 0; w_n := d_width (G (reg (snd ip) (S (fst ip)))); w_val := ev G r (EVar (reg (snd ip) (fst ip))) |}.
  Lemma run_block : forall i ps st, st_status st = Running -> run G (map (fun p => SAssign NonBlocking (LVar (reg p (S i))) (EVar (reg p i))) ps) st
    = {| st_cur := st_cur st; st_nba := st_nba st ++ map (fun p => shift (st_cur st) (i, p)) ps; st_status := Running |}.
  Proof.
    intros i ps. induction ps as [|p ps IH]; intros st S.
    - cbn. rewrite app_nil_r. destruct st; cbn in *; congruence.
    - cbn [map]. rewrite run_cons. cbn [exec do_assign st_status target]. rewrite S. rewrite IH by (cbn; first [exact S|reflexivity]). cbn [st_cur st_nba]. rewrite <- app_assoc. reflexivity.
  Qed.
  Definition steps (l : list nat) : list (nat * var) := flat_map (fun i => map (fun p => (i, p)) ports) l.
  Lemma run_blocks : forall l st, st_status st = Running -> Forall (fun i => (i < n)%nat) l ->
    run_all G (map (block ports stage n) l) st = {| st_cur := st_cur st; st_nba := st_nba st ++ map (shift (st_cur st)) (steps l); st_status := Running |}.
  Proof.
    unfold run_all. induction l as [|i l IH]; intros st S F.
    - cbn. rewrite app_nil_r. destruct st; cbn in *; congruence.
    - inversion F; subst. cbn [map fold_left steps flat_map]. rewrite block_reg, run_block by assumption. unfold set_status. cbn [st_cur st_nba].
      rewrite IH by (cbn; auto). cbn [st_cur st_nba]. rewrite <- app_assoc, map_app, map_map. reflexivity.
  Qed.
  Lemma reg_inj : forall p q i j, In p ports -> In q ports -> (i <= n)%nat -> (j <= n)%nat -> reg p i = reg q j -> p = q /\ i = j.
  Proof.
    intros p q i j P Q I J E. unfold reg in E. destruct (Nat.eqb_spec i n) as [->|Ni]; destruct (Nat.eqb_spec j n) as [->|Nj]; auto.
    - exfalso. apply (apart q j Q). now rewrite <- E.
    - exfalso. apply (apart p i P). now rewrite E.
  Qed.
  Lemma reg_hidden : forall p i, In p ports -> hidden (reg p (S i)).
  Proof. intros p i P. unfold reg. destruct (Nat.eqb (S i) n); [now left|right; now exists p, i]. Qed.
  Lemma fold_absent : forall us (r : venv) x, ~ In x (map w_var us) -> fold_left do_write us r x = r x.
  Proof.
    induction us as [|u us IH]; intros r x N; [reflexivity|]. cbn [fold_left map] in *. rewrite IH by (intros I; apply N; now right). unfold do_write, upd. destruct (Nat.eqb_spec x (w_var u)) as [->|E]; [|reflexivity]. exfalso. apply N. now left.
  Qed.
  Lemma fold_present : forall us (r : venv) u, NoDup (map w_var us) -> In u us -> fold_left do_write us r (w_var u) = put_bits (r (w_var u)) (w_lo u) (w_n u) (w_val u).
  Proof.
    induction us as [|v us IH]; intros r u N I; [destruct I|]. cbn [fold_left map] in *. inversion N as [|? ? N1 N2]; subst. destruct I as [->|I].
    - rewrite fold_absent by exact N1. unfold do_write, upd. now rewrite Nat.eqb_refl.
    - rewrite IH by assumption. unfold do_write, upd. destruct (Nat.eqb_spec (w_var u) (w_var v)) as [E|E]; [|reflexivity]. exfalso. apply N1. rewrite <- E. now apply in_map.
  Qed.
  Lemma nodup_join : forall (A : Type) (a b : list A), NoDup a -> NoDup b -> (forall x, In x a -> In x b -> False) -> NoDup (a ++ b).
  Proof.
    induction a as [|x a IH]; cbn; intros b Na Nb D; [exact Nb|]. inversion Na; subst. constructor; [|apply IH; auto; intros y I J; apply (D y); auto].
    rewrite in_app_iff. intros [I|I]; [contradiction|]. apply (D x); auto.
  Qed.
  Lemma steps_in : forall l i p, In (i, p) (steps l) <-> In i l /\ In p ports.
  Proof.
    intros l i p. unfold steps. rewrite in_flat_map. split.
    - intros (j & J & I). apply in_map_iff in I as (q & E & I). injection E as -> ->. auto.
    - intros [I P]. exists i. split; [exact I|]. apply in_map_iff. exists p. auto.
  Qed.
  Lemma steps_nodup : forall l, NoDup l -> NoDup (steps l).
  Proof.
    induction 1 as [|i l N D IH]; [constructor|]. cbn [steps flat_map]. fold (steps l). apply nodup_join; [|exact IH|].
    - clear - nodup. induction nodup as [|p ps N D IH]; cbn; constructor; auto. rewrite in_map_iff. intros (q & E & I). injection E as ->. contradiction.
    - intros [j q] I J. apply in_map_iff in I as (p & E & I). injection E as -> ->. apply steps_in in J as [J _]. contradiction.
  Qed.
  Lemma shift_nodup : forall r l, NoDup l -> Forall (fun i => (i < n)%nat) l -> NoDup (map w_var (map (shift r) (steps l))).
  Proof.
    intros r l N F. rewrite map_map. cbn [shift w_var]. apply steps_nodup in N as S. rewrite Forall_forall in F.
    assert (forall x, In x (steps l) -> (fst x < n)%nat /\ In (snd x) ports) as B by (intros [i p] I; apply steps_in in I as [I P]; cbn; auto). clear N F.
    induction S as [|x xs Nx S IH]; cbn; constructor.
    - rewrite in_map_iff. intros (y & E & I). destruct (B x) as [Bx Px]; [now left|]. destruct (B y) as [By Py]; [now right|].
      apply reg_inj in E as [E1 E2]; auto; try lia. apply Nx. destruct x, y; cbn in *. injection E2 as ->. subst. exact I.
    - apply IH. intros y I. apply B. now right.
  Qed.

  (* one clock edge of the pipelined module *)
  Definition silent (ps : list (list stmt)) : Prop := forall p, In p ports -> Forall (fun b => ~ changes_now p b) ps.
  Lemma edge_sr : forall ps r r', Forall fine ps -> silent ps -> rel r r' ->
    let e' := together G (map (map mv) ps ++ map (block ports stage n) (seq 0 n)) r' in
    rel (together G ps r) e' /\ (forall p j, In p ports -> (j < n)%nat -> 0 <= d_width (G p) -> seen G e' (reg p (S j)) = seen G r' (reg p j)).
  Proof.
    intros ps r r' F Q R e'. unfold e', together, commit. unfold run_all. rewrite fold_left_app. fold (run_all G (map (map mv) ps) (start_state r')).
    destruct (run_all_sr ps r' _ _ F (start_sr r r' R)) as [C H N O Sx].
    assert (st_status (run_all G (map (map mv) ps) (start_state r')) = Running) as Sr.
    { assert (forall qs st, st_status st = Running -> st_status (run_all G qs st) = Running) as X by (unfold run_all; induction qs as [|b qs IH]; intros st E; cbn; auto). apply X. reflexivity. }
    fold (run_all G (map (block ports stage n) (seq 0 n)) (run_all G (map (map mv) ps) (start_state r'))).
    assert (Forall (fun i => (i < n)%nat) (seq 0 n)) as Fs by (apply Forall_forall; intros i I; apply in_seq in I; lia).
    rewrite run_blocks by assumption. cbn [st_cur st_nba]. rewrite N, fold_left_app.
    set (c' := st_cur (run_all G (map (map mv) ps) (start_state r'))) in *. set (us := st_nba (run_all G ps (start_state r))) in *.
    destruct (commit_sr us _ c' O C) as [A B]. set (d' := fold_left do_write (map mvw us) c') in *.
    assert (forall x, In x (map w_var (map (shift c') (steps (seq 0 n)))) -> hidden x) as Hd.
    { intros x I. rewrite map_map in I. apply in_map_iff in I as ([i p] & <- & I). apply steps_in in I as [_ P]. now apply reg_hidden. }
    split.
    - intros x Nx. rewrite fold_absent by (intros I; apply Hd in I; now apply (first_not_hidden x)). now apply A.
    - intros p j P J W. assert (In (shift c' (j, p)) (map (shift c') (steps (seq 0 n)))) as I by (apply in_map; apply steps_in; split; [apply in_seq; lia|exact P]).
      pose proof (fold_present _ d' _ (shift_nodup c' (seq 0 n) (seq_NoDup n 0) Fs) I) as E. cbn [shift w_var w_lo w_n w_val fst snd] in E.
      assert (G (reg p (S j)) = G p) as Gp by (unfold reg; destruct (Nat.eqb (S j) n); auto).
      unfold seen. cbn [ev]. rewrite E, Gp, enc_put by exact W.
      assert (G (reg p j) = G p) as Gq by (unfold reg; destruct (Nat.eqb j n); auto). cbn [ev]. rewrite Gq.
      assert (c' (reg p j) = r' (reg p j)) as ->; [|unfold enc; now rewrite Zmod_mod].
      destruct j as [|j].
      + unfold reg. replace (Nat.eqb 0 n) with false by (symmetry; apply Nat.eqb_neq; lia). rewrite <- (first_port p P).
        assert (~ is_stage p) as Np by (intros (q & i & Iq & ->); now apply (apart q i)). rewrite (C p Np), (R p Np). unfold start_state. rewrite run_all_frame by (now apply Q). reflexivity.
      + apply H. now apply reg_hidden.
  Qed.

  (* many cycles *)
  Definition external (i : inputs) : Prop := forall r r', rel r r' -> rel (i r) (i r') /\ (forall y, hidden y -> i r' y = r' y).
  Lemma during_sr : forall m i r r', Forall fine (m_wires m) -> Forall fine (m_procs m) -> silent (m_procs m) -> (forall t, external (i t)) -> (forall p, In p ports -> 0 <= d_width (G p)) -> rel r r' ->
    forall t, rel (during G m i r t) (during G (pipeline ports stage n m) i r' t)
      /\ (forall p j, In p ports -> (j <= n)%nat -> (j <= t)%nat -> seen G (during G (pipeline ports stage n m) i r' t) (reg p j) = seen G (during G m i r (t - j)) p).
  Proof.
    intros m i r r' Fw Fp Q X W R.
    assert (forall s s' p, rel s s' -> In p ports -> seen G s' (reg p 0) = seen G s p) as Zero.
    { intros s s' p Rs P. unfold seen, reg. replace (Nat.eqb 0 n) with false by (symmetry; apply Nat.eqb_neq; lia). cbn [ev]. rewrite <- (first_port p P), first_decl.
      rewrite (Rs p); [reflexivity|]. intros (q & k & Iq & ->). now apply (apart q k). }
    induction t as [|t [IHr IHs]].
    - cbn [during pipeline m_wires]. destruct (X O r r' R) as [X1 _]. destruct (together_sr (m_wires m) _ _ Fw X1) as [A _]. split; [exact A|].
      intros p j P J T. assert (j = 0%nat) as -> by lia. now apply Zero.
    - cbn [during pipeline m_wires m_procs]. set (s := during G m i r t) in *. set (s' := during G (pipeline ports stage n m) i r' t) in *.
      destruct (edge_sr (m_procs m) s s' Fp Q IHr) as [E1 E2]. set (e' := together G (map (map mv) (m_procs m) ++ map (block ports stage n) (seq 0 n)) s') in *.
      destruct (X (S t) _ _ E1) as [X1 X2]. destruct (together_sr (m_wires m) _ _ Fw X1) as [A B]. split; [exact A|].
      intros p j P J T. destruct j as [|j].
      + now apply Zero.
      + replace (S t - S j)%nat with (t - j)%nat by lia. rewrite <- IHs by (auto; lia). rewrite <- E2 by (auto; lia). unfold seen. cbn [ev]. rewrite B, X2 by (now apply reg_hidden). reflexivity.
  Qed.
End Proofs.
