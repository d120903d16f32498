(* Running a process whose assignments to a go to b, when a and b hold the same value. *)
From Verif Require Import Base SV_spec IR IRSem_spec IR_lemmas IfCase_proofs IR_frame Flow_spec Flow_proofs Design_spec Design_proofs Dce_model Dce_proofs Fan_spec Fan_model.
Local Open Scope Z_scope.

Definition to_write (a b : var) (u : write) : write :=
  {| w_var := if Nat.eqb (w_var u) a then b else w_var u; w_lo := w_lo u; w_n := w_n u; w_val := w_val u |}.

Section Retarget.
  Variables (G : tenv) (a b : var) (base : Z) (late : Prop).
  Hypothesis Hab : a <> b.
  Hypothesis HG : G a = G b.
  (* late: a is only assigned by non-blocking assignments *)
  Definition may_read (l : list var) : Prop := forall x, In x l -> x <> a /\ (x = b -> late).
  Definition fit (s : stmt) : Prop :=
    match s with
    | SAssign k l e => may_read (lhs_reads l) /\ may_read (evars e) /\ lhs_var l <> b /\ (late -> lhs_var l = a -> k = NonBlocking)
    | SIf c _ _ => may_read (evars c)
    | SSwitch e _ _ => may_read (evars e)
    | SFor i _ _ _ _ => i <> a /\ i <> b
    | SReturn e => may_read (evars e)
    | _ => True
    end.
  Definition inv (st st' : pstate) : Prop :=
    (forall x, x <> a -> x <> b -> st_cur st' x = st_cur st x) /\ st_cur st' b = st_cur st a /\ st_cur st b = base /\ st_cur st' a = base /\
    (late -> st_cur st a = base) /\ st_nba st' = map (to_write a b) (st_nba st) /\ Forall (fun u => w_var u <> b) (st_nba st) /\
    st_status st' = st_status st.
  Lemma inv_ev : forall st st' e, inv st st' -> may_read (evars e) -> ev G (st_cur st') e = ev G (st_cur st) e.
  Proof.
    intros st st' e (A & B & C & D & E & _) R. apply ev_agree. intros x I. destruct (R x I) as [Na L].
    destruct (Nat.eq_dec x b) as [->|Nb]; [|now apply A]. rewrite B, C. auto.
  Qed.
  Lemma to_target : forall r l v, target G r (to_lhs a b l) v = to_write a b (target G r l v).
  Proof.
    intros r [x|x hi lo|x i w] v; cbn; unfold to_write; cbn; destruct (Nat.eqb_spec x a) as [->|]; try reflexivity. now rewrite HG.
  Qed.
  Lemma inv_write : forall r r' u, (forall x, x <> a -> x <> b -> r' x = r x) -> r' b = r a -> w_var u <> b ->
    (forall x, x <> a -> x <> b -> do_write r' (to_write a b u) x = do_write r u x) /\ do_write r' (to_write a b u) b = do_write r u a /\
    do_write r u b = r b /\ do_write r' (to_write a b u) a = r' a.
  Proof.
    intros r r' [x lo n v] A B N. cbn in N. unfold do_write, to_write, upd. cbn [w_var w_lo w_n w_val].
    destruct (Nat.eqb_spec x a) as [->|Nx].
    - split; [|split; [|split]].
      + intros y Ya Yb. destruct (Nat.eqb_spec y b); [contradiction|]. destruct (Nat.eqb_spec y a); [contradiction|]. now apply A.
      + rewrite !Nat.eqb_refl. now rewrite B.
      + destruct (Nat.eqb_spec b a); [congruence|reflexivity].
      + destruct (Nat.eqb_spec a b); [contradiction|reflexivity].
    - split; [|split; [|split]].
      + intros y Ya Yb. destruct (Nat.eqb_spec y x) as [->|]; [now rewrite A|now apply A].
      + destruct (Nat.eqb_spec b x); [congruence|]. destruct (Nat.eqb_spec a x); [congruence|exact B].
      + destruct (Nat.eqb_spec b x); [congruence|reflexivity].
      + destruct (Nat.eqb_spec a x); [congruence|reflexivity].
  Qed.
  Definition Q (s : stmt) : Prop := (forall s', inside s' [s] -> fit s') -> forall st st', inv st st' -> inv (exec G s st) (exec G (to_stmt a b s) st').
  Lemma inv_run_aux : forall l, Forall Q l -> (forall s', inside s' l -> fit s') -> forall st st', inv st st' -> inv (run G l st) (run G (map (to_stmt a b) l) st').
  Proof.
    induction 1 as [|s r Hs _ IH]; intros F st st' I; [exact I|]. cbn [map]. rewrite !run_cons.
    assert (inv (exec G s st) (exec G (to_stmt a b s) st')) as J by (apply Hs; [intros s' X; apply F; now apply ins_hd|exact I]).
    pose proof J as (_ & _ & _ & _ & _ & _ & _ & E). rewrite E. destruct (st_status (exec G s st)); auto.
    apply IH; [|exact J]. intros s' X. apply F. now apply ins_tl.
  Qed.
  Lemma inv_exec : forall s, Q s.
  Proof.
    induction s as [k l e|c t f Ht Hf|e cs d Hcs Hd|i u v sp body Hb|body Hb|e| |k] using stmt_ind'; intros F st st' I; pose proof (F _ (inside_self _)) as F0; cbn [fit] in F0.
    - destruct F0 as (R1 & R2 & Nb & Lt). cbn [to_stmt exec]. unfold do_assign. rewrite (inv_ev st st' e I R2).
      assert (target G (st_cur st') (to_lhs a b l) (ev G (st_cur st) e) = to_write a b (target G (st_cur st) l (ev G (st_cur st) e))) as ->.
      { rewrite <- to_target. destruct l as [x|x hi lo|x ix w]; cbn [to_lhs target]; try reflexivity.
        cbn [lhs_reads] in R1. now rewrite (inv_ev st st' ix I R1). }
      set (w := target G (st_cur st) l (ev G (st_cur st) e)). assert (w_var w = lhs_var l) as Ew by apply target_var.
      destruct I as (A & B & C & D & E & N & M & S0).
      destruct (inv_write (st_cur st) (st_cur st') w A B) as (W1 & W2 & W3 & W4); [now rewrite Ew|].
      assert (late -> k <> NonBlocking -> do_write (st_cur st) w a = base) as K.
      { intros L Nk. unfold do_write, upd. rewrite Ew. destruct (Nat.eqb_spec a (lhs_var l)) as [X|]; [|auto].
        exfalso. apply Nk. apply Lt; auto. }
      destruct k; unfold inv; cbn [st_cur st_nba st_status];
        (split; [assumption|]); (split; [assumption|]); (split; [congruence|]); (split; [congruence|]);
        (split; [intros L; try (apply K; [exact L|discriminate]); auto|]).
      + split; [exact N|split; [exact M|exact S0]].
      + split; [rewrite map_app; cbn; congruence|]. split; [|exact S0]. apply Forall_app. split; [exact M|]. constructor; [now rewrite Ew|constructor].
      + split; [exact N|split; [exact M|exact S0]].
    - cbn [to_stmt]. rewrite !exec_if. unfold truth. rewrite (inv_ev st st' c I F0).
      destruct (negb _); apply inv_run_aux; auto; intros s' X; apply F; [now apply ins_then|now apply ins_else].
    - cbn [to_stmt]. rewrite !exec_switch, (inv_ev st st' e I F0).
      assert (forall k l, In (k, l) cs -> forall s', inside s' l -> fit s') as N1
        by (intros k l X s' Y; apply F; eapply ins_case; eauto).
      assert (forall l, d = Some l -> forall s', inside s' l -> fit s') as N2
        by (intros l -> s' Y; apply F; now apply ins_def).
      generalize (ev G (st_cur st) e) (ewidth G e). intros z w. clear F F0.
      induction Hcs as [|[k l] r Hb Hr IH]; cbn [map fst snd pick].
      + destruct d as [l|]; [|exact I]. apply inv_run_aux; [now apply Hd|now apply N2|exact I].
      + destruct (z =? enc w k); [apply inv_run_aux; auto; apply (N1 k); now left|].
        apply IH. intros k1 b1 I1. apply (N1 k1). now right.
    - cbn [to_stmt]. rewrite !exec_for. destruct F0 as [Na Nb]. assert (forall s', inside s' body -> fit s') as N by (intros s' X; apply F; now apply ins_for).
      clear F. revert st st' I. induction (for_values u v sp) as [|z vs IH]; intros st st' I; [exact I|]. cbn [loop].
      set (s1 := {| st_cur := upd (st_cur st) i _; st_nba := _; st_status := _ |}).
      set (s2 := {| st_cur := upd (st_cur st') i _; st_nba := _; st_status := _ |}).
      assert (inv s1 s2) as J.
      { destruct I as (A & B & C & D & E & N0 & M & S0). subst s1 s2. unfold inv. cbn [st_cur st_nba st_status]. unfold upd.
        destruct (Nat.eqb_spec a i); [congruence|]. destruct (Nat.eqb_spec b i); [congruence|].
        split; [intros x Xa Xb; destruct (Nat.eqb x i); auto|]. auto 10. }
      apply (inv_run_aux body Hb N) in J. pose proof J as (A & B & C & D & E & N0 & M & S0). rewrite S0.
      destruct (st_status (run G body s1)); [now apply IH| |exact J].
      unfold inv. cbn [set_status st_cur st_nba st_status]. auto 10.
    - cbn [to_stmt]. rewrite !exec_block. apply inv_run_aux; auto. intros s' X. apply F. now apply ins_block.
    - cbn [to_stmt exec]. rewrite (inv_ev st st' e I F0). destruct I as (A & B & C & D & E & N0 & M & S0). unfold inv. cbn [set_status st_cur st_nba st_status]. auto 10.
    - destruct I as (A & B & C & D & E & N0 & M & S0). unfold inv. cbn. auto 10.
    - exact I.
  Qed.
  Lemma inv_run : forall l st st', (forall s', inside s' l -> fit s') -> inv st st' -> inv (run G l st) (run G (map (to_stmt a b) l) st').
  Proof. intros l st st' F I. apply inv_run_aux; auto. apply Forall_forall. intros; apply inv_exec. Qed.
  Lemma writes_to : forall l r r', (forall x, x <> a -> x <> b -> r' x = r x) -> r' b = r a -> Forall (fun u => w_var u <> b) l ->
    (forall x, x <> a -> x <> b -> fold_left do_write (map (to_write a b) l) r' x = fold_left do_write l r x) /\
    fold_left do_write (map (to_write a b) l) r' b = fold_left do_write l r a /\
    fold_left do_write l r b = r b /\ fold_left do_write (map (to_write a b) l) r' a = r' a.
  Proof.
    induction l as [|u l IH]; intros r r' A B F; cbn [map fold_left]; [auto|]. inversion F as [|? ? Fu Fl]; subst.
    destruct (inv_write r r' u A B Fu) as (W1 & W2 & W3 & W4).
    destruct (IH (do_write r u) (do_write r' (to_write a b u)) W1 W2 Fl) as (X1 & X2 & X3 & X4).
    split; [exact X1|]. split; [exact X2|]. split; congruence.
  Qed.
  Lemma inv_start : forall r, r a = base -> r b = base -> inv (start_state r) (start_state r).
  Proof. intros r A B. unfold inv, start_state. cbn. rewrite A, B. auto 10. Qed.
  (* one activation *)
  Lemma to_activate : forall l r, r a = base -> r b = base -> (forall s', inside s' l -> fit s') ->
    (forall x, x <> a -> x <> b -> activate G (map (to_stmt a b) l) r x = activate G l r x) /\
    activate G (map (to_stmt a b) l) r b = activate G l r a /\ activate G l r b = base /\ activate G (map (to_stmt a b) l) r a = base.
  Proof.
    intros l r A B F. destruct (inv_run l _ _ F (inv_start r A B)) as (I1 & I2 & I3 & I4 & I5 & I6 & I7 & I8). unfold activate, commit. rewrite I6.
    destruct (writes_to (st_nba (run G l (start_state r))) _ _ I1 I2 I7) as (W1 & W2 & W3 & W4). split; [exact W1|]. split; [exact W2|]. split; congruence.
  Qed.
  Lemma to_queued : forall it r, r a = base -> r b = base -> (forall s', inside s' (body_of (i_proc it)) -> fit s') ->
    queued G (to_item a b it) r = map (to_write a b) (queued G it r) /\ Forall (fun u => w_var u <> b) (queued G it r).
  Proof.
    intros it r A B F. unfold queued.
    assert (body_of (i_proc (to_item a b it)) = map (to_stmt a b) (body_of (i_proc it))) as -> by (cbn; destruct (i_proc it); reflexivity).
    destruct (inv_run _ _ _ F (inv_start r A B)) as (_ & _ & _ & _ & _ & I6 & I7 & _). auto.
  Qed.
End Retarget.

(* what a process does not read or write does not matter to it *)
Section Unread.
  Variables (G : tenv) (h : var -> bool).
  Definition seen (l : list write) : Prop := Forall (fun u => h (w_var u) = false) l.
  Lemma seen_all : forall l, seen l -> filter (vis h) l = l.
  Proof. induction 1 as [|u w Hu _ IH]; [reflexivity|]. cbn [filter]. unfold vis at 1. rewrite Hu. cbn. now rewrite IH. Qed.
  Definition QS (s : stmt) : Prop := (forall x, touches x [s] -> h x = false) -> forall st, seen (st_nba st) -> seen (st_nba (exec G s st)).
  Lemma seen_block : forall l, Forall QS l -> (forall x, touches x l -> h x = false) -> forall st, seen (st_nba st) -> seen (st_nba (run G l st)).
  Proof.
    induction 1 as [|s r0 Hs _ IH]; intros T st Fs; [exact Fs|]. rewrite run_cons.
    assert (seen (st_nba (exec G s st))) as F1 by (apply Hs; auto; intros x Hx; apply T; eapply touches_incl; [|exact Hx]; intros y; apply ins_hd).
    destruct (st_status _); auto. apply IH; auto. intros x Hx; apply T; eapply touches_incl; [|exact Hx]; intros y; apply ins_tl.
  Qed.
  Lemma seen_stmt : forall s, QS s.
  Proof.
    induction s as [k lh e|c t f Ht Hf|e cs d Hcs Hd|i u v sp body Hb|body Hb|e| |k] using stmt_ind'; intros T st Fs; try exact Fs.
    - cbn. unfold do_assign. destruct k; try exact Fs. cbn. apply Forall_app. split; [exact Fs|]. constructor; [|constructor]. rewrite target_var.
      apply T. left. do 3 eexists. split; [apply inside_self|reflexivity].
    - rewrite exec_if. destruct (truth _ _ _); apply seen_block; auto; intros x Hx; apply T; eapply touches_incl; try exact Hx; intros y Hy; [now apply ins_then|now apply ins_else].
    - rewrite exec_switch, pick_chosen. destruct (chosen _ _ cs d) as [bd|] eqn:Ec; [|exact Fs]. apply seen_block; auto.
      + destruct (chosen_in _ _ _ _ _ Ec) as [[k I]| ->]; [|now apply Hd]. rewrite Forall_forall in Hcs. exact (Hcs _ I).
      + intros x Hx; apply T; eapply touches_incl; try exact Hx; intros y Hy. eapply ins_chosen; eauto.
    - rewrite exec_for. assert (forall x, touches x body -> h x = false) as N1
        by (intros x Hx; apply T; eapply touches_incl; [|exact Hx]; intros y Hy; now apply ins_for).
      revert st Fs. induction (for_values u v sp) as [|z vs IH]; intros st Fs; [exact Fs|]. cbn [loop].
      set (st1 := {| st_cur := _ |}). assert (seen (st_nba (run G body st1))) as F1 by (apply seen_block; auto).
      destruct (st_status (run G body st1)); auto.
    - rewrite exec_block. apply seen_block; auto. intros x Hx; apply T; eapply touches_incl; try exact Hx; intros y Hy. now apply ins_block.
  Qed.
  Lemma seen_run : forall l r, (forall x, touches x l -> h x = false) -> seen (st_nba (run G l (start_state r))).
  Proof. intros l r T. apply seen_block; [apply Forall_forall; intros; apply seen_stmt|exact T|constructor]. Qed.
  Lemma unread_run : forall l r r', (forall x, reads x l \/ touches x l -> h x = false) -> (forall x, h x = false -> r x = r' x) ->
    (forall x, h x = false -> st_cur (run G l (start_state r)) x = st_cur (run G l (start_state r')) x) /\
    st_nba (run G l (start_state r)) = st_nba (run G l (start_state r')).
  Proof.
    intros l r r' F A.
    assert (fine (fun _ => false) h l) as Fi.
    { intros s I. split.
      - destruct s; try reflexivity. cbn. symmetry. apply F. right. left. do 3 eexists. eauto.
      - intros _ y R. apply F. left. exists s. auto. }
    pose proof (drop_simulates (fun _ => false) G h l Fi (start_state r) (start_state r') eq_refl) as S0.
    rewrite drop_none in S0. destruct S0 as (X & Y & _); [split; [exact A|split; reflexivity]|]. split; [exact X|].
    rewrite <- Y. symmetry. apply seen_all, seen_run. auto.
  Qed.
  Lemma unread_activate : forall l r r', (forall x, reads x l \/ touches x l -> h x = false) -> (forall x, h x = false -> r x = r' x) ->
    forall x, h x = false -> activate G l r x = activate G l r' x.
  Proof.
    intros l r r' F A x Hx. destruct (unread_run l r r' F A) as [C N]. unfold activate, commit.
    rewrite (writes_off h _ _ _ C x Hx), seen_all, N by (apply seen_run; auto). reflexivity.
  Qed.
End Unread.
