From Coq Require Import Permutation.
From Verif Require Import Base SV_spec IR IRSem_spec IR_lemmas IR_frame Design_spec Dce_model Dce_proofs Eval_model Sim_model Sim_spec Sim_proofs
  Param_proofs Simq_spec Simq_model.
Local Open Scope Z_scope.

Definition below (m : sim_vals) (r : venv) : Prop := forall x, m x = None \/ m x = Some (r x).
Definition prange (G : tenv) (m : sim_vals) : Prop := forall x v, m x = Some v -> 0 <= v < 2 ^ d_width (G x).
Definition total (m : sim_vals) : venv := fun x => match m x with Some v => v | None => 0 end.
Lemma total_below : forall m, below m (total m).
Proof. intros m x. unfold total. destruct (m x); auto. Qed.
Lemma total_range : forall G m, (forall x, 0 < d_width (G x)) -> prange G m -> in_range G (total m).
Proof.
  intros G m W P x. unfold total. destruct (m x) as [v|] eqn:E; [exact (P x v E)|].
  split; [lia|]. apply Z.pow_pos_nonneg; [lia|]. specialize (W x). lia.
Qed.

Lemma eval_below : forall pow G m r e, below m r -> no_mux e ->
  sim_eval pow G m e = Ok None \/ sim_eval pow G m e = sim_eval pow G (fun x => Some (r x)) e.
Proof.
  intros pow G m r e B. induction e as [x|v w s|op a IHa|op a IHa b IHb|c IHc a IHa b IHb|a IHa hi lo|a IHa b IHb|a IHa w];
    intros N; cbn [sim_eval no_mux] in *.
  - destruct (B x) as [-> | ->]; auto.
  - auto.
  - destruct (IHa N) as [-> | ->]; auto.
  - destruct N as [Na Nb]. destruct (IHa Na) as [-> | ->]; [auto|].
    destruct (sim_eval pow G (fun x => Some (r x)) a) as [[l|]| |]; cbn [obind]; auto.
    destruct (IHb Nb) as [-> | ->]; auto.
  - contradiction.
  - auto.
  - destruct N as [Na Nb]. destruct (IHb Nb) as [-> | ->]; [auto|].
    destruct (sim_eval pow G (fun x => Some (r x)) b) as [[l|]| |]; cbn [obind]; auto.
    destruct (IHa Na) as [-> | ->]; auto.
  - destruct (IHa N) as [-> | ->]; auto.
Qed.
Lemma good_eval : forall pow G m r e, good_expr G e -> no_mux e -> in_range G r -> below m r ->
  sim_eval pow G m e = Ok None \/ sim_eval pow G m e = Ok (Some (ev G r e)).
Proof.
  intros pow G m r e (A & B & C) N R L. destruct (eval_below pow G m r e L N) as [E|E]; [auto|]. right. rewrite E.
  apply sim_eval_ok; auto.
Qed.
Lemma full_eval : forall pow G m r e, good_expr G e -> in_range G r -> (forall x, In x (evars e) -> m x = Some (r x)) ->
  sim_eval pow G m e = Ok (Some (ev G r e)).
Proof.
  intros pow G m r e (A & B & C) R L. rewrite (sim_eval_agree pow G m (fun x => Some (r x)) e L). apply sim_eval_ok; auto.
Qed.
Lemma deps_evars : forall G e, no_mux e -> sim_ok G e -> deps_e e = evars e.
Proof.
  intros G. induction e as [x|v w s|op a IHa|op a IHa b IHb|c IHc a IHa b IHb|a IHa hi lo|a IHa b IHb|a IHa w];
    intros N S; cbn in N, S |- *; try tauto; try (rewrite IHa by tauto; try rewrite IHb by tauto; reflexivity).
Qed.

(* what a block does, when the signals it reads have the values r *)
Definition asg : Type := akind * var * Z.
Section Plan.
  Variable G : tenv.
  Fixpoint plan (r : venv) (s : stmt) : list asg :=
    match s with
    | SAssign k (LVar x) e => [(k, x, ev G r e)]
    | SIf c t f => if truth G r c then flat_map (plan r) t else flat_map (plan r) f
    | SSwitch e cs d =>
        (fix pk (l : list (Z * list stmt)) : list asg :=
           match l with
           | [] => match d with None => [] | Some b => flat_map (plan r) b end
           | cb :: l => if ev G r e =? enc (ewidth G e) (fst cb) then flat_map (plan r) (snd cb) else pk l
           end) cs
    | SBlock b => flat_map (plan r) b
    | _ => []
    end.
  Definition plans (r : venv) (l : list stmt) : list asg := flat_map (plan r) l.
  Definition do_asg (ord : var -> list nat) (sc : option nat) (st : qst) (a : asg) : qst :=
    match a with
    | (k, x, v) =>
        match k with
        | NonBlocking => {| q_vals := q_vals st; q_nba := nba_emplace (q_nba st) x v; q_evs := q_evs st; q_depth := q_depth st |}
        | _ => set_value G ord sc x v st
        end
    end.
End Plan.

Lemma set_vals : forall G ord sc x v st, q_vals (set_value G ord sc x v st) = set_val (q_vals st) x v.
Proof. intros. unfold set_value. destruct (changed _ _ _); reflexivity. Qed.
Lemma set_nba : forall G ord sc x v st, q_nba (set_value G ord sc x v st) = q_nba st.
Proof. intros. unfold set_value. destruct (changed _ _ _); reflexivity. Qed.

Lemma inside_in : forall s' s l, In s l -> inside s' [s] -> inside s' l.
Proof.
  intros s' s l I H. inversion H as [l0 J|l0 c t f J K|l0 c t f J K|l0 e cs dd k b J K M|l0 e cs b J K|l0 i a b st body J K|l0 body J K]; subst;
    (destruct J as [J|[]]; subst).
  - now apply in_here.
  - eapply in_then; eauto.
  - eapply in_else; eauto.
  - eapply in_case; eauto.
  - eapply in_default; eauto.
  - eapply in_for; eauto.
  - eapply in_block; eauto.
Qed.

Section Writes.
  Variable pow : Z -> Z -> outcome Z.
  Variable G : tenv.
  Variable ord : var -> list nat.
  Hypothesis width : forall x, 0 < d_width (G x).
  Variable B : list stmt.
  Hypothesis mux : mux_free B.
  Variable D : var -> Prop.

  Definition blocking (x : var) (body : list stmt) : Prop := exists k l e, inside (SAssign k l e) body /\ k <> NonBlocking /\ lhs_var l = x.
  Definition written (a : asg) : Prop :=
    match a with (k, x, v) => 0 <= v < 2 ^ d_width (G x) /\ exists e, inside (SAssign k (LVar x) e) B end.

  Lemma written_range : forall sc L st, Forall written L -> prange G (q_vals st) -> prange G (q_vals (fold_left (do_asg G ord sc) L st)).
  Proof.
    intros sc L. induction L as [|[[k x] v] L IH]; intros st F P; [exact P|]. apply Forall_cons_iff in F as [[F1 F2] F3].
    cbn [fold_left]. apply IH; [exact F3|]. cbn [do_asg]. destruct k; try exact P; rewrite set_vals;
      intros y u; unfold set_val; (destruct (Nat.eqb_spec y x) as [->|]; [intros [= <-]; exact F1|apply P]).
  Qed.
  Lemma written_keeps : forall sc L st y, Forall written L -> ~ blocking y B -> q_vals (fold_left (do_asg G ord sc) L st) y = q_vals st y.
  Proof.
    intros sc L. induction L as [|[[k x] v] L IH]; intros st y F NB; [reflexivity|]. apply Forall_cons_iff in F as [[F1 [e F2]] F3].
    cbn [fold_left]. rewrite IH by auto. cbn [do_asg].
    destruct k; try reflexivity; rewrite set_vals; unfold set_val; destruct (Nat.eqb_spec y x) as [->|]; try reflexivity;
      exfalso; apply NB; do 3 eexists; (split; [exact F2|split; [discriminate|reflexivity]]).
  Qed.

  Definition does (f : option nat -> qst -> outcome qst) (p : venv -> list asg) : Prop :=
    forall sc st st', prange G (q_vals st) -> f sc st = Ok st' ->
      exists L, st' = fold_left (do_asg G ord sc) L st /\ Forall written L
        /\ forall r, in_range G r -> (forall y, reads y B -> D y) -> (forall y, blocking y B -> ~ D y) ->
             (forall y, D y -> q_vals st y = Some (r y)) -> L = p r.

  Lemma does_list : forall l, Forall (fun s => does (fun sc => qstmt pow G ord sc s) (fun r => plan G r s)) l ->
    does (fun sc => qblock pow G ord sc l) (fun r => plans G r l).
  Proof.
    induction l as [|s l IH]; intros F sc st st' P E.
    - cbn in E. injection E as <-. exists []. repeat split; auto.
    - apply Forall_cons_iff in F as [F1 F2]. cbn [qblock] in E.
      destruct (qstmt pow G ord sc s st) as [s1| |] eqn:E1; cbn [obind] in E; try discriminate.
      destruct (F1 sc st s1 P E1) as (L1 & Q1 & W1 & K1).
      assert (prange G (q_vals s1)) as P1 by (rewrite Q1; apply written_range; auto).
      destruct (IH F2 sc s1 st' P1 E) as (L2 & Q2 & W2 & K2). exists (L1 ++ L2). split; [|split].
      + rewrite fold_left_app, <- Q1. exact Q2.
      + apply Forall_app. auto.
      + intros r R H1 H2 H3. unfold plans. cbn [flat_map]. f_equal; [apply K1; auto|]. apply K2; auto.
        intros y Dy. rewrite Q1, written_keeps; auto. intros BB. exact (H2 y BB Dy).
  Qed.

  Lemma qstmt_if : forall sc c t f st, qstmt pow G ord sc (SIf c t f) st =
    (olet v := sim_eval pow G (q_vals st) c in
     match v with
     | Some v => if negb (v =? 0) then qblock pow G ord sc t st else qblock pow G ord sc f st
     | None => qblock pow G ord sc f st
     end).
  Proof. reflexivity. Qed.
  Fixpoint qpick (sc : option nat) (v w : Z) (l : list (Z * list stmt)) (dd : option (list stmt)) (st : qst) : outcome qst :=
    match l with
    | [] => match dd with None => Ok st | Some b => qblock pow G ord sc b st end
    | cb :: r =>
        olet bits := case_bits w (fst cb) in
        if v =? bits then qblock pow G ord sc (snd cb) st else qpick sc v w r dd st
    end.
  Lemma qstmt_switch : forall sc e cs dd st, qstmt pow G ord sc (SSwitch e cs dd) st =
    (olet v := sim_eval pow G (q_vals st) e in
     match v with
     | None => match dd with None => Ok st | Some b => qblock pow G ord sc b st end
     | Some v => qpick sc v (ewidth G e) cs dd st
     end).
  Proof.
    intros. cbn [qstmt]. destruct (sim_eval pow G (q_vals st) e) as [[v|]| |]; cbn [obind]; try reflexivity.
    induction cs as [|[k b] cs IH]; [reflexivity|]. cbn [qpick fst snd].
    destruct (case_bits (ewidth G e) k) as [z| |]; cbn [obind]; [|reflexivity|reflexivity].
    destruct (v =? z); [reflexivity|]. exact IH.
  Qed.
  Fixpoint ppick (r : venv) (v w : Z) (l : list (Z * list stmt)) (dd : option (list stmt)) : list asg :=
    match l with
    | [] => match dd with None => [] | Some b => plans G r b end
    | cb :: l => if v =? enc w (fst cb) then plans G r (snd cb) else ppick r v w l dd
    end.
  Lemma plan_switch : forall r e cs dd, plan G r (SSwitch e cs dd) = ppick r (ev G r e) (ewidth G e) cs dd.
  Proof. intros. cbn [plan]. induction cs as [|cb cs IH]; [reflexivity|]. cbn [ppick]. destruct (_ =? _); [reflexivity|exact IH]. Qed.

  (* the predicate or target of a statement: unknown, or its value; known when everything read is *)
  Lemma own_value : forall s e st, inside s B -> own_expr s = Some e -> good_expr G e -> prange G (q_vals st) ->
    sim_eval pow G (q_vals st) e = Ok None \/ sim_eval pow G (q_vals st) e = Ok (Some (ev G (total (q_vals st)) e)).
  Proof.
    intros s e st I O Ge P. apply good_eval; auto; [exact (mux s e I O)|apply total_range; auto|apply total_below].
  Qed.
  Lemma own_known : forall s e st r, inside s B -> own_expr s = Some e -> good_expr G e -> in_range G r ->
    (forall y, reads y B -> D y) -> (forall y, D y -> q_vals st y = Some (r y)) ->
    sim_eval pow G (q_vals st) e = Ok (Some (ev G r e)).
  Proof.
    intros s e st r I O Ge R H1 H2. apply full_eval; auto. intros x Ix. apply H2, H1. exists s. split; [exact I|].
    destruct s; cbn in O; try discriminate; injection O as ->; constructor; auto.
  Qed.

  Lemma qstmt_does : forall s, good_stmt G s -> (forall s', inside s' [s] -> inside s' B) ->
    does (fun sc => qstmt pow G ord sc s) (fun r => plan G r s).
  Proof.
    induction s as [k l e|c t f IHt IHf|e cs dd IHc IHd|i a b st body IH|body IH|e| |n] using stmt_ind';
      intros H S; inversion H as [? ? ? GE GW|? ? ? GE Gt Gf|? ? ? GE GW Gc Gd|? Gb]; subst;
      (assert (inside _ B) as I0 by (apply S; apply in_here; left; reflexivity)).
    - intros sc st st' P E. cbn [qstmt] in E.
      assert (forall v, sim_eval pow G (q_vals st) e = Ok (Some v) -> 0 <= v < 2 ^ d_width (G x)) as RG.
      { intros v Ev. destruct (own_value _ e st I0 eq_refl GE P) as [Q|Q]; rewrite Q in Ev; [discriminate|]. injection Ev as <-.
        rewrite <- GW. apply ev_fits. exact (proj1 GE). }
      destruct (sim_eval pow G (q_vals st) e) as [[v|]| |] eqn:Ev; cbn [obind] in E; try discriminate.
      + exists [(k, x, v)]. split; [|split].
        * destruct k; injection E as <-; reflexivity.
        * constructor; [|constructor]. split; [apply RG; reflexivity|]. exists e. exact I0.
        * intros r R H1 H2 H3. rewrite (own_known _ e st r I0 eq_refl GE R H1 H3) in Ev. injection Ev as <-. reflexivity.
      + injection E as <-. exists []. repeat split; auto. intros r R H1 H2 H3.
        rewrite (own_known _ e st r I0 eq_refl GE R H1 H3) in Ev. discriminate.
    - assert (does (fun sc => qblock pow G ord sc t) (fun r => plans G r t)) as Dt.
      { apply does_list. rewrite Forall_forall in *. intros s Is. apply IHt; auto. intros s' Q. apply S.
        apply (in_then _ _ c t f); [left; reflexivity|]. now apply (inside_in s' s t). }
      assert (does (fun sc => qblock pow G ord sc f) (fun r => plans G r f)) as Df.
      { apply does_list. rewrite Forall_forall in *. intros s Is. apply IHf; auto. intros s' Q. apply S.
        apply (in_else _ _ c t f); [left; reflexivity|]. now apply (inside_in s' s f). }
      intros sc st st' P E. rewrite qstmt_if in E.
      destruct (own_value _ c st I0 eq_refl GE P) as [Q|Q]; rewrite Q in E; cbn [obind] in E.
      + destruct (Df sc st st' P E) as (L & Q1 & Q2 & Q3). exists L. split; [exact Q1|]. split; [exact Q2|].
        intros r R H1 H2 H3. rewrite (own_known _ c st r I0 eq_refl GE R H1 H3) in Q. discriminate.
      + assert (forall r, in_range G r -> (forall y, reads y B -> D y) -> (forall y, D y -> q_vals st y = Some (r y)) ->
                  ev G r c = ev G (total (q_vals st)) c) as K.
        { intros r R H1 H3. rewrite (own_known _ c st r I0 eq_refl GE R H1 H3) in Q. now injection Q. }
        destruct (negb (ev G (total (q_vals st)) c =? 0)) eqn:T.
        * destruct (Dt sc st st' P E) as (L & Q1 & Q2 & Q3). exists L. split; [exact Q1|]. split; [exact Q2|].
          intros r R H1 H2 H3. cbn [plan]. unfold truth. rewrite (K r R H1 H3), T. apply Q3; auto.
        * destruct (Df sc st st' P E) as (L & Q1 & Q2 & Q3). exists L. split; [exact Q1|]. split; [exact Q2|].
          intros r R H1 H2 H3. cbn [plan]. unfold truth. rewrite (K r R H1 H3), T. apply Q3; auto.
    - assert (forall kb, In kb cs -> does (fun sc => qblock pow G ord sc (snd kb)) (fun r => plans G r (snd kb))) as Dc.
      { intros kb Ikb. apply does_list. rewrite Forall_forall in *. destruct (Gc kb Ikb) as [_ Gk].
        specialize (IHc kb Ikb). rewrite Forall_forall in *. intros s Is. apply IHc; auto. intros s' Q. apply S.
        destruct kb as [kk bb]. apply (in_case _ _ e cs dd kk bb); [left; reflexivity|exact Ikb|]. now apply (inside_in s' s bb). }
      assert (forall b, dd = Some b -> does (fun sc => qblock pow G ord sc b) (fun r => plans G r b)) as Ddd.
      { intros b ->. apply does_list. specialize (IHd b eq_refl). specialize (Gd b eq_refl). rewrite Forall_forall in *.
        intros s Is. apply IHd; auto. intros s' Q. apply S. apply (in_default _ _ e cs b); [left; reflexivity|]. now apply (inside_in s' s b). }
      intros sc st st' P E. rewrite qstmt_switch in E.
      destruct (own_value _ e st I0 eq_refl GE P) as [Q|Q]; rewrite Q in E; cbn [obind] in E.
      + destruct dd as [b|].
        * destruct (Ddd b eq_refl sc st st' P E) as (L & Q1 & Q2 & Q3). exists L. split; [exact Q1|]. split; [exact Q2|].
          intros r R H1 H2 H3. rewrite (own_known _ e st r I0 eq_refl GE R H1 H3) in Q. discriminate.
        * injection E as <-. exists []. split; [reflexivity|]. split; [constructor|].
          intros r R H1 H2 H3. rewrite (own_known _ e st r I0 eq_refl GE R H1 H3) in Q. discriminate.
      + assert (exists L, st' = fold_left (do_asg G ord sc) L st /\ Forall written L
          /\ forall r, in_range G r -> (forall y, reads y B -> D y) -> (forall y, blocking y B -> ~ D y) ->
               (forall y, D y -> q_vals st y = Some (r y)) -> L = ppick r (ev G (total (q_vals st)) e) (ewidth G e) cs dd) as (L & Q1 & Q2 & Q3).
        { assert (0 < ewidth G e <= 32) as WW by (pose proof (ewidth_pos G e (proj1 GE)); lia).
          clear Q H S I0 IHc. induction cs as [|[kk bb] cs IHcs].
          - cbn [qpick] in E. cbn [ppick]. destruct dd as [b|].
            + exact (Ddd b eq_refl sc st st' P E).
            + injection E as <-. exists []. repeat split; auto.
          - apply Forall_cons_iff in Gc as [[G1 _] G2]. cbn [qpick fst snd] in E. cbn [fst] in G1.
            rewrite case_bits_ok in E by auto. cbn [obind] in E. cbn [ppick fst snd].
            destruct (ev G (total (q_vals st)) e =? enc (ewidth G e) kk).
            + exact (Dc (kk, bb) (or_introl eq_refl) sc st st' P E).
            + apply IHcs; auto. intros kb Ikb. apply Dc. right. exact Ikb. }
        exists L. split; [exact Q1|]. split; [exact Q2|]. intros r R H1 H2 H3. rewrite plan_switch.
        rewrite (own_known _ e st r I0 eq_refl GE R H1 H3) in Q. injection Q as ->. apply Q3; auto.
    - intros sc st st' P E. change (qblock pow G ord sc body st = Ok st') in E.
      assert (does (fun sc => qblock pow G ord sc body) (fun r => plans G r body)) as Db.
      { apply does_list. rewrite Forall_forall in *. intros s Is. apply IH; auto. intros s' Q. apply S.
        apply (in_block _ _ body); [left; reflexivity|]. now apply (inside_in s' s body). }
      exact (Db sc st st' P E).
  Qed.
End Writes.

(* the specification side: what running a block does *)
Section Exec.
  Variable G : tenv.
  Variable B : list stmt.
  Variable D : var -> Prop.
  Variable r : venv.
  Hypothesis rD : forall y, reads y B -> D y.
  Hypothesis bD : forall y, blocking y B -> ~ D y.

  Definition do_sp (st : pstate) (a : asg) : pstate :=
    match a with
    | (k, x, v) =>
        match k with
        | NonBlocking => {| st_cur := st_cur st; st_nba := st_nba st ++ [{| w_var := x; w_lo := 0; w_n := d_width (G x); w_val := v |}];
                            st_status := st_status st |}
        | _ => {| st_cur := upd (st_cur st) x v; st_nba := st_nba st; st_status := st_status st |}
        end
    end.
  Record fit (st : pstate) : Prop := {
    ft_run : st_status st = Running;
    ft_range : in_range G (st_cur st);
    ft_same : forall y, D y -> st_cur st y = r y
  }.
  Definition runs_as (f : pstate -> pstate) (L : list asg) : Prop :=
    forall st, fit st -> f st = fold_left do_sp L st /\ fit (f st).

  Lemma runs_list : forall l, Forall (fun s => runs_as (exec G s) (plan G r s)) l -> runs_as (run G l) (plans G r l).
  Proof.
    induction l as [|s l IH]; intros F st Ft; [split; auto|]. apply Forall_cons_iff in F as [F1 F2].
    destruct (F1 st Ft) as [E1 Ft1]. destruct (IH F2 _ Ft1) as [E2 Ft2]. cbn [run]. rewrite (ft_run _ Ft1).
    split; [|exact Ft2]. unfold plans. cbn [flat_map]. rewrite fold_left_app, <- E1. exact E2.
  Qed.
  Lemma own_ev : forall s e st, inside s B -> own_expr s = Some e -> fit st -> ev G (st_cur st) e = ev G r e.
  Proof.
    intros s e st I O Ft. apply ev_agree. intros x Ix. apply (ft_same _ Ft), rD. exists s. split; [exact I|].
    destruct s; cbn in O; try discriminate; injection O as ->; constructor; auto.
  Qed.
  Lemma exec_does : forall s, good_stmt G s -> (forall s', inside s' [s] -> inside s' B) -> runs_as (exec G s) (plan G r s).
  Proof.
    induction s as [k l e|c t f IHt IHf|e cs dd IHc IHd|i a b st body IH|body IH|e| |n] using stmt_ind';
      intros H S; inversion H as [? ? ? GE GW|? ? ? GE Gt Gf|? ? ? GE GW Gc Gd|? Gb]; subst;
      (assert (inside _ B) as I0 by (apply S; apply in_here; left; reflexivity)).
    - intros st Ft. pose proof (own_ev _ e st I0 eq_refl Ft) as Ee.
      pose proof (ev_fits G r e (proj1 GE)) as F. rewrite GW in F.
      assert (0 <= d_width (G x)) as Wx by (rewrite <- GW; pose proof (ewidth_pos G e (proj1 GE)); lia).
      cbn [exec plan fold_left do_sp]. unfold do_assign. cbn [target]. rewrite Ee. unfold do_write. cbn [w_var w_lo w_n w_val].
      rewrite put_whole by (auto; apply (ft_range _ Ft)). destruct Ft as [F1 F2 F3].
      destruct k; (split; [reflexivity|]); constructor; cbn [st_cur st_status]; auto.
      1,3: intros y; unfold upd; (destruct (Nat.eqb_spec y x) as [->|]; [exact F|apply F2]).
      1,2: intros y Dy; unfold upd; (destruct (Nat.eqb_spec y x) as [->|]; [|auto]); exfalso; apply (bD x); auto;
        do 3 eexists; (split; [exact I0|split; [discriminate|reflexivity]]).
    - assert (runs_as (run G t) (plans G r t)) as Dt.
      { apply runs_list. rewrite Forall_forall in *. intros s Is. apply IHt; auto. intros s' Q. apply S.
        apply (in_then _ _ c t f); [left; reflexivity|]. now apply (inside_in s' s t). }
      assert (runs_as (run G f) (plans G r f)) as Df.
      { apply runs_list. rewrite Forall_forall in *. intros s Is. apply IHf; auto. intros s' Q. apply S.
        apply (in_else _ _ c t f); [left; reflexivity|]. now apply (inside_in s' s f). }
      intros st Ft. rewrite exec_if. unfold truth. rewrite (own_ev _ c st I0 eq_refl Ft). cbn [plan]. unfold truth.
      destruct (negb _); [apply Dt|apply Df]; exact Ft.
    - assert (forall kb, In kb cs -> runs_as (run G (snd kb)) (plans G r (snd kb))) as Dc.
      { intros kb Ikb. apply runs_list. rewrite Forall_forall in *. destruct (Gc kb Ikb) as [_ Gk].
        specialize (IHc kb Ikb). rewrite Forall_forall in *. intros s Is. apply IHc; auto. intros s' Q. apply S.
        destruct kb as [kk bb]. apply (in_case _ _ e cs dd kk bb); [left; reflexivity|exact Ikb|]. now apply (inside_in s' s bb). }
      assert (forall b, dd = Some b -> runs_as (run G b) (plans G r b)) as Ddd.
      { intros b ->. apply runs_list. specialize (IHd b eq_refl). specialize (Gd b eq_refl). rewrite Forall_forall in *.
        intros s Is. apply IHd; auto. intros s' Q. apply S. apply (in_default _ _ e cs b); [left; reflexivity|]. now apply (inside_in s' s b). }
      intros st Ft. rewrite exec_switch, plan_switch. rewrite (own_ev _ e st I0 eq_refl Ft).
      clear S I0 H IHc Gc. induction cs as [|kb cs IHcs].
      + cbn [pick ppick]. destruct dd as [b|]; [apply (Ddd b eq_refl); exact Ft|]. split; auto.
      + cbn [pick ppick]. destruct (ev G r e =? enc (ewidth G e) (fst kb)).
        * apply Dc; [left; reflexivity|exact Ft].
        * apply IHcs. intros k Ik. apply Dc. right. exact Ik.
    - intros st Ft. change (exec G (SBlock body) st) with (run G body st).
      assert (runs_as (run G body) (plans G r body)) as Db.
      { apply runs_list. rewrite Forall_forall in *. intros s Is. apply IH; auto. intros s' Q. apply S.
        apply (in_block _ _ body); [left; reflexivity|]. now apply (inside_in s' s body). }
      apply Db. exact Ft.
  Qed.
End Exec.

(* the assignments of a plan are assignments of the block *)
Lemma plan_inside : forall G r s k x v, In (k, x, v) (plan G r s) -> exists e, inside (SAssign k (LVar x) e) [s].
Proof.
  intros G r s k x v.
  assert (forall l, Forall (fun s => In (k, x, v) (plan G r s) -> exists e, inside (SAssign k (LVar x) e) [s]) l ->
            In (k, x, v) (flat_map (plan G r) l) -> exists e, inside (SAssign k (LVar x) e) l) as K.
  { intros l F I. apply in_flat_map in I as (q & Iq & I). rewrite Forall_forall in F. destruct (F q Iq I) as [e J].
    exists e. exact (inside_in _ q l Iq J). }
  induction s as [k0 l e|c t f IHt IHf|e cs dd IHc IHd|i a b st body IH|body IH|e| |n] using stmt_ind'; intros I; try contradiction.
  - destruct l; cbn in I; try contradiction. destruct I as [[= -> -> _]|[]]. exists e. apply in_here. left. reflexivity.
  - cbn [plan] in I. destruct (truth G r c).
    + destruct (K t IHt I) as [e J]. exists e. eapply in_then; [left; reflexivity|exact J].
    + destruct (K f IHf I) as [e J]. exists e. eapply in_else; [left; reflexivity|exact J].
  - rewrite plan_switch in I. assert (exists b e', inside (SAssign k (LVar x) e') b /\ ((exists kk, In (kk, b) cs) \/ dd = Some b)) as (b & e' & J & M).
    { revert I. generalize (ev G r e), (ewidth G e). intros v0 w0. induction cs as [|[kk bb] cs IHcs]; intros I; cbn [ppick fst snd] in I.
      - destruct dd as [b|]; [|destruct I]. destruct (K b (IHd b eq_refl) I) as [e' J]. exists b, e'. auto.
      - apply Forall_cons_iff in IHc as [C1 C2]. destruct (v0 =? _).
        + destruct (K bb C1 I) as [e' J]. exists bb, e'. split; [exact J|]. left. exists kk. left. reflexivity.
        + destruct (IHcs C2 I) as (b & e' & J & [[k2 M]|M]); exists b, e'; (split; [exact J|]); [left; exists k2; right; exact M|right; exact M]. }
    exists e'. destruct M as [[kk M]|M].
    + eapply in_case; [left; reflexivity|exact M|exact J].
    + subst. eapply in_default; [left; reflexivity|exact J].
  - destruct (K body IH I) as [e J]. exists e. eapply in_block; [left; reflexivity|exact J].
Qed.
Lemma plans_inside : forall G r l k x v, In (k, x, v) (plans G r l) -> exists e, inside (SAssign k (LVar x) e) l.
Proof.
  intros G r l k x v I. apply in_flat_map in I as (q & Iq & I). destruct (plan_inside _ _ _ _ _ _ I) as [e J].
  exists e. exact (inside_in _ q l Iq J).
Qed.

(* the last value a list of assignments gives to a variable *)
Fixpoint lastv (L : list asg) (x : var) : option Z :=
  match L with
  | [] => None
  | (_, y, v) :: L => match lastv L x with Some u => Some u | None => if Nat.eqb x y then Some v else None end
  end.
Lemma lastv_in : forall L x v, lastv L x = Some v -> exists k, In (k, x, v) L.
Proof.
  induction L as [|[[k y] u] L IH]; intros x v E; cbn in E; [discriminate|].
  destruct (lastv L x) as [z|] eqn:F.
  - injection E as ->. destruct (IH x v F) as [k' I]. exists k'. right. exact I.
  - destruct (Nat.eqb_spec x y) as [->|]; [|discriminate]. injection E as ->. exists k. left. reflexivity.
Qed.
Definition blockers (L : list asg) : Prop := Forall (fun a => fst (fst a) <> NonBlocking) L.
Lemma fold_vals : forall G ord sc L st x, blockers L ->
  q_vals (fold_left (do_asg G ord sc) L st) x = match lastv L x with Some v => Some v | None => q_vals st x end.
Proof.
  intros G ord sc. induction L as [|[[k y] v] L IH]; intros st x H; [reflexivity|]. apply Forall_cons_iff in H as [H1 H2].
  cbn [fold_left lastv]. rewrite IH by exact H2. destruct (lastv L x) as [u|]; [reflexivity|]. cbn [fst] in H1.
  cbn [do_asg]. destruct k; try (exfalso; apply H1; reflexivity); rewrite set_vals; unfold set_val; destruct (Nat.eqb x y); reflexivity.
Qed.
Lemma fold_cur : forall G L st x, blockers L ->
  st_cur (fold_left (do_sp G) L st) x = match lastv L x with Some v => v | None => st_cur st x end
  /\ st_nba (fold_left (do_sp G) L st) = st_nba st.
Proof.
  intros G. induction L as [|[[k y] v] L IH]; intros st x H; [split; reflexivity|]. apply Forall_cons_iff in H as [H1 H2].
  cbn [fold_left lastv fst] in *. destruct (IH (do_sp G st (k, y, v)) x H2) as [E1 E2]. rewrite E1, E2. cbn [do_sp].
  destruct k; try (exfalso; apply H1; reflexivity); (split; [|reflexivity]); cbn [st_cur]; unfold upd;
    destruct (lastv L x); try reflexivity; destruct (Nat.eqb x y); reflexivity.
Qed.

Lemma changed_no : forall t v w, 0 <= t < 2 ^ w -> 0 <= v < 2 ^ w -> 0 < w -> changed (Some t) w v = false -> t = v.
Proof.
  intros t v w T V W C. unfold changed in C. apply negb_false_iff, Z.eqb_eq in C.
  apply Z.bits_inj'. intros i Hi. destruct (Z_lt_le_dec i w).
  - assert (Z.testbit (Z.land (Z.lxor v t) (Z.ones w)) i = false) as K by (rewrite C; apply Z.bits_0).
    rewrite Z.land_spec, Z.lxor_spec, Z.ones_spec_low, andb_true_r in K by lia. destruct (Z.testbit v i), (Z.testbit t i); cbn in K; congruence.
  - rewrite (testbit_high w t), (testbit_high w v) by lia. reflexivity.
Qed.

Lemma inside_good : forall G b s, inside s b -> Forall (good_stmt G) b -> good_stmt G s.
Proof.
  intros G b s I. induction I as [l I|l c t f I J IH|l c t f I J IH|l e cs dd k b I M J IH|l e cs b I J IH|l i a b st bd I J IH|l bd I J IH];
    intros F; rewrite Forall_forall in F; specialize (F _ I); auto;
    inversion F as [? ? ? GE GW|? ? ? GE Gt Gf|? ? ? GE GW Gc Gd|? Gb]; subst; auto.
  apply IH. rewrite Forall_forall in Gc. destruct (Gc (k, b) M) as [_ Q]. exact Q.
Qed.

Lemma ids_inj : forall l, NoDup (map i_id l) -> forall it it', In it l -> In it' l -> i_id it = i_id it' -> it = it'.
Proof.
  induction l as [|a l IH]; intros N it it' I I' E; [destruct I|].
  cbn [map] in N. apply NoDup_cons_iff in N as [N1 N2]. destruct I as [->|I], I' as [->|I'].
  - reflexivity.
  - exfalso. apply N1. rewrite E. apply in_map. exact I'.
  - exfalso. apply N1. rewrite <- E. apply in_map. exact I.
  - apply IH; auto.
Qed.

Section Inv.
  Variable pow : Z -> Z -> outcome Z.
  Variable G : tenv.
  Variable tied : nat -> bool.
  Variable d : design.
  Variable ord : var -> list nat.
  Variable nord : list (var * Z) -> list (var * Z).
  Hypothesis wf : well_formed G tied d.
  Hypothesis ord_ok : forall x, Permutation (ord x) (dependents d x).
  Hypothesis nord_ok : forall l, Permutation (nord l) l.
  Notation body it := (body_of (i_proc it)).
  Notation setv := (set_value G ord).

  Definition uptodate (it : item) (m : sim_vals) : Prop :=
    forall r, in_range G r -> (forall y, reads y (body it) -> m y = Some (r y)) ->
      forall x v, lastv (plans G r (body it)) x = Some v -> m x = Some v.
  Definition waits (it : item) (st : qst) : Prop := exists y, In (y, i_id it) (q_evs st).
  Record InvX (ex : item -> Prop) (st : qst) : Prop := {
    iv_range : prange G (q_vals st);
    iv_items : forall it, In it d -> is_ff (i_proc it) = false -> ~ ex it -> waits it st \/ uptodate it (q_vals st)
  }.

  Lemma id_inj : forall it it', In it d -> In it' d -> i_id it = i_id it' -> it = it'.
  Proof. intros it it' I I' E. exact (ids_inj d (wf_ids _ _ _ wf) it it' I I' E). Qed.
  Lemma find_id : forall i it, find_item d i = Some it -> In it d /\ i_id it = i.
  Proof. intros i it E. apply find_some in E as [E1 E2]. apply Nat.eqb_eq in E2. auto. Qed.
  Lemma find_in : forall it, In it d -> find_item d (i_id it) = Some it.
  Proof.
    intros it I. unfold find_item. destruct (find _ d) as [it'|] eqn:E.
    - apply find_some in E as [E1 E2]. apply Nat.eqb_eq in E2. f_equal. apply id_inj; auto.
    - exfalso. apply (find_none _ _ E) in I. rewrite Nat.eqb_refl in I. discriminate.
  Qed.
  Lemma expr_good : forall b s e, Forall (good_stmt G) b -> inside s b -> own_expr s = Some e -> good_expr G e.
  Proof.
    pose proof (inside_good G) as K.
    intros b s e F I O. specialize (K b s I F). inversion K; subst; cbn in O; try discriminate; injection O as <-; assumption.
  Qed.
  (* every signal a wire or a combinational process reads is one of its dependencies *)
  Lemma tracked : forall it x, In it d -> is_ff (i_proc it) = false -> reads x (body it) -> In x (deps (i_proc it)).
  Proof.
    intros it x I F (s & J & R).
    assert (forall e, own_expr s = Some e -> In x (evars e) -> In x (deps_e e)) as K.
    { intros e O X. rewrite (deps_evars G e); [exact X| |].
      - exact (wf_mux _ _ _ wf it I s e J O).
      - exact (proj1 (proj2 (expr_good _ s e (wf_good _ _ _ wf it I) J O))). }
    assert (forall k l e, s = SAssign k l e -> lhs_reads l = []) as NL.
    { intros k l e ->. pose proof (wf_good _ _ _ wf it I) as F'. clear - F' J.
      pose proof (inside_good G) as K.
      specialize (K _ _ J F'). inversion K; subst. reflexivity. }
    assert (In x (deps_stmt s)) as Ds.
    { destruct R as [k l e [X|X]|c t f X|e cs dd X|e X]; cbn [deps_stmt].
      - rewrite (NL k l e eq_refl) in X. destruct X.
      - apply K; auto.
      - apply K; auto.
      - apply K; auto.
      - exfalso. pose proof (wf_good _ _ _ wf it I) as F'. clear - F' J.
        pose proof (inside_good G) as K.
        specialize (K _ _ J F'). inversion K. }
    destruct (i_proc it) as [l e|b|evs b] eqn:Ep; cbn [deps body_of is_ff] in *; [| |discriminate].
    - destruct (inside_cons _ _ _ J) as [J'|J']; [|inversion J'; contradiction].
      inversion J' as [? Q|? ? ? ? Q|? ? ? ? Q|? ? ? ? ? ? Q|? ? ? ? Q|? ? ? ? ? ? Q|? ? Q]; subst; destruct Q as [Q|[]]; try discriminate.
      subst s. exact Ds.
    - apply collect_in. exists s. auto.
  Qed.
  Lemma in_ord : forall it x, In it d -> In x (deps (i_proc it)) -> In (i_id it) (ord x).
  Proof.
    intros it x I X. apply (Permutation_in _ (Permutation_sym (ord_ok x))). unfold dependents. apply in_map. apply filter_In.
    split; [exact I|]. apply existsb_exists. exists x. split; [exact X|apply Nat.eqb_refl].
  Qed.
  Lemma plans_assigns : forall it r x v, lastv (plans G r (body it)) x = Some v -> assigns x (body it).
  Proof.
    intros it r x v E. destruct (lastv_in _ _ _ E) as [k I]. destruct (plans_inside _ _ _ _ _ _ I) as [e J].
    exists k, (LVar x), e. auto.
  Qed.

  Lemma evs_grow : forall sc x v st e, In e (q_evs st) -> In e (q_evs (setv sc x v st)).
  Proof. intros sc x v st e I. unfold set_value. destruct (changed _ _ _); cbn; [apply in_app_iff; auto|exact I]. Qed.
  Lemma set_invx : forall ex sc x v st, InvX ex st -> 0 <= v < 2 ^ d_width (G x) ->
    (forall it, In it d -> is_ff (i_proc it) = false -> assigns x (body it) -> ex it) ->
    (forall it, In it d -> sc = Some (i_id it) -> ex it) -> InvX ex (setv sc x v st).
  Proof.
    intros ex sc x v st [P Q] V A Sc. split.
    - rewrite set_vals. intros y u. unfold set_val. destruct (Nat.eqb_spec y x) as [->|]; [intros [= <-]; exact V|apply P].
    - intros it I F NX. destruct (Q it I F NX) as [[y W]|U]; [left; exists y; now apply evs_grow|].
      assert (uptodate it (set_val (q_vals st) x v) \/ reads x (body it)) as K.
      { destruct (in_dec Nat.eq_dec x (deps (i_proc it))) as [Ix|Nx].
        - destruct (in_dec Nat.eq_dec x (collect_body stmt_sinks (body it))) as [J|J].
          + right. apply collect_in in J as (s & J1 & J2). exists s. split; [exact J1|]. now apply reads_sinks.
          + left. intros r R Rd z u L. assert (z <> x) as Nz by (intros ->; apply NX, A; auto; exact (plans_assigns _ _ _ _ L)).
            unfold set_val. destruct (Nat.eqb_spec z x) as [|_]; [contradiction|]. apply (U r R); [|exact L].
            intros y Ry. specialize (Rd y Ry). unfold set_val in Rd. destruct (Nat.eqb_spec y x) as [Eyx|]; [subst y|exact Rd].
            exfalso. apply J. apply collect_in. destruct Ry as (s & J1 & J2). exists s. split; [exact J1|]. now apply reads_sinks.
        - left. intros r R Rd z u L. assert (z <> x) as Nz by (intros ->; apply NX, A; auto; exact (plans_assigns _ _ _ _ L)).
          unfold set_val. destruct (Nat.eqb_spec z x) as [|_]; [contradiction|]. apply (U r R); [|exact L].
          intros y Ry. specialize (Rd y Ry). unfold set_val in Rd. destruct (Nat.eqb_spec y x) as [Eyx|]; [subst y|exact Rd].
          exfalso. apply Nx. now apply tracked. }
      destruct K as [K|K]; [right; now rewrite set_vals|].
      unfold set_value. destruct (changed (q_vals st x) (d_width (G x)) v) eqn:C.
      + left. exists x. cbn [trigger q_evs]. apply in_app_iff. right. apply in_map_iff. exists (i_id it). split; [reflexivity|].
        apply filter_In. split; [apply in_ord; auto; now apply tracked|]. destruct sc as [j|]; [|reflexivity].
        apply negb_true_iff, Nat.eqb_neq. intros <-. apply NX, Sc; auto.
      + right. cbn [q_vals]. destruct (q_vals st x) as [t|] eqn:Et.
        * apply changed_no in C; [|exact (P x t Et)|exact V|exact (wf_width _ _ _ wf x)]. subst t.
          intros r R Rd z u L. assert (forall y, set_val (q_vals st) x v y = q_vals st y) as Same.
          { intros y. unfold set_val. destruct (Nat.eqb_spec y x) as [->|]; [now rewrite Et|reflexivity]. }
          rewrite Same. apply (U r R); [|exact L]. intros y Ry. rewrite <- Same. auto.
        * exfalso. cbn in C. pose proof (wf_width _ _ _ wf x). lia.
  Qed.
  Definition free_of (it0 : item) (a : asg) : Prop :=
    match a with (k, x, v) => 0 <= v < 2 ^ d_width (G x) /\ assigns x (body it0) end.
  Lemma single_ex : forall (ex : item -> Prop) it0 x, In it0 d -> ex it0 -> assigns x (body it0) ->
    forall it, In it d -> is_ff (i_proc it) = false -> assigns x (body it) -> ex it.
  Proof. intros ex it0 x I0 E A it I F A'. now rewrite (wf_single _ _ _ wf it it0 x I I0 A' A). Qed.
  Lemma fold_invx : forall (ex : item -> Prop) it0 sc L st, In it0 d -> ex it0 -> Forall (free_of it0) L ->
    (forall it, In it d -> sc = Some (i_id it) -> ex it) -> InvX ex st ->
    InvX ex (fold_left (do_asg G ord sc) L st).
  Proof.
    intros ex it0 sc L st I0 E F Sc. revert st. induction L as [|[[k x] v] L IH]; intros st Q; [exact Q|].
    apply Forall_cons_iff in F as [[F1 F2] F3]. cbn [fold_left]. apply IH; [exact F3|]. cbn [do_asg].
    destruct k; try (apply set_invx; auto; now apply (single_ex ex it0)).
    destruct Q as [Q1 Q2]. split; [exact Q1|exact Q2].
  Qed.

  (* what queues up as non-blocking values *)
  Lemma nba_in : forall l x v p, In p (nba_emplace l x v) -> In p l \/ p = (x, v).
  Proof. intros l x v p I. unfold nba_emplace in I. match type of I with context [if ?b then _ else _] => destruct b end; [auto|]. apply in_app_iff in I as [I|[I|[]]]; auto. Qed.
  Lemma fold_nba : forall it0 sc L st, Forall (free_of it0) L ->
    Forall (fun p => 0 <= snd p < 2 ^ d_width (G (fst p)) /\ assigns (fst p) (body it0)) (q_nba st) ->
    Forall (fun p => 0 <= snd p < 2 ^ d_width (G (fst p)) /\ assigns (fst p) (body it0)) (q_nba (fold_left (do_asg G ord sc) L st)).
  Proof.
    intros it0 sc. induction L as [|[[k x] v] L IH]; intros st F H; [exact H|]. apply Forall_cons_iff in F as [F1 F2].
    cbn [fold_left]. apply IH; [exact F2|]. cbn [do_asg]. destruct k; try (rewrite set_nba; exact H).
    cbn [q_nba]. rewrite Forall_forall in *. intros p I. apply nba_in in I as [I| ->]; [auto|exact F1].
  Qed.
  Lemma flush_invx : forall (ex : item -> Prop) it0 st, In it0 d -> ex it0 ->
    Forall (fun p => 0 <= snd p < 2 ^ d_width (G (fst p)) /\ assigns (fst p) (body it0)) (q_nba st) ->
    InvX ex st -> InvX ex (flush G ord nord st).
  Proof.
    intros ex it0 st I0 E F Q. unfold flush.
    assert (InvX ex (fold_left (fun (s : qst) (p : var * Z) => setv None (fst p) (snd p) s) (nord (q_nba st)) st)) as K.
    { assert (Forall (fun p => 0 <= snd p < 2 ^ d_width (G (fst p)) /\ assigns (fst p) (body it0)) (nord (q_nba st))) as F'.
      { rewrite Forall_forall in *. intros p Ip. apply F. exact (Permutation_in _ (nord_ok _) Ip). }
      revert F'. generalize (nord (q_nba st)). intros l. revert st F Q. induction l as [|p l IH]; intros st F Q F'; [exact Q|].
      apply Forall_cons_iff in F' as [[F1 F2] F3]. cbn [fold_left]. apply IH; [rewrite set_nba; exact F| |exact F3].
      apply set_invx; auto; [now apply (single_ex ex it0)|discriminate]. }
    destruct K as [K1 K2]. split; [exact K1|exact K2].
  Qed.
  Definition writes_of (it : item) (a : asg) : Prop := written G (body it) a.
  Lemma written_free : forall it a, writes_of it a -> free_of it a.
  Proof. intros it [[k x] v] [W [e I]]. split; [exact W|]. exists k, (LVar x), e. auto. Qed.
  Lemma written_all : forall it L, Forall (writes_of it) L -> Forall (free_of it) L.
  Proof. intros it L H. rewrite Forall_forall in *. intros a I. apply written_free. auto. Qed.
  Lemma body_does : forall it (DD : var -> Prop), In it d -> does G ord (body it) DD (fun sc => qblock pow G ord sc (body it)) (fun r => plans G r (body it)).
  Proof.
    intros it DD I. apply does_list. pose proof (wf_good _ _ _ wf it I) as F. rewrite Forall_forall in *. intros s Is.
    apply qstmt_does; [exact (wf_width _ _ _ wf)|exact (wf_mux _ _ _ wf it I)|exact (F s Is)|].
    intros s' J. exact (inside_in _ s _ Is J).
  Qed.
  Lemma not_blocking : forall it y, In it d -> is_ff (i_proc it) = false -> blocking y (body it) -> ~ reads y (body it).
  Proof. intros it y I F (k & l & e & J & _ & Q) R. apply (wf_loop _ _ _ wf it y I F R). exists k, l, e. auto. Qed.
  Lemma comb_blockers : forall it L, In it d -> is_ff (i_proc it) = false -> Forall (writes_of it) L -> blockers L.
  Proof.
    intros it L I F W. unfold blockers. rewrite Forall_forall in *. intros [[k x] v] Ia. destruct (W _ Ia) as [_ [e J]].
    exact (wf_block _ _ _ wf it k _ e I F J).
  Qed.

  Lemma comb_block_inv : forall it sc st st', In it d -> is_ff (i_proc it) = false -> (sc = None \/ sc = Some (i_id it)) ->
    InvX (fun j => j = it) st -> qblock pow G ord sc (body it) st = Ok st' ->
    exists L, st' = fold_left (do_asg G ord sc) L st /\ Forall (writes_of it) L /\ InvX (fun _ => False) st'.
  Proof.
    intros it sc st st' I F Sc Q E.
    destruct (body_does it (fun y => reads y (body it)) I sc st st' (iv_range _ _ Q) E) as (L & E1 & W & K).
    exists L. split; [exact E1|]. split; [exact W|].
    assert (InvX (fun j => j = it) st') as Q'.
    { rewrite E1. apply (fold_invx _ it); auto; [now apply written_all|]. intros j Ij Ej.
      destruct Sc as [-> | ->]; [discriminate|]. injection Ej as Ej. apply id_inj; auto. }
    split; [exact (iv_range _ _ Q')|]. intros j Ij Fj _. destruct (Nat.eq_dec (i_id j) (i_id it)) as [Eq|Ne].
    - apply (id_inj j it Ij I) in Eq. subst j. right. intros r R Rd x v Lx.
      pose proof (comb_blockers it L I F W) as BL.
      assert (forall y, reads y (body it) -> q_vals st y = Some (r y)) as Rd0.
      { intros y Ry. rewrite <- (Rd y Ry), E1, fold_vals by exact BL. destruct (lastv L y) as [u|] eqn:Ly; [|reflexivity].
        exfalso. destruct (lastv_in _ _ _ Ly) as [k J]. rewrite Forall_forall in W. destruct (W _ J) as [_ [e J']].
        apply (wf_loop _ _ _ wf it y I F Ry). exists k, (LVar y), e. auto. }
      rewrite E1, fold_vals by exact BL. rewrite (K r R (fun y H => H) (fun y => not_blocking it y I F) Rd0), Lx. reflexivity.
    - apply (iv_items _ _ Q' j Ij Fj). intros ->. contradiction.
  Qed.
  Lemma qblock_one : forall sc s st, qblock pow G ord sc [s] st = qstmt pow G ord sc s st.
  Proof. intros. cbn [qblock]. destruct (qstmt pow G ord sc s st); reflexivity. Qed.

  Definition Inv (st : qst) : Prop := InvX (fun _ => False) st /\ q_nba st = [].
  Lemma comb_nba : forall it sc L st, In it d -> is_ff (i_proc it) = false -> Forall (writes_of it) L ->
    q_nba (fold_left (do_asg G ord sc) L st) = q_nba st.
  Proof.
    intros it sc L st I F W. pose proof (comb_blockers it L I F W) as BL. clear W. revert st. induction L as [|[[k x] v] L IH]; intros st; [reflexivity|].
    apply Forall_cons_iff in BL as [B1 B2]. cbn [fold_left]. rewrite IH by exact B2. cbn [do_asg fst] in *.
    destruct k; try (exfalso; apply B1; reflexivity); apply set_nba.
  Qed.
  Lemma process_inv : forall x it st st', In it d -> InvX (fun j => j = it) st -> q_nba st = [] ->
    process pow G ord nord x it st = Ok st' -> Inv st'.
  Proof.
    intros x it st st' I Q N E. unfold process in E. destruct (i_proc it) as [l e|b|evs b] eqn:Ep.
    - assert (is_ff (i_proc it) = false) as F by (rewrite Ep; reflexivity).
      rewrite <- qblock_one in E. change [SAssign Blocking l e] with (body_of (PWire l e)) in E. rewrite <- Ep in E.
      destruct (comb_block_inv it None st st' I F (or_introl eq_refl) Q E) as (L & E1 & W & Q').
      split; [exact Q'|]. rewrite E1, (comb_nba it) by auto. exact N.
    - assert (is_ff (i_proc it) = false) as F by (rewrite Ep; reflexivity).
      change b with (body_of (PComb b)) in E. rewrite <- Ep in E.
      destruct (comb_block_inv it (Some (i_id it)) st st' I F (or_intror eq_refl) Q E) as (L & E1 & W & Q').
      split; [exact Q'|]. rewrite E1, (comb_nba it) by auto. exact N.
    - assert (forall s, InvX (fun j => j = it) s -> InvX (fun _ => False) s) as Up.
      { intros s [Q1 Q2]. split; [exact Q1|]. intros j Ij Fj _. apply Q2; auto. intros ->. rewrite Ep in Fj. discriminate. }
      destruct (fires (q_vals st) x evs).
      + change b with (body_of (PFf evs b)) in E. rewrite <- Ep in E.
        destruct (qblock pow G ord None (body it) st) as [s1| |] eqn:E1; cbn [obind] in E; try discriminate. injection E as <-.
        destruct (body_does it (fun y => reads y (body it)) I None st s1 (iv_range _ _ Q) E1) as (L & E2 & W & _).
        split; [|reflexivity]. apply Up. apply (flush_invx _ it); auto.
        * rewrite E2. apply fold_nba; [now apply written_all|]. rewrite N. constructor.
        * rewrite E2. apply (fold_invx _ it); auto; [now apply written_all|discriminate].
      + injection E as <-. split; [apply Up; exact Q|exact N].
  Qed.
  Lemma pop_inv : forall st x i r, InvX (fun _ => False) st -> q_evs st = (x, i) :: r ->
    InvX (fun j => i_id j = i) {| q_vals := q_vals st; q_nba := q_nba st; q_evs := r; q_depth := q_depth st |}.
  Proof.
    intros st x i r [Q1 Q2] E. split; [exact Q1|]. intros it I F NX. destruct (Q2 it I F (fun H => H)) as [[y W]|U]; [|right; exact U].
    rewrite E in W. destruct W as [W|W]; [injection W; intros; subst; contradiction|]. left. exists y. exact W.
  Qed.
  Lemma loop_inv : forall n st st', Inv st -> qloop pow G d ord nord n st = Some (Ok st') -> Inv st' /\ q_evs st' = [].
  Proof.
    induction n as [|n IH]; intros st st' Q E; cbn [qloop] in E; destruct (q_evs st) as [|[x i] r] eqn:Ev; try discriminate.
    - injection E as <-. auto.
    - injection E as <-. auto.
    - destruct (_ <? _); [discriminate|]. destruct Q as [Q N]. pose proof (pop_inv st x i r Q Ev) as Q'.
      destruct (find_item d i) as [it|] eqn:Fi.
      + apply find_id in Fi as [Ii Ei]. destruct (process pow G ord nord x it _) as [s1| |] eqn:P; try discriminate.
        apply (IH s1 st'); [|exact E]. refine (process_inv x it _ s1 Ii _ _ P); [|exact N].
        destruct Q' as [Q1 Q2]. split; [exact Q1|]. intros j Ij Fj Nj. apply Q2; auto. intros Ej. apply Nj. apply id_inj; auto. congruence.
      + refine (IH _ st' _ E). split; [|exact N].
        destruct Q' as [Q1 Q2]. split; [exact Q1|]. intros j Ij Fj _. apply Q2; auto. intros Ej. rewrite <- Ej, find_in in Fi by exact Ij. discriminate.
  Qed.
  Lemma depth_inv : forall st z, Inv st -> Inv {| q_vals := q_vals st; q_nba := q_nba st; q_evs := q_evs st; q_depth := z |}.
  Proof. intros st z [[Q1 Q2] N]. split; [|exact N]. split; [exact Q1|exact Q2]. Qed.

  (* the constructor *)
  Definition is_pulled (it : item) : bool := match pulled tied it with Some _ => true | None => false end.
  Lemma const_range : forall v w, 1 <= w <= 64 -> 0 <= v < 2 ^ w -> u64 v = v.
  Proof. intros v w W V. unfold u64. apply Z.mod_small. pose proof (pow_le_64 w). lia. Qed.
  Lemma construct_from : forall l st, (forall it, In it l -> In it d) -> InvX (fun it => In it l /\ is_pulled it = true) st -> q_nba st = [] ->
    Inv (fold_left (fun st it => match pulled tied it with Some (x, v) => setv None x v st | None => st end) l st).
  Proof.
    induction l as [|it l IH]; intros st Sub Q N; cbn [fold_left].
    - split; [|exact N]. destruct Q as [Q1 Q2]. split; [exact Q1|]. intros j Ij Fj _. apply Q2; auto. intros [[] _].
    - assert (In it d) as I by (apply Sub; left; reflexivity). assert (forall j, In j l -> In j d) as Sub' by (intros j Ij; apply Sub; right; exact Ij).
      destruct (pulled tied it) as [[x v]|] eqn:Pu.
      + apply IH; [exact Sub'| |rewrite set_nba; exact N]. unfold pulled in Pu.
        destruct (i_proc it) as [[x0|x0 hi lo|x0 ix w0] [y|v0 w s|op a|op a b|c a b|a hi2 lo2|a b|a w]|b|evs b] eqn:Ep; try discriminate.
        destruct (tied (i_id it)) eqn:Ti; [discriminate|]. injection Pu as -> <-.
        pose proof (wf_good _ _ _ wf it I) as Fg. rewrite Ep in Fg. cbn [body_of] in Fg. apply Forall_cons_iff in Fg as [Fg _].
        inversion Fg as [? ? ? (GA & GB & GC) GW| | |]; subst. cbn [sim_ok ewidth] in GB, GW. destruct GB as [GB1 GB2].
        rewrite (const_range v0 w GB1 GB2).
        assert (assigns x (body it)) as As by (rewrite Ep; exists Blocking, (LVar x), (EConst v0 w s); split; [apply in_here; left|]; reflexivity).
        assert (InvX (fun j => In j (it :: l) /\ is_pulled j = true) (setv None x v0 st)) as [Q1 Q2].
        { apply set_invx; [exact Q|rewrite <- GW; exact GB2| |discriminate]. apply (single_ex _ it x I); [|exact As].
          split; [left; reflexivity|]. unfold is_pulled, pulled. rewrite Ep, Ti. reflexivity. }
        split; [exact Q1|]. intros j Ij Fj NX. destruct (Nat.eq_dec (i_id j) (i_id it)) as [Eq|Ne].
        * apply (id_inj j it Ij I) in Eq. subst j. right. intros r R _ z u. rewrite Ep. cbn [body_of plans flat_map plan app lastv].
          destruct (Nat.eqb_spec z x) as [->|]; [|discriminate]. intros [= <-]. rewrite set_vals. unfold set_val. rewrite Nat.eqb_refl.
          f_equal. cbn [ev]. unfold enc. rewrite Z.mod_small; [reflexivity|exact GB2].
        * apply Q2; auto. intros [[->|J] J2]; [contradiction|apply NX; auto].
      + apply IH; [exact Sub'| |exact N]. destruct Q as [Q1 Q2]. split; [exact Q1|]. intros j Ij Fj NX. apply Q2; auto.
        intros [[->|J] J2]; [unfold is_pulled in J2; rewrite Pu in J2; discriminate|apply NX; auto].
  Qed.
  Lemma construct_inv : Inv (construct G d ord tied).
  Proof.
    unfold construct. apply construct_from; [auto| |reflexivity]. split; [intros x v E; discriminate|].
    intros it I F NX. right. destruct (wf_reads _ _ _ wf it I F) as [[x Rx]|(l & v & w & s & Ep & Ti)].
    - intros r R Rd. specialize (Rd x Rx). discriminate.
    - exfalso. apply NX. split; [exact I|]. unfold is_pulled, pulled. rewrite Ep, Ti.
      pose proof (wf_good _ _ _ wf it I) as Fg. rewrite Ep in Fg. cbn [body_of] in Fg. apply Forall_cons_iff in Fg as [Fg _].
      inversion Fg; subst. reflexivity.
  Qed.
  Lemma session_inv : forall st, session pow G d ord nord tied st -> Inv st.
  Proof.
    intros st H. induction H as [|st x v H IH Nx V|st n st' H IH E].
    - exact construct_inv.
    - destruct IH as [Q N]. split; [|rewrite set_nba; exact N]. apply set_invx; auto; [|discriminate].
      intros it I F A. exfalso. exact (Nx it I A).
    - unfold qeval in E. apply loop_inv in E; [exact (proj1 E)|]. apply depth_inv. exact IH.
  Qed.

  (* up to date: settled *)
  Lemma uptodate_settled : forall it m r, In it d -> is_ff (i_proc it) = false -> uptodate it m -> in_range G r ->
    (forall y v, m y = Some v -> r y = v) -> (forall y, reads y (body it) -> m y <> None) ->
    forall x, activate G (body it) r x = r x.
  Proof.
    intros it m r I F U R Ex Rd x.
    assert (forall y, reads y (body it) -> m y = Some (r y)) as Rd'.
    { intros y Ry. specialize (Rd y Ry). destruct (m y) as [v|] eqn:Em; [|contradiction]. now rewrite (Ex y v Em). }
    assert (runs_as G (fun y => reads y (body it)) r (run G (body it)) (plans G r (body it))) as K.
    { apply runs_list. pose proof (wf_good _ _ _ wf it I) as Fg. rewrite Forall_forall in *. intros s Is.
      apply (exec_does G (body it)); auto.
      - intros y. exact (not_blocking it y I F).
      - intros s' J. exact (inside_in _ s _ Is J). }
    destruct (K (start_state r)) as [E _]; [split; [reflexivity|exact R|reflexivity]|].
    unfold activate, commit. rewrite E.
    assert (blockers (plans G r (body it))) as BL.
    { unfold blockers. rewrite Forall_forall. intros [[k y] v] Ia. destruct (plans_inside _ _ _ _ _ _ Ia) as [e J].
      exact (wf_block _ _ _ wf it k _ e I F J). }
    destruct (fold_cur G _ (start_state r) x BL) as [E1 E2]. rewrite E2. cbn [start_state st_nba fold_left]. rewrite E1.
    destruct (lastv (plans G r (body it)) x) as [v|] eqn:L; [|reflexivity]. symmetry. apply Ex. exact (U r R Rd' x v L).
  Qed.
End Inv.

Definition wr_of (G : tenv) (a : asg) : write :=
  {| w_var := snd (fst a); w_lo := 0; w_n := d_width (G (snd (fst a))); w_val := snd a |}.
Definition waiters (L : list asg) : Prop := Forall (fun a => fst (fst a) = NonBlocking) L.
Lemma fold_sp_nb : forall G L st, waiters L -> st_nba (fold_left (do_sp G) L st) = st_nba st ++ map (wr_of G) L.
Proof.
  intros G. induction L as [|[[k x] v] L IH]; intros st H; [cbn; now rewrite app_nil_r|]. apply Forall_cons_iff in H as [H1 H2].
  cbn [fst] in H1. subst k. cbn [fold_left map]. rewrite IH by exact H2. cbn [do_sp st_nba]. rewrite <- app_assoc. reflexivity.
Qed.
Lemma fold_asg_nb : forall G ord sc L st, waiters L -> let st' := fold_left (do_asg G ord sc) L st in
  q_vals st' = q_vals st /\ q_evs st' = q_evs st
  /\ q_nba st' = fold_left (fun a u => nba_emplace a (w_var u) (w_val u)) (map (wr_of G) L) (q_nba st).
Proof.
  intros G ord sc. induction L as [|[[k x] v] L IH]; intros st H; [cbn; auto|]. apply Forall_cons_iff in H as [H1 H2].
  cbn [fst] in H1. subst k. cbn [fold_left map]. destruct (IH (do_asg G ord sc st (NonBlocking, x, v)) H2) as (A & B & C).
  cbv zeta in *. rewrite A, B, C. cbn. auto.
Qed.
Lemma apply_app : forall l l' m, apply_nba (l ++ l') m = apply_nba l' (apply_nba l m).
Proof. intros. unfold apply_nba. apply fold_left_app. Qed.
Lemma nodup_flat : forall (A B C : Type) (f : A -> list B) (g : B -> C) l, NoDup l -> (forall a, In a l -> NoDup (map g (f a))) ->
  (forall a a' b b', In a l -> In a' l -> In b (f a) -> In b' (f a') -> g b = g b' -> a = a') -> NoDup (map g (flat_map f l)).
Proof.
  intros A B C f g. induction l as [|a l IH]; intros N E S; [constructor|]. apply NoDup_cons_iff in N as [N1 N2].
  cbn [flat_map]. rewrite map_app.
  assert (forall (X : Type) (p q : list X), NoDup p -> NoDup q -> (forall c, In c p -> ~ In c q) -> NoDup (p ++ q)) as K.
  { intros X p q. induction p as [|c p IHp]; intros Np Nq Dj; [exact Nq|]. apply NoDup_cons_iff in Np as [P1 P2]. cbn. constructor.
    - intros I. apply in_app_iff in I as [I|I]; [contradiction|]. exact (Dj c (or_introl eq_refl) I).
    - apply IHp; auto. intros c' I. apply Dj. right. exact I. }
  apply K.
  - apply E. left. reflexivity.
  - apply IH; auto.
    + intros a' I. apply E. right. exact I.
    + intros a1 a2 b1 b2 I1 I2. apply S; right; assumption.
  - intros c I I'. apply in_map_iff in I as (b & Eb & I). apply in_map_iff in I' as (b' & Eb' & I').
    apply in_flat_map in I' as (a' & Ia' & I'). assert (a = a') as ->; [|contradiction].
    apply (S a a' b b'); auto; [left; reflexivity|right; exact Ia'|congruence].
Qed.

Section Step.
  Variable pow : Z -> Z -> outcome Z.
  Variable G : tenv.
  Variable tied : nat -> bool.
  Variable d : design.
  Variable ord : var -> list nat.
  Variable nord : list (var * Z) -> list (var * Z).
  Hypothesis wf : well_formed G tied d.
  Hypothesis sy : synchronous G d.
  Hypothesis ap : apart d.
  Hypothesis ord_ok : forall x, Permutation (ord x) (dependents d x).
  Hypothesis nord_ok : forall l, Permutation (nord l) l.
  Notation body it := (body_of (i_proc it)).
  Notation setv := (set_value G ord).
  Notation id_inj := (id_inj G tied d wf).

  Definition combs (l : list (var * nat)) : Prop := Forall (fun e => forall it, In it d -> i_id it = snd e -> is_ff (i_proc it) = false) l.
  Lemma driven_combs : forall x, driven d x -> combs (map (fun i => (x, i)) (ord x)).
  Proof.
    intros x (it0 & I0 & A0). unfold combs. rewrite Forall_forall. intros [y i] H it I E. apply in_map_iff in H as (j & [= -> ->] & H).
    cbn [snd] in E. apply (Permutation_in _ (ord_ok y)) in H. apply in_map_iff in H as (it' & E' & H). apply filter_In in H as [H1 H2].
    assert (it = it') as -> by (apply id_inj; auto; congruence).
    destruct (i_proc it') as [l e|b|evs b] eqn:Ep; try reflexivity. exfalso.
    apply existsb_exists in H2 as (z & Z1 & Z2). apply Nat.eqb_eq in Z2. subst z. cbn [deps] in Z1.
    apply in_map_iff in Z1 as ([pb z] & Ez & Z1). cbn in Ez. subst z.
    assert (In (pb, y) (events_of (i_proc it'))) as Ie by (rewrite Ep; exact Z1).
    destruct (sy_clock _ _ sy it' pb y H1 Ie) as (_ & Nd & _). apply Nd. exists it0. auto.
  Qed.
  Lemma set_combs : forall sc x v st, driven d x -> exists extra, q_evs (setv sc x v st) = q_evs st ++ extra /\ combs extra.
  Proof.
    intros sc x v st Dx. unfold set_value. destruct (changed _ _ _); cbn [trigger q_evs].
    - eexists. split; [reflexivity|]. unfold combs. rewrite Forall_forall. intros e H. apply in_map_iff in H as (i & <- & H).
      apply filter_In in H as [H _]. pose proof (driven_combs x Dx) as K. unfold combs in K. rewrite Forall_forall in K. apply K.
      apply in_map_iff. exists i. auto.
    - exists []. split; [now rewrite app_nil_r|constructor].
  Qed.
  Lemma combs_app : forall a b, combs a -> combs b -> combs (a ++ b).
  Proof. intros a b A B. apply Forall_app. auto. Qed.

  (* wires and combinational processes only *)
  Lemma comb_phase : forall n st st', Inv G d st -> combs (q_evs st) -> qloop pow G d ord nord n st = Some (Ok st') ->
    (forall y, (forall it, In it d -> is_ff (i_proc it) = false -> ~ assigns y (body it)) -> q_vals st' y = q_vals st y)
    /\ (forall y, q_vals st y <> None -> q_vals st' y <> None).
  Proof.
    induction n as [|n IH]; intros st st' Q C E; cbn [qloop] in E; destruct (q_evs st) as [|[x i] r] eqn:Ev; try discriminate.
    - injection E as <-. auto.
    - injection E as <-. auto.
    - destruct (_ <? _); [discriminate|]. destruct Q as [Q N]. pose proof (pop_inv G d st x i r Q Ev) as Q'.
      apply Forall_cons_iff in C as [C1 C2]. cbn [snd] in C1.
      destruct (find_item d i) as [it|] eqn:Fi.
      + apply find_id in Fi as [Ii Ei]. pose proof (C1 it Ii Ei) as F.
        destruct (process pow G ord nord x it _) as [s1| |] eqn:P; try discriminate.
        assert (InvX G d (fun j => j = it) {| q_vals := q_vals st; q_nba := q_nba st; q_evs := r; q_depth := q_depth st |}) as Q2.
        { destruct Q' as [Q1 Q2]. split; [exact Q1|]. intros j Ij Fj Nj. apply Q2; auto. intros Ej. apply Nj. apply id_inj; auto. congruence. }
        assert (exists sc L, s1 = fold_left (do_asg G ord sc) L {| q_vals := q_vals st; q_nba := q_nba st; q_evs := r; q_depth := q_depth st |}
                  /\ Forall (writes_of G it) L) as (sc & L & E1 & W).
        { unfold process in P. destruct (i_proc it) as [l e|b|evs b] eqn:Ep; [| |discriminate].
          - rewrite <- (qblock_one pow) in P. change [SAssign Blocking l e] with (body_of (PWire l e)) in P. rewrite <- Ep in P.
            assert (is_ff (i_proc it) = false) as F' by (rewrite Ep; reflexivity).
            destruct (comb_block_inv pow G tied d ord wf ord_ok it None _ s1 Ii F' (or_introl eq_refl) Q2 P) as (L & E1 & W & _). exists None, L. auto.
          - change b with (body_of (PComb b)) in P. rewrite <- Ep in P.
            assert (is_ff (i_proc it) = false) as F' by (rewrite Ep; reflexivity).
            destruct (comb_block_inv pow G tied d ord wf ord_ok it (Some (i_id it)) _ s1 Ii F' (or_intror eq_refl) Q2 P) as (L & E1 & W & _). exists (Some (i_id it)), L. auto. }
        assert (Inv G d s1) as Qs by (eapply process_inv; eauto).
        assert (combs (q_evs s1)) as Cs.
        { rewrite E1. clear - W C2 Ii wf sy ord_ok. set (s0 := {| q_vals := q_vals st; q_nba := q_nba st; q_evs := r; q_depth := q_depth st |}).
          assert (combs (q_evs s0)) as C0 by exact C2. revert C0. generalize s0. clear s0 C2. induction L as [|[[k y] v] L IHL]; intros s0 C0; [exact C0|].
          apply Forall_cons_iff in W as [[_ [e W1]] W2]. cbn [fold_left]. apply IHL; [exact W2|]. cbn [do_asg].
          assert (driven d y) as Dy by (exists it; split; [exact Ii|]; exists k, (LVar y), e; auto).
          destruct k; try exact C0; destruct (set_combs sc y v s0 Dy) as (ex & Ex & Cx); rewrite Ex; apply combs_app; auto. }
        destruct (IH s1 st' Qs Cs E) as [K1 K2]. pose proof (comb_blockers G tied d wf it L Ii F W) as BL. split.
        * intros y Hy. rewrite (K1 y Hy), E1, fold_vals by exact BL. destruct (lastv L y) as [u|] eqn:Ly; [|reflexivity].
          exfalso. destruct (lastv_in _ _ _ Ly) as [k J]. rewrite Forall_forall in W. destruct (W _ J) as [_ [e J']].
          apply (Hy it Ii F). exists k, (LVar y), e. auto.
        * intros y Hy. apply K2. rewrite E1, fold_vals by exact BL. destruct (lastv L y); [discriminate|exact Hy].
      + refine (IH _ st' _ _ E); [|exact C2]. split; [|exact N].
        destruct Q' as [Q1 Q2]. split; [exact Q1|]. intros j Ij Fj _. apply Q2; auto. intros Ej.
        rewrite <- Ej, (find_in G tied d wf) in Fi by exact Ij. discriminate.
  Qed.

  (* one clocked process *)
  Lemma ff_plan : forall it r, In it d -> is_ff (i_proc it) = true -> in_range G r ->
    queued G it r = map (wr_of G) (plans G r (body it)) /\ waiters (plans G r (body it)) /\ Forall (whole G) (queued G it r).
  Proof.
    intros it r I F R. assert (forall y, ~ blocking y (body it)) as NB.
    { intros y (k & l & e & J & K & _). exact (K (sy_nba _ _ sy it k l e I F J)). }
    assert (waiters (plans G r (body it))) as Wt.
    { unfold waiters. rewrite Forall_forall. intros [[k y] v] Ia. destruct (plans_inside _ _ _ _ _ _ Ia) as [e J].
      exact (sy_nba _ _ sy it k _ e I F J). }
    split; [|split; [exact Wt|]].
    - assert (runs_as G (fun y => reads y (body it)) r (run G (body it)) (plans G r (body it))) as K.
      { apply runs_list. pose proof (wf_good _ _ _ wf it I) as Fg. rewrite Forall_forall in *. intros s Is.
        apply (exec_does G (body it)); auto.
        - intros y B. exfalso. exact (NB y B).
        - intros s' J. exact (inside_in _ s _ Is J). }
      destruct (K (start_state r)) as [E _]; [split; [reflexivity|exact R|reflexivity]|].
      unfold queued. rewrite E, fold_sp_nb by exact Wt. reflexivity.
    - destruct (good_block_sim pow G (body it) (wf_good _ _ _ wf it I) _ _ (start_rel G r R)) as (ss & _ & Rl).
      exact (rel_whole _ _ _ Rl).
  Qed.

  Variable x : var.
  Variable r0 : venv.
  Hypothesis Ri : in_range G r0.
  Hypothesis Xi : input d x.
  Variable m0 : sim_vals.
  Hypothesis m0_ok : forall y, occurs d y -> m0 y = Some (r0 y).
  Hypothesis m0_x : m0 x = Some (r0 x).

  Definition edge_now (it : item) : bool :=
    existsb (fun e : bool * var => Nat.eqb (snd e) x && (if fst e then negb (r0 x =? 0) else r0 x =? 0)) (events_of (i_proc it)).
  Definition out (it : item) : list (var * Z) := if edge_now it then nord (pairs (queued G it r0)) else [].
  Lemma out_var : forall it y v, In it d -> is_ff (i_proc it) = true -> In (y, v) (out it) -> assigns y (body it).
  Proof.
    intros it y v I F H. unfold out in H. destruct (edge_now it); [|destruct H].
    apply (Permutation_in _ (nord_ok _)) in H. destruct (ff_plan it r0 I F Ri) as (E & _ & _). rewrite E in H. unfold pairs in H.
    rewrite map_map in H. apply in_map_iff in H as ([[k z] u] & [= <- <-] & H). destruct (plans_inside _ _ _ _ _ _ H) as [e J].
    exists k, (LVar z), e. auto.
  Qed.
  Lemma ff_step : forall it st st' W, In it d -> is_ff (i_proc it) = true -> Inv G d st ->
    (forall y, q_vals st y = apply_nba W m0 y) ->
    (forall y v, In (y, v) W -> exists it', In it' d /\ is_ff (i_proc it') = true /\ it' <> it /\ assigns y (body it')) ->
    process pow G ord nord x it st = Ok st' ->
    (forall y, q_vals st' y = apply_nba (W ++ out it) m0 y)
    /\ exists extra, q_evs st' = q_evs st ++ extra /\ combs extra.
  Proof.
    intros it st st' W I F Q V HW P.
    assert (q_vals st x = Some (r0 x)) as Vx.
    { rewrite V, (apply_out pow); [exact m0_x|]. intros J. apply in_map_iff in J as ([y v] & Ey & J). cbn in Ey. subst y.
      destruct (HW x v J) as (it' & I' & _ & _ & A). apply Xi. exists it'. auto. }
    unfold process in P. destruct (i_proc it) as [l e|b|evs b] eqn:Ep; try discriminate.
    assert (fires (q_vals st) x evs = edge_now it) as Ef.
    { unfold fires, edge_now. rewrite Ep, Vx. reflexivity. }
    rewrite Ef in P. unfold out. destruct (edge_now it).
    - change b with (body_of (PFf evs b)) in P. rewrite <- Ep in P.
      destruct (qblock pow G ord None (body it) st) as [s1| |] eqn:E1; cbn [obind] in P; try discriminate. injection P as <-.
      assert (is_ff (i_proc it) = true) as F' by (rewrite Ep; reflexivity).
      destruct (body_does pow G tied d ord wf it (fun y => reads y (body it)) I None st s1 (iv_range _ _ _ _ (proj1 Q)) E1) as (L & E2 & Wr & K).
      assert (forall y, ~ blocking y (body it)) as NB.
      { intros y (k & l & e & J & Kk & _). exact (Kk (sy_nba _ _ sy it k l e I F' J)). }
      assert (L = plans G r0 (body it)) as ->.
      { apply K; auto.
        - intros y B. exfalso. exact (NB y B).
        - intros y Ry. rewrite V, (apply_out pow); [apply m0_ok; exists it; auto|]. intros J. apply in_map_iff in J as ([z v] & Ez & J). cbn in Ez. subst z.
          destruct (HW y v J) as (it' & I' & F2 & Ne & A). apply Ne. symmetry. exact (ap it it' y I I' F' F2 Ry A). }
      destruct (ff_plan it r0 I F' Ri) as (Eq & Wt & Wh).
      destruct (fold_asg_nb G ord None _ st Wt) as (V1 & V2 & V3). rewrite <- E2 in V1, V2, V3. rewrite (proj2 Q), <- Eq in V3.
      change (q_nba s1 = firsts (queued G it r0)) in V3. rewrite firsts_nodup in V3 by (apply (sy_once _ _ sy); auto).
      unfold flush. cbn [q_vals q_evs]. rewrite V3.
      assert (forall p, In p (nord (pairs (queued G it r0))) -> driven d (fst p)) as Dr.
      { intros p J. apply (Permutation_in _ (nord_ok _)) in J. rewrite Eq in J. unfold pairs in J. rewrite map_map in J.
        apply in_map_iff in J as ([[k z] u] & <- & J). destruct (plans_inside _ _ _ _ _ _ J) as [e J2].
        exists it. split; [exact I|]. exists k, (LVar z), e. auto. }
      assert (forall l s, (forall p, In p l -> driven d (fst p)) ->
                q_vals (fold_left (fun (s : qst) (p : var * Z) => setv None (fst p) (snd p) s) l s) = apply_nba l (q_vals s)
                /\ exists extra, q_evs (fold_left (fun (s : qst) (p : var * Z) => setv None (fst p) (snd p) s) l s) = q_evs s ++ extra /\ combs extra) as FL.
      { induction l as [|p l IHl]; intros s Hl; [split; [reflexivity|exists []; split; [now rewrite app_nil_r|constructor]]|].
        cbn [fold_left]. destruct (IHl (setv None (fst p) (snd p) s) (fun q Hq => Hl q (or_intror Hq))) as [A (e2 & B & C)]. rewrite A, B, set_vals.
        split; [reflexivity|]. destruct (set_combs None (fst p) (snd p) s (Hl p (or_introl eq_refl))) as (e1 & B1 & C1). rewrite B1.
        exists (e1 ++ e2). split; [now rewrite app_assoc|]. apply combs_app; auto. }
      destruct (FL _ s1 Dr) as [A (ex & B & C)]. rewrite A, B, V1, V2. split; [|eauto].
      intros y. rewrite apply_app. unfold apply_nba at 1 2. clear - V.
      assert (forall l m m', (forall y, m y = m' y) -> forall y, fold_left (fun m p => set_val m (fst p) (snd p)) l m y
                = fold_left (fun m p => set_val m (fst p) (snd p)) l m' y) as K.
      { induction l as [|p l IHl]; intros m m' H y0; [apply H|]. cbn [fold_left]. apply IHl. intros z. unfold set_val. now rewrite H. }
      apply K. exact V.
    - injection P as <-. rewrite app_nil_r. split; [exact V|]. exists []. split; [now rewrite app_nil_r|constructor].
  Qed.

  Lemma ff_phase : forall its n st st' W rest, NoDup its -> (forall it, In it its -> In it d /\ is_ff (i_proc it) = true) ->
    Inv G d st -> q_evs st = map (fun it => (x, i_id it)) its ++ rest -> combs rest ->
    (forall y, q_vals st y = apply_nba W m0 y) ->
    (forall y v, In (y, v) W -> exists it', In it' d /\ is_ff (i_proc it') = true /\ ~ In it' its /\ assigns y (body it')) ->
    qloop pow G d ord nord n st = Some (Ok st') ->
    exists n2 st2, Inv G d st2 /\ combs (q_evs st2) /\ qloop pow G d ord nord n2 st2 = Some (Ok st')
      /\ forall y, q_vals st2 y = apply_nba (W ++ flat_map out its) m0 y.
  Proof.
    induction its as [|it its IH]; intros n st st' W rest Nd Sub Q Ev Cr V HW E.
    - exists n, st. cbn [flat_map]. rewrite app_nil_r. cbn in Ev. rewrite Ev. auto.
    - apply NoDup_cons_iff in Nd as [Nd1 Nd2]. destruct (Sub it (or_introl eq_refl)) as [I F]. cbn [map app] in Ev.
      destruct n as [|n]; cbn [qloop] in E; rewrite Ev in E; [discriminate|]. destruct (_ <? _); [discriminate|].
      rewrite (find_in G tied d wf it I) in E. destruct Q as [Q N]. pose proof (pop_inv G d st x (i_id it) _ Q Ev) as Q'.
      set (st0 := {| q_vals := q_vals st; q_nba := q_nba st; q_evs := map (fun it => (x, i_id it)) its ++ rest; q_depth := q_depth st |}) in *.
      destruct (process pow G ord nord x it st0) as [s1| |] eqn:P; try discriminate.
      assert (InvX G d (fun j => j = it) st0) as Q2.
      { destruct Q' as [Q1 Q2]. split; [exact Q1|]. intros j Ij Fj Nj. apply Q2; auto. intros Ej. apply Nj. apply id_inj; auto. }
      assert (Inv G d s1) as Qs by (eapply process_inv; eauto).
      assert (Inv G d st0) as Q0.
      { split; [|exact N]. destruct Q2 as [Q1 Q3]. split; [exact Q1|]. intros j Ij Fj _. apply Q3; auto. intros ->. congruence. }
      destruct (ff_step it st0 s1 W I F Q0 V) as [V1 (ex & E1 & C1)].
      { intros y v J. destruct (HW y v J) as (it' & A & B & C & D). exists it'. repeat split; auto. intros ->. apply C. left. reflexivity. }
      { exact P. }
      destruct (IH n s1 st' (W ++ out it) (rest ++ ex)) as (n2 & st2 & K1 & K2 & K3 & K4); auto.
      + intros j Ij. apply Sub. right. exact Ij.
      + rewrite E1. cbn [q_evs st0]. rewrite app_assoc. reflexivity.
      + apply combs_app; auto.
      + intros y v J. apply in_app_iff in J as [J|J].
        * destruct (HW y v J) as (it' & A & B & C & D). exists it'. repeat split; auto. intros H. apply C. right. exact H.
        * exists it. repeat split; auto. exact (out_var it y v I F J).
      + refine (ex_intro _ n2 (ex_intro _ st2 (conj K1 (conj K2 (conj K3 _))))). intros y. rewrite (K4 y). cbn [flat_map]. now rewrite app_assoc.
  Qed.
  Variable r : venv.
  Hypothesis Rr : in_range G r.
  Hypothesis r_same : forall y, y <> x -> r0 y = r y.
  Lemma clock_edge : forall it, In it d -> r0 x <> r x -> existsb (edge G r r0) (events_of (i_proc it)) = edge_now it.
  Proof using sy Ri Rr r_same.
    clear - sy Ri Rr r_same. intros it I Ne. unfold edge_now. assert (forall e, In e (events_of (i_proc it)) -> edge G r r0 e
      = Nat.eqb (snd e) x && (if fst e then negb (r0 x =? 0) else r0 x =? 0)) as K.
    { intros [b y] Ie. unfold edge. cbn [fst snd ev]. destruct (sy_clock _ _ sy it b y I Ie) as (W & _ & _).
      rewrite W. unfold enc. pose proof (Rr y) as R1. pose proof (Ri y) as R2. rewrite W in R1, R2. rewrite !Z.mod_small by assumption.
      destruct (Nat.eqb_spec y x) as [->|Nx]; cbn [andb].
      - change (2 ^ 1) with 2 in *. destruct b.
        + destruct (Z.eqb_spec (r x) 0), (Z.eqb_spec (r0 x) 0); cbn; auto; lia.
        + destruct (Z.eqb_spec (r x) 0), (Z.eqb_spec (r0 x) 0); cbn; auto; lia.
      - rewrite (r_same y Nx). destruct b, (r y =? 0); reflexivity. }
    revert K. induction (events_of (i_proc it)) as [|e l IHl]; intros K; [reflexivity|]. cbn [existsb].
    rewrite (K e (or_introl eq_refl)), IHl; auto. intros e' Ie'. apply K. right. exact Ie'.
  Qed.
  Lemma no_edge : forall it, In it d -> (forall b, ~ In (b, x) (events_of (i_proc it))) \/ r0 x = r x -> existsb (edge G r r0) (events_of (i_proc it)) = false.
  Proof.
    intros it I H. apply not_true_iff_false. intros E. apply existsb_exists in E as ([b y] & Ie & E). unfold edge in E. cbn [fst snd ev] in E.
    assert (r0 y = r y) as Ey.
    { destruct (Nat.eq_dec y x) as [->|N]; [|now apply r_same]. destruct H as [H|H]; [exfalso; exact (H b Ie)|exact H]. }
    rewrite Ey in E. destruct b, (_ =? _); discriminate.
  Qed.
  Lemma nodup_items : NoDup d.
  Proof. pose proof (wf_ids _ _ _ wf) as N. exact (NoDup_map_inv _ _ N). Qed.
  Lemma regs : forall its z, NoDup its -> (forall it, In it its -> In it d /\ is_ff (i_proc it) = true) ->
    (forall it, In it d -> existsb (edge G r r0) (events_of (i_proc it)) = true <-> In it its /\ edge_now it = true) -> z <> x -> occurs d z ->
    apply_nba (flat_map out its) m0 z
    = Some (fold_left do_write (flat_map (fun it => queued G it r0) (fired G d r r0)) r z).
  Proof.
    intros its z Nd Sub Eg Nz Oz. set (W0 := flat_map (fun it => queued G it r0) (fired G d r r0)).
    assert (forall it, In it (fired G d r r0) <-> In it its /\ edge_now it = true) as Fi.
    { intros it. unfold fired. rewrite filter_In. split.
      - intros [A B]. now apply Eg.
      - intros [A B]. destruct (Sub it A) as [C _]. split; [exact C|]. now apply Eg. }
    assert (NoDup (map w_var W0)) as N0.
    { apply nodup_flat; [apply NoDup_filter, nodup_items| |].
      - intros it A. apply Fi in A as [A _]. destruct (Sub it A) as [B C]. apply (sy_once _ _ sy); auto.
      - intros it it' u u' A A' U U' E. apply Fi in A as [A _]. apply Fi in A' as [A' _]. destruct (Sub it A) as [B C]. destruct (Sub it' A') as [B' C'].
        destruct (ff_plan it r0 B C Ri) as (Q & _ & _). destruct (ff_plan it' r0 B' C' Ri) as (Q' & _ & _). rewrite Q in U. rewrite Q' in U'.
        apply in_map_iff in U as ([[k y] v] & <- & U). apply in_map_iff in U' as ([[k' y'] v'] & <- & U'). cbn in E. subst y'.
        destruct (plans_inside _ _ _ _ _ _ U) as [e J]. destruct (plans_inside _ _ _ _ _ _ U') as [e' J'].
        apply (wf_single _ _ _ wf it it' y B B'); do 3 eexists; split; eauto. }
    assert (NoDup (map fst (flat_map out its))) as N1.
    { apply nodup_flat; [exact Nd| |].
      - intros it A. destruct (Sub it A) as [B C]. unfold out. destruct (edge_now it); [|constructor].
        apply (Permutation_NoDup (l := map fst (pairs (queued G it r0)))); [apply Permutation_map, Permutation_sym, nord_ok|].
        unfold pairs. rewrite map_map. apply (sy_once _ _ sy); auto.
      - intros it it' [y v] [y' v'] A A' U U' E. cbn in E. subst y'. destruct (Sub it A) as [B C]. destruct (Sub it' A') as [B' C'].
        apply (wf_single _ _ _ wf it it' y B B'); [exact (out_var it y v B C U)|exact (out_var it' y v' B' C' U')]. }
    assert (Forall (whole G) W0) as Wh.
    { unfold W0. rewrite Forall_forall. intros u U. apply in_flat_map in U as (it & A & U). apply Fi in A as [A _]. destruct (Sub it A) as [B C].
      destruct (ff_plan it r0 B C Ri) as (_ & _ & Q). rewrite Forall_forall in Q. auto. }
    destruct (in_dec Nat.eq_dec z (map w_var W0)) as [J|J].
    - apply in_map_iff in J as (u & Ez & J). subst z. rewrite (commit_in G _ _ u Wh Rr N0 J).
      apply (apply_in pow); [exact N1|]. apply in_flat_map in J as (it & A & U). apply Fi in A as [A1 A2].
      apply in_flat_map. exists it. split; [exact A1|]. unfold out. rewrite A2.
      apply (Permutation_in _ (Permutation_sym (nord_ok _))). unfold pairs. apply in_map_iff. exists u. auto.
    - rewrite commit_out by exact J. rewrite (apply_out pow); [rewrite (m0_ok z Oz); now rewrite r_same|]. intros I. apply J.
      apply in_map_iff in I as ([y v] & Ey & I). cbn in Ey. subst y. apply in_flat_map in I as (it & A & I). unfold out in I.
      destruct (edge_now it) eqn:En; [|destruct I]. apply (Permutation_in _ (nord_ok _)) in I. unfold pairs in I.
      apply in_map_iff in I as (u & [= <- <-] & I). apply in_map. apply in_flat_map. exists it. split; [|exact I]. apply Fi. auto.
  Qed.
End Step.

Lemma deps_sub : forall e x, In x (deps_e e) -> In x (evars e).
Proof.
  induction e as [x|v w s|op a IHa|op a IHa b IHb|c IHc a IHa b IHb|a IHa hi lo|a IHa b IHb|a IHa w]; intros y H; cbn in H |- *;
    rewrite ?in_app_iff in *; auto; try tauto.
  - destruct H as [H|H]; auto.
  - destruct H as [H|H]; auto.
  - destruct H as [H|H]; auto.
Qed.
Lemma deps_read : forall it x, is_ff (i_proc it) = false -> In x (deps (i_proc it)) -> reads x (body_of (i_proc it)).
Proof.
  intros it x F H. destruct (i_proc it) as [l e|b|evs b]; cbn [deps body_of is_ff] in *; [| |discriminate].
  - exists (SAssign Blocking l e). split; [apply in_here; left; reflexivity|]. constructor. right. now apply deps_sub.
  - apply collect_in in H as (s & J & H). exists s. split; [exact J|]. destruct s; cbn in H; try contradiction; constructor; try right; now apply deps_sub.
Qed.
Lemma map_items : forall d (l : list nat), (forall i, In i l -> exists it, In it d /\ i_id it = i) -> exists its, map i_id its = l /\ forall it, In it its -> In it d.
Proof.
  intros d. induction l as [|i l IH]; intros H; [exists []; split; [reflexivity|intros it []]|].
  destruct (H i (or_introl eq_refl)) as (it & I & E). destruct (IH (fun j J => H j (or_intror J))) as (its & E2 & S).
  exists (it :: its). split; [cbn; congruence|]. intros j [<-|J]; auto.
Qed.

Section React.
  Variable pow : Z -> Z -> outcome Z.
  Variable G : tenv.
  Variable tied : nat -> bool.
  Variable d : design.
  Variable ord : var -> list nat.
  Variable nord : list (var * Z) -> list (var * Z).
  Hypothesis wf : well_formed G tied d.
  Hypothesis sy : synchronous G d.
  Hypothesis ap : apart d.
  Hypothesis ord_ok : forall x, Permutation (ord x) (dependents d x).
  Hypothesis nord_ok : forall l, Permutation (nord l) l.
  Notation body it := (body_of (i_proc it)).
  Notation setv := (set_value G ord).

  Lemma events_ff : forall it, In it d -> events_of (i_proc it) = [] <-> is_ff (i_proc it) = false.
  Proof.
    intros it I. pose proof (sy_events _ _ sy it I) as H. destruct (i_proc it) as [l e|b|evs b]; cbn [events_of is_ff] in *; split; auto; try discriminate.
    intros ->. exfalso. apply H; reflexivity.
  Qed.
  Lemma idle_settled : forall st r, Inv G d st -> q_evs st = [] -> in_range G r -> (forall y v, q_vals st y = Some v -> r y = v) ->
    (forall y, occurs d y -> q_vals st y <> None) -> settled G d r.
  Proof.
    intros st r [Q N] E R Ex V it I Ev y. apply (events_ff it I) in Ev.
    destruct (iv_items _ _ _ _ Q it I Ev (fun H => H)) as [[z W]|U]; [rewrite E in W; destruct W|].
    refine (uptodate_settled G tied d wf it (q_vals st) r I Ev U R Ex _ y).
    intros z Rz. apply V. exists it. auto.
  Qed.
  Lemma react : forall st r x v n st', Inv G d st -> q_evs st = [] -> in_range G r -> (forall y u, q_vals st y = Some u -> r y = u) ->
    (forall y, occurs d y -> q_vals st y <> None) -> input d x -> occurs d x -> 0 <= v < 2 ^ d_width (G x) -> qeval pow G d ord nord n (setv None x v st) = Some (Ok st') ->
    exists r', in_range G r' /\ (forall y u, q_vals st' y = Some u -> r' y = u) /\ (forall y, occurs d y -> q_vals st' y <> None)
      /\ reacts G d r x v r'.
  Proof.
    intros st r x v n st' Q Ev Rr Xt Vd Xi Xo Vr E. set (r0 := upd r x v).
    assert (forall y, occurs d y -> q_vals st y = Some (r y)) as V.
    { intros y Oy. specialize (Vd y Oy). destruct (q_vals st y) as [u|] eqn:Eu; [|contradiction]. now rewrite (Xt y u Eu). }
    assert (in_range G r0) as R0 by (intros y; unfold r0, upd; destruct (Nat.eqb_spec y x) as [->|]; [exact Vr|apply Rr]).
    assert (forall y, y <> x -> r0 y = r y) as Same by (intros y Ny; unfold r0, upd; destruct (Nat.eqb_spec y x); [contradiction|reflexivity]).
    assert (r0 x = v) as Rx by (unfold r0, upd; now rewrite Nat.eqb_refl).
    assert (Inv G d (setv None x v st)) as Q0.
    { destruct Q as [Q N]. split; [|rewrite set_nba; exact N]. eapply set_invx; eauto; [|discriminate].
      intros it I F A. exfalso. apply Xi. exists it. auto. }
    unfold qeval in E. set (s0 := {| q_vals := q_vals (setv None x v st); q_nba := q_nba (setv None x v st);
      q_evs := q_evs (setv None x v st); q_depth := 0 |}) in E.
    assert (Inv G d s0) as Q1 by (apply depth_inv; exact Q0).
    assert (forall y, occurs d y -> q_vals s0 y = Some (r0 y)) as V0.
    { intros y Oy. cbn [s0 q_vals]. rewrite set_vals. unfold set_val, r0, upd. destruct (Nat.eqb y x); [reflexivity|now apply V]. }
    assert (exists its, NoDup its /\ (forall it, In it its -> In it d /\ is_ff (i_proc it) = true)
              /\ (forall it, In it d -> existsb (edge G r r0) (events_of (i_proc it)) = true <-> In it its /\ edge_now x r0 it = true)
              /\ exists rest, q_evs s0 = map (fun it => (x, i_id it)) its ++ rest /\ combs d rest) as (its & Nd & Sub & Eg & rest & Er & Cr).
    { unfold s0. cbn [q_evs]. unfold set_value. rewrite (V x Xo). destruct (changed (Some (r x)) (d_width (G x)) v) eqn:C; cbn [trigger q_evs]; rewrite Ev; cbn [app].
      - assert (filter (fun _ : nat => true) (ord x) = ord x) as -> by (induction (ord x) as [|a l IHl]; [reflexivity|cbn; now rewrite IHl]).
        assert (r0 x <> r x) as Ne.
        { rewrite Rx. intros Evx. rewrite Evx in C. unfold changed in C. rewrite Z.lxor_nilpotent, Z.land_0_l in C. discriminate. }
        assert (forall i, In i (ord x) -> exists it, In it d /\ i_id it = i /\ In x (deps (i_proc it))) as Od.
        { intros i Hi. apply (Permutation_in _ (ord_ok x)) in Hi. apply in_map_iff in Hi as (it & Ei & Hi). apply filter_In in Hi as [H1 H2].
          exists it. repeat split; auto. apply existsb_exists in H2 as (z & Z1 & Z2). apply Nat.eqb_eq in Z2. now subst z. }
        destruct (existsb (fun it => is_ff (i_proc it) && existsb (Nat.eqb x) (deps (i_proc it))) d) eqn:Any.
        + apply existsb_exists in Any as (it0 & I0 & H0). apply andb_true_iff in H0 as [F0 H0]. apply existsb_exists in H0 as (z & Z1 & Z2). apply Nat.eqb_eq in Z2. subst z.
          assert (exists b, In (b, x) (events_of (i_proc it0))) as [b0 Ib].
          { destruct (i_proc it0) as [l e|b|evs b]; try discriminate. cbn [deps] in Z1. apply in_map_iff in Z1 as ([bb z] & Ez & Z1). cbn in Ez. subst z. exists bb. exact Z1. }
          destruct (sy_clock _ _ sy it0 b0 x I0 Ib) as (_ & _ & NR).
          destruct (map_items d (ord x)) as (its & Ei & Si); [intros i Hi; destruct (Od i Hi) as (it & A & B & _); eauto|].
          assert (forall it, In it its <-> In it d /\ In x (deps (i_proc it))) as Ic.
          { intros it. split.
            - intros Hi. split; [auto|]. assert (In (i_id it) (ord x)) as Hj by (rewrite <- Ei; now apply in_map).
              destruct (Od _ Hj) as (it' & A & B & C'). rewrite (id_inj G tied d wf it it' (Si it Hi) A (eq_sym B)). exact C'.
            - intros [A B]. pose proof (in_ord d ord ord_ok it x A B) as Hj. rewrite <- Ei in Hj. apply in_map_iff in Hj as (it' & C' & D').
              rewrite <- (id_inj G tied d wf it' it (Si it' D') A C'). exact D'. }
          exists its. split; [|split; [|split]].
          * apply (NoDup_map_inv i_id). rewrite Ei. apply (Permutation_NoDup (Permutation_sym (ord_ok x))). unfold dependents.
            pose proof (wf_ids _ _ _ wf) as Ni. clear - Ni. induction d as [|a l IHl]; [constructor|]. cbn [map] in Ni. apply NoDup_cons_iff in Ni as [N1 N2].
            cbn [filter]. destruct (existsb _ _); [|auto]. cbn [map]. constructor; [|auto]. intros J. apply N1. apply in_map_iff in J as (b & Eb & J).
            apply filter_In in J as [J _]. rewrite <- Eb. now apply in_map.
          * intros it Hi. apply Ic in Hi as [A B]. split; [exact A|]. destruct (is_ff (i_proc it)) eqn:F; [reflexivity|]. exfalso.
            apply (NR it A F). now apply deps_read.
          * intros it I. rewrite (clock_edge G d sy x r0 R0 r Rr Same it I Ne). split; [|tauto]. intros En. split; [|exact En]. apply Ic. split; [exact I|].
            unfold edge_now in En. apply existsb_exists in En as ([b y] & Ie & En). apply andb_true_iff in En as [En _]. cbn [snd] in En. apply Nat.eqb_eq in En. subst y.
            destruct (i_proc it) as [l e|bb|evs bb]; cbn [events_of] in Ie; try contradiction. cbn [deps]. apply in_map_iff. exists (b, x). auto.
          * exists []. split; [|constructor]. rewrite app_nil_r, <- Ei, map_map. reflexivity.
        + exists []. split; [constructor|]. split; [intros it []|]. split.
          * intros it I. split; [|intros [[] _]]. rewrite (no_edge G d x r0 r Same it I); [discriminate|]. left. intros b Ib.
            apply not_true_iff_false in Any. apply Any. apply existsb_exists. exists it. split; [exact I|].
            destruct (i_proc it) as [l e|bb|evs bb]; cbn [events_of] in Ib; try contradiction. cbn [is_ff deps andb]. apply existsb_exists. exists x.
            split; [|apply Nat.eqb_refl]. apply in_map_iff. exists (b, x). auto.
          * eexists. split; [reflexivity|]. unfold combs. rewrite Forall_forall. intros e He it I Ei. apply in_map_iff in He as (i & <- & Hi). cbn [snd] in Ei.
            destruct (Od i Hi) as (it' & A & B & C'). assert (it = it') as -> by (apply (id_inj G tied d wf); auto; congruence).
            destruct (is_ff (i_proc it')) eqn:F; [|reflexivity]. exfalso. apply not_true_iff_false in Any. apply Any. apply existsb_exists.
            exists it'. split; [exact A|]. rewrite F. cbn [andb]. apply existsb_exists. exists x. split; [exact C'|apply Nat.eqb_refl].
      - apply changed_no in C; [|apply Rr|exact Vr|exact (wf_width _ _ _ wf x)].
        exists []. split; [constructor|]. split; [intros it []|]. split; [|exists []; split; [reflexivity|constructor]].
        intros it I. split; [|intros [[] _]]. rewrite (no_edge G d x r0 r Same it I); [discriminate|]. right. congruence. }
    destruct (ff_phase pow G tied d ord nord wf sy ap ord_ok nord_ok x r0 R0 Xi (q_vals s0) V0 (V0 x Xo) its n s0 st' [] rest Nd Sub Q1 Er Cr (fun y => eq_refl)) as (n2 & st2 & K1 & K2 & K3 & K4).
    { intros y u []. } { exact E. }
    destruct (comb_phase pow G tied d ord nord wf sy ord_ok nord_ok n2 st2 st' K1 K2 K3) as [P1 P2].
    destruct (loop_inv pow G tied d ord nord wf ord_ok nord_ok n2 st2 st' K1 K3) as [Qf Ef].
    assert (forall y, q_vals s0 y <> None -> q_vals st' y <> None) as Def.
    { intros y H0. apply P2. rewrite K4. cbn [app].
      assert (forall l m, m y <> None -> apply_nba l m y <> None) as Kd.
      { induction l as [|p l IHl]; intros m Hm; [exact Hm|]. cbn [apply_nba fold_left]. apply IHl. unfold set_val. destruct (Nat.eqb _ _); [discriminate|exact Hm]. }
      now apply Kd. }
    set (r' := fun y => match q_vals st' y with Some u => u | None => r0 y end).
    assert (in_range G r') as Rf.
    { intros y. unfold r'. destruct (q_vals st' y) as [u|] eqn:Eu; [exact (iv_range _ _ _ _ (proj1 Qf) y u Eu)|apply R0]. }
    assert (forall y u, q_vals st' y = Some u -> r' y = u) as Xf by (intros y u Eu; unfold r'; now rewrite Eu).
    assert (forall y, occurs d y -> q_vals st' y <> None) as Df.
    { intros y Oy. apply Def. rewrite (V0 y Oy). discriminate. }
    exists r'. split; [exact Rf|]. split; [exact Xf|]. split; [exact Df|]. split; [exact (idle_settled st' r' Qf Ef Rf Xf Df)|]. split.
    - intros z Hz. assert (q_vals st' z = q_vals s0 z) as Ez.
      { rewrite P1, K4. cbn [app].
        - rewrite (apply_out pow); [reflexivity|]. intros J. apply in_map_iff in J as ([y u] & Ey & J). cbn in Ey. subst y.
          apply in_flat_map in J as (it & A & J). destruct (Sub it A) as [B C]. apply Hz. exists it. split; [exact B|]. exact (out_var pow G tied d nord wf sy nord_ok x r0 R0 it z u B C J).
        - intros it I _ A. apply Hz. exists it. auto. }
      unfold r'. rewrite Ez. cbn [s0 q_vals]. rewrite set_vals. unfold set_val, r0, upd. destruct (Nat.eqb z x); [reflexivity|].
      destruct (q_vals st z) as [u|] eqn:Eu; [symmetry; exact (Xt z u Eu)|reflexivity].
    - intros z (itz & Iz & Evz & Az). assert (q_vals st' z = Some (fold_left do_write (flat_map (fun it => queued G it r0) (fired G d r r0)) r z)) as Ez.
      { rewrite P1, K4. cbn [app].
        - apply (regs pow G tied d nord wf sy nord_ok x r0 R0 (q_vals s0) V0 r Rr Same its z Nd Sub Eg); [|exists itz; auto].
          intros ->. apply Xi. exists itz. auto.
        - intros it I F A. rewrite (wf_single _ _ _ wf it itz z I Iz A Az) in F. apply Evz. now apply events_ff. }
      exact (Xf z _ Ez).
  Qed.
End React.

(* evaluation ends when nothing feeds back *)
Inductive lex : list nat -> list nat -> Prop :=
| lex_lt : forall a b u v, (a < b)%nat -> List.length u = List.length v -> lex (a :: u) (b :: v)
| lex_eq : forall a u v, lex u v -> lex (a :: u) (a :: v).
Lemma lex_len : forall u v, lex u v -> List.length u = List.length v.
Proof. intros u v H. induction H; cbn; congruence. Qed.
Lemma lex_acc : forall n v, List.length v = n -> Acc lex v.
Proof.
  induction n as [|n IH]; intros v L.
  - destruct v; [|discriminate]. constructor. intros u H. inversion H.
  - destruct v as [|a v]; [discriminate|]. injection L as L. revert v L. induction a as [a IHa] using (well_founded_induction Wf_nat.lt_wf).
    intros v L. pose proof (IH v L) as A. induction A as [v _ IHv]. constructor. intros u H. inversion H as [a' b u' v' Lt Len|a' u' v' Hl]; subst.
    + apply IHa; [exact Lt|congruence].
    + apply IHv; [exact Hl|]. rewrite (lex_len _ _ Hl). reflexivity.
Qed.
Lemma lex_map : forall (f g : nat -> nat) m n a, (a <= m < a + n)%nat -> (f m < g m)%nat -> (forall k, (k < m)%nat -> f k = g k) ->
  lex (map f (seq a n)) (map g (seq a n)).
Proof.
  intros f g m. induction n as [|n IH]; intros a R H E; [lia|]. cbn [seq map]. destruct (Nat.eq_dec a m) as [->|Ne].
  - apply lex_lt; [exact H|]. now rewrite !map_length.
  - rewrite (E a) by lia. apply lex_eq. apply IH; auto. lia.
Qed.

Section Ends.
  Variable pow : Z -> Z -> outcome Z.
  Variable G : tenv.
  Variable tied : nat -> bool.
  Variable d : design.
  Variable ord : var -> list nat.
  Variable nord : list (var * Z) -> list (var * Z).
  Hypothesis wf : well_formed G tied d.
  Hypothesis ord_ok : forall x, Permutation (ord x) (dependents d x).
  Hypothesis nord_ok : forall l, Permutation (nord l) l.
  Notation body it := (body_of (i_proc it)).
  Notation setv := (set_value G ord).
  Variable rank : nat -> nat.
  Hypothesis ranked : forall it it' x, In it d -> In it' d -> assigns x (body it) ->
    (is_ff (i_proc it') = false /\ reads x (body it') \/ exists b, In (b, x) (events_of (i_proc it'))) ->
    (rank (i_id it) < rank (i_id it'))%nat.
  Definition top : nat := fold_right Nat.max 0%nat (map (fun it => rank (i_id it)) d).
  Definition lvl (i : nat) : nat := Nat.min (rank i) top.
  Lemma lvl_in : forall it, In it d -> lvl (i_id it) = rank (i_id it).
  Proof.
    intros it I. unfold lvl. apply Nat.min_l. unfold top. clear - I. induction d as [|a l IHl]; [destruct I|].
    cbn [map fold_right]. destruct I as [->|I]; [apply Nat.le_max_l|]. specialize (IHl I). lia.
  Qed.
  Definition above (i : nat) (l : list (var * nat)) : Prop := Forall (fun e => (lvl i < lvl (snd e))%nat) l.
  Lemma set_above : forall it sc x v st, In it d -> assigns x (body it) ->
    exists extra, q_evs (setv sc x v st) = q_evs st ++ extra /\ above (i_id it) extra.
  Proof.
    intros it sc x v st I A. unfold set_value. destruct (changed _ _ _); cbn [trigger q_evs].
    - eexists. split; [reflexivity|]. unfold above. rewrite Forall_forall. intros e H. apply in_map_iff in H as (i & <- & H). cbn [snd].
      apply filter_In in H as [H _]. apply (Permutation_in _ (ord_ok x)) in H. apply in_map_iff in H as (it' & <- & H). apply filter_In in H as [H1 H2].
      rewrite (lvl_in it I), (lvl_in it' H1). apply (ranked it it' x I H1 A). apply existsb_exists in H2 as (z & Z1 & Z2). apply Nat.eqb_eq in Z2. subst z.
      destruct (is_ff (i_proc it')) eqn:F; [right|left; split; [reflexivity|now apply deps_read]].
      destruct (i_proc it') as [l e|b|evs b]; try discriminate. cbn [deps events_of] in *. apply in_map_iff in Z1 as ([b0 z] & Ez & Z1). cbn in Ez. subst z. exists b0. exact Z1.
    - exists []. split; [now rewrite app_nil_r|constructor].
  Qed.
  Lemma above_app : forall i a b, above i a -> above i b -> above i (a ++ b).
  Proof. intros i a b A B. apply Forall_app. auto. Qed.
  Lemma fold_above : forall it sc L st, In it d -> Forall (free_of G it) L ->
    exists extra, q_evs (fold_left (do_asg G ord sc) L st) = q_evs st ++ extra /\ above (i_id it) extra.
  Proof.
    intros it sc L st I. revert st. induction L as [|[[k x] v] L IHL]; intros st F; [exists []; split; [now rewrite app_nil_r|constructor]|].
    apply Forall_cons_iff in F as [[_ F1] F2]. cbn [fold_left]. destruct (IHL (do_asg G ord sc st (k, x, v)) F2) as (e2 & E2 & A2). rewrite E2. cbn [do_asg].
    destruct (set_above it sc x v st I F1) as (e1 & E1 & A1).
    destruct k; try (exists e2; split; [reflexivity|exact A2]); exists (e1 ++ e2); rewrite E1, app_assoc; (split; [reflexivity|apply above_app; auto]).
  Qed.
  Lemma process_above : forall x it st st', In it d -> prange G (q_vals st) -> q_nba st = [] -> process pow G ord nord x it st = Ok st' ->
    exists extra, q_evs st' = q_evs st ++ extra /\ above (i_id it) extra.
  Proof.
    intros x it st st' I P N E. unfold process in E. destruct (i_proc it) as [l e|b|evs b] eqn:Ep.
    - rewrite <- (qblock_one pow) in E. change [SAssign Blocking l e] with (body_of (PWire l e)) in E. rewrite <- Ep in E.
      destruct (body_does pow G tied d ord wf it (fun _ => True) I None st st' P E) as (L & -> & W & _). apply fold_above; auto. now apply written_all.
    - change b with (body_of (PComb b)) in E. rewrite <- Ep in E.
      destruct (body_does pow G tied d ord wf it (fun _ => True) I _ st st' P E) as (L & -> & W & _). apply fold_above; auto. now apply written_all.
    - destruct (fires (q_vals st) x evs); [|injection E as <-; exists []; split; [now rewrite app_nil_r|constructor]].
      change b with (body_of (PFf evs b)) in E. rewrite <- Ep in E.
      destruct (qblock pow G ord None (body it) st) as [s1| |] eqn:E1; cbn [obind] in E; try discriminate. injection E as <-.
      destruct (body_does pow G tied d ord wf it (fun _ => True) I _ st s1 P E1) as (L & E2 & W & _). apply written_all in W.
      destruct (fold_above it None L st I W) as (e1 & X1 & A1). rewrite <- E2 in X1.
      assert (Forall (fun p => 0 <= snd p < 2 ^ d_width (G (fst p)) /\ assigns (fst p) (body it)) (q_nba s1)) as Fn.
      { rewrite E2. apply fold_nba; [exact W|]. rewrite N. constructor. }
      assert (forall l s, Forall (fun p => assigns (fst p) (body it)) l ->
        exists extra, q_evs (fold_left (fun (s : qst) (p : var * Z) => setv None (fst p) (snd p) s) l s) = q_evs s ++ extra /\ above (i_id it) extra) as FL.
      { induction l as [|p l IHl]; intros s F; [exists []; split; [now rewrite app_nil_r|constructor]|]. apply Forall_cons_iff in F as [F1 F2].
        cbn [fold_left]. destruct (IHl (setv None (fst p) (snd p) s) F2) as (e3 & E3 & A3). destruct (set_above it None (fst p) (snd p) s I F1) as (e4 & E4 & A4).
        exists (e4 ++ e3). rewrite E3, E4, app_assoc. split; [reflexivity|apply above_app; auto]. }
      destruct (FL (nord (q_nba s1)) s1) as (e2 & X2 & A2).
      { rewrite Forall_forall in *. intros p Ip. apply (Permutation_in _ (nord_ok _)) in Ip. exact (proj2 (Fn p Ip)). }
      exists (e1 ++ e2). unfold flush. cbn [q_evs]. rewrite X2, X1, app_assoc. split; [reflexivity|apply above_app; auto].
  Qed.
  Definition cnt (q : list (var * nat)) (k : nat) : nat := List.length (filter (fun e => Nat.eqb (lvl (snd e)) k) q).
  Definition vec (q : list (var * nat)) : list nat := map (cnt q) (seq 0 (S top)).
  Lemma cnt_app : forall a b k, cnt (a ++ b) k = (cnt a k + cnt b k)%nat.
  Proof. intros. unfold cnt. now rewrite filter_app, app_length. Qed.
  Lemma cnt_above : forall i q k, above i q -> (k <= lvl i)%nat -> cnt q k = 0%nat.
  Proof.
    intros i q k A K. unfold cnt. induction A as [|e q H A IH]; [reflexivity|]. cbn [filter]. replace (Nat.eqb (lvl (snd e)) k) with false; [exact IH|].
    symmetry. apply Nat.eqb_neq. lia.
  Qed.
  Lemma vec_less : forall x i q extra, above i extra -> lex (vec (q ++ extra)) (vec ((x, i) :: q)).
  Proof.
    intros x i q extra A. unfold vec. apply (lex_map _ _ (lvl i)).
    - unfold lvl. lia.
    - rewrite cnt_app, (cnt_above i extra _ A) by lia. unfold cnt at 2. cbn [filter snd]. rewrite Nat.eqb_refl. cbn [List.length]. fold (cnt q (lvl i)). unfold cnt. lia.
    - intros k K. rewrite cnt_app, (cnt_above i extra _ A) by lia. unfold cnt at 2. cbn [filter snd].
      replace (Nat.eqb (lvl i) k) with false by (symmetry; apply Nat.eqb_neq; lia). unfold cnt. lia.
  Qed.
  Lemma loop_ends : forall st, Inv G d st -> exists n o, qloop pow G d ord nord n st = Some o.
  Proof.
    intros st. remember (vec (q_evs st)) as v eqn:Ev.
    assert (Acc lex v) as A by (apply (lex_acc (List.length v)); reflexivity). revert st Ev.
    induction A as [v _ IH]. intros st -> Q. destruct (q_evs st) as [|[x i] r] eqn:Es; [exists 0%nat, (Ok st); cbn [qloop]; now rewrite Es|].
    destruct (MAX_SIMULATION_DEPTH <? q_depth st) eqn:Dp; [exists 1%nat, Throw; cbn [qloop]; now rewrite Es, Dp|].
    destruct Q as [Q N]. pose proof (pop_inv G d st x i r Q Es) as Q'.
    destruct (find_item d i) as [it|] eqn:Fi.
    - pose proof Fi as Fi'. apply find_id in Fi' as [Ii Ei].
      destruct (process pow G ord nord x it {| q_vals := q_vals st; q_nba := q_nba st; q_evs := r; q_depth := q_depth st |}) as [s1| |] eqn:P.
      + assert (Inv G d s1) as Q1.
        { refine (process_inv pow G tied d ord nord wf ord_ok nord_ok x it _ s1 Ii _ _ P); [|exact N]. destruct Q' as [Q1 Q2]. split; [exact Q1|]. intros j Ij Fj Nj. apply Q2; auto. intros Ej. apply Nj.
          apply (id_inj G tied d wf); auto. congruence. }
        destruct (process_above x it _ s1 Ii (iv_range _ _ _ _ Q') N P) as (ex & Ex & Ax). cbn [q_evs] in Ex. rewrite Ei in Ax.
        destruct (IH (vec (q_evs s1))) with (st := s1) as (n & o & E); [rewrite Ex; now apply vec_less|reflexivity|exact Q1|].
        exists (S n), o. cbn [qloop]. rewrite Es, Dp, Fi, P. exact E.
      + exists 1%nat, Throw. cbn [qloop]. now rewrite Es, Dp, Fi, P.
      + exists 1%nat, UB. cbn [qloop]. now rewrite Es, Dp, Fi, P.
    - set (s1 := {| q_vals := q_vals st; q_nba := q_nba st; q_evs := r; q_depth := q_depth st |}) in *.
      destruct (IH (vec (q_evs s1))) with (st := s1) as (n & o & E); [|reflexivity| |].
      + cbn [q_evs s1]. rewrite <- (app_nil_r r) at 1. apply vec_less. constructor.
      + split; [|exact N]. destruct Q' as [Q1 Q2]. split; [exact Q1|]. intros j Ij Fj _. apply Q2; auto. intros Ej.
        rewrite <- Ej, (find_in G tied d wf) in Fi by exact Ij. discriminate.
      + exists (S n), o. cbn [qloop]. rewrite Es, Dp, Fi. exact E.
  Qed.
End Ends.

(* ---- linked slices ---- *)
Lemma bits_covers : forall p b, In b (bits_of p) <-> covers p b.
Proof.
  intros [h l] b. unfold bits_of, covers. cbn [fst snd]. rewrite in_map_iff. split.
  - intros (k & <- & K). apply in_seq in K. lia.
  - intros H. exists (Z.to_nat (b - l)). split; [lia|]. apply in_seq. lia.
Qed.
Lemma has_bit : forall (t : list (Z * (Z * Z))) b, existsb (fun e => fst e =? b) t = true <-> exists q, In (b, q) t.
Proof.
  intros t b. rewrite existsb_exists. split.
  - intros ([b' q] & I & E). cbn in E. apply Z.eqb_eq in E. subst. eauto.
  - intros (q & I). exists (b, q). split; [exact I|]. apply Z.eqb_refl.
Qed.
Lemma link_bit_in : forall p t b e, In e (link_bit p t b) <-> In e t \/ (e = (b, p) /\ ~ exists q, In (b, q) t).
Proof.
  intros p t b e. unfold link_bit. rewrite <- has_bit. destruct (existsb _ _) eqn:E.
  - split; [auto|]. intros [H|[_ H]]; [exact H|congruence].
  - rewrite in_app_iff. cbn [In]. split.
    + intros [H|[H|[]]]; [auto|]. right. split; [auto|congruence].
    + intros [H|[H _]]; auto.
Qed.
Lemma link_in : forall p t b q, In (b, q) (link t p) <-> In (b, q) t \/ (q = p /\ covers p b /\ ~ exists q', In (b, q') t).
Proof.
  intros p t b q. rewrite <- bits_covers. unfold link. generalize (bits_of p) as l. intros l. revert t. induction l as [|c l IH]; intros t; cbn [fold_left].
  - split; [auto|]. intros [H|(_ & [] & _)]. exact H.
  - rewrite IH. split.
    + intros [H|(-> & C & N)].
      * apply link_bit_in in H as [H|[E N]]; [auto|]. injection E as -> ->. right. split; [reflexivity|]. split; [left; reflexivity|exact N].
      * right. split; [reflexivity|]. split; [right; exact C|]. intros [q' Q]. apply N. exists q'. apply link_bit_in. auto.
    + intros [H|(-> & C & N)]; [left; apply link_bit_in; auto|]. destruct (Z.eq_dec c b) as [->|D].
      * left. apply link_bit_in. right. auto.
      * right. split; [reflexivity|]. destruct C as [C|C]; [contradiction|]. split; [exact C|]. intros [q' Q].
        apply link_bit_in in Q as [Q|[Q _]]; [apply N; eauto|congruence].
Qed.
Lemma links_old : forall l t e, In e t -> In e (fold_left link l t).
Proof. induction l as [|p l IH]; intros t [b q] H; [exact H|]. apply IH. apply link_in. auto. Qed.
Lemma links_inv : forall l t b q, In (b, q) (fold_left link l t) -> In (b, q) t \/ (In q l /\ covers q b /\ ~ exists q', In (b, q') t).
Proof.
  induction l as [|p l IH]; intros t b q H; [auto|]. apply IH in H as [H|(I & C & N)].
  - apply link_in in H as [H|(-> & C & N)]; [auto|]. right. split; [left; reflexivity|auto].
  - right. split; [right; exact I|]. split; [exact C|]. intros [q' Q]. apply N. exists q'. apply link_in. auto.
Qed.
Lemma links_some : forall l t b q, In q l -> covers q b -> exists q', In (b, q') (fold_left link l t).
Proof.
  induction l as [|p l IH]; intros t b q [] C; [subst p|eauto]. cbn [fold_left].
  destruct (existsb (fun e => fst e =? b) t) eqn:E.
  - apply has_bit in E as [q' Q]. exists q'. apply links_old. apply link_in. auto.
  - exists q. apply links_old. apply link_in. right. split; [reflexivity|]. split; [exact C|]. rewrite <- has_bit. congruence.
Qed.
Lemma notified_in : forall t ch p, In p (notified t ch) <-> exists b, In b ch /\ In (b, p) t.
Proof.
  intros t ch p. unfold notified. rewrite in_map_iff. split.
  - intros ([b q] & <- & H). apply filter_In in H as [H E]. cbn in *. apply existsb_exists in E as (b' & I & E). apply Z.eqb_eq in E. subst. eauto.
  - intros (b & I & H). exists (b, p). split; [reflexivity|]. apply filter_In. split; [exact H|]. apply existsb_exists. exists b. split; [exact I|apply Z.eqb_refl].
Qed.
