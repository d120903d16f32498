(* Proofs about Fsm_model: whole machines. *)
From Verif Require Import Base SV_spec IR IRSem_spec IR_lemmas IfCase_proofs IR_frame Fsm_spec Fsm_model Fsm_proofs Fsm_sem.
Local Open Scope Z_scope.

(* ---- outputs of a state ---- *)
Lemma assoc_none : forall (A : Type) x (l : list (var * A)), assoc x l = None <-> ~ In x (map fst l).
Proof.
  intros A x l. unfold assoc. induction l as [|[y v] l IH]; cbn [find map fst]; [cbn; tauto|].
  destruct (Nat.eqb_spec y x) as [->|N]; cbn; [intuition discriminate|]. cbn in IH. rewrite IH. tauto.
Qed.
Lemma assoc_in : forall (A : Type) x (l : list (var * A)) v, assoc x l = Some v -> In (x, v) l.
Proof.
  intros A x l v H. unfold assoc in H. induction l as [|[y u] l IH]; cbn [find fst] in H; [discriminate|].
  destruct (Nat.eqb_spec y x) as [->|N]; [cbn in H; inversion H; left; reflexivity|right; apply IH, H].
Qed.
Lemma in_assoc : forall (A : Type) x (l : list (var * A)) v, NoDup (map fst l) -> In (x, v) l -> assoc x l = Some v.
Proof.
  intros A x l v N I. unfold assoc. induction l as [|[y u] l IH]; [destruct I|]. cbn [map fst] in N.
  apply NoDup_cons_iff in N as [N1 N2]. cbn [find fst]. destruct I as [I|I].
  - inversion I; subst. rewrite Nat.eqb_refl. reflexivity.
  - destruct (Nat.eqb_spec y x) as [->|]; [|apply IH; assumption]. exfalso. apply N1, in_map_iff. exists (x, v). auto.
Qed.
Lemma assoc_app : forall (A : Type) x (a b : list (var * A)),
  assoc x (a ++ b) = match assoc x a with Some v => Some v | None => assoc x b end.
Proof.
  intros A x a b. unfold assoc. induction a as [|[y v] a IH]; [reflexivity|]. cbn [app find fst].
  destruct (Nat.eqb y x); [reflexivity|exact IH].
Qed.
Lemma fill_ok : forall outs vals v, fill_outputs outs vals = Ok v -> NoDup (map fst vals) -> NoDup (map fst outs) ->
  NoDup (map fst v) /\ (forall x, In x (map fst outs) -> In x (map fst v)) /\ incl (map fst vals) (map fst v)
  /\ (forall x, assoc x vals <> None -> assoc x v = assoc x vals)
  /\ (forall x, In x (map fst outs) -> assoc x vals = None -> assoc x v = assoc x outs).
Proof.
  induction outs as [|[x d] outs IH]; intros vals v H N M; cbn [fill_outputs] in H.
  - apply Ok_inj in H. subst. split; [exact N|]. split; [intros x []|]. split; [apply incl_refl|]. split; [auto|intros x []].
  - cbn [map fst] in M. apply NoDup_cons_iff in M as [M1 M2]. destruct (assoc x vals) as [u|] eqn:A.
    + destruct (IH _ _ H N M2) as (B1 & B2 & B3 & B4 & B5). split; [exact B1|]. split; [|split; [exact B3|split; [exact B4|]]].
      * intros y [<-|I]; [|auto]. apply B3. apply assoc_in in A. apply in_map_iff. exists (x, u). auto.
      * intros y [<-|I] Q; [cbn [fst] in Q; congruence|]. rewrite (B5 y I Q). unfold assoc. cbn [find fst].
        destruct (Nat.eqb_spec x y) as [->|]; [contradiction|reflexivity].
    + destruct d as [d|]; [|discriminate]. apply assoc_none in A.
      destruct (IH _ _ H) as (B1 & B2 & B3 & B4 & B5); [|exact M2|].
      { rewrite map_app. cbn [map fst]. eapply Permutation.Permutation_NoDup; [apply Permutation.Permutation_cons_append|].
        constructor; assumption. }
      assert (assoc x v = Some (Some d)) as Ax.
      { rewrite B4; rewrite assoc_app; apply assoc_none in A; rewrite A; unfold assoc; cbn [find fst];
          rewrite Nat.eqb_refl; [reflexivity|discriminate]. }
      split; [exact B1|]. split; [|split; [|split]].
      * intros y [<-|I]; [|auto]. apply assoc_in in Ax. apply in_map_iff. exists (x, Some d). auto.
      * intros y I. apply B3. rewrite map_app. apply in_app_iff. auto.
      * intros y Q. rewrite B4; rewrite assoc_app; destruct (assoc y vals); congruence.
      * intros y I Q. cbn [map fst] in I. unfold assoc at 2. cbn [find fst]. destruct (Nat.eqb_spec x y) as [<-|Ny].
        -- exact Ax.
        -- destruct I as [I|I]; [contradiction|]. apply B5; [exact I|]. rewrite assoc_app, Q. unfold assoc. cbn [find fst].
           destruct (Nat.eqb_spec x y); [contradiction|reflexivity].
Qed.
Lemma check_outputs_ok : forall outs vals v, check_outputs outs vals = Ok v -> NoDup (map fst vals) -> NoDup (map fst outs) ->
  NoDup (map fst v) /\ (forall x, In x (map fst v) <-> In x (map fst outs))
  /\ forall x, In x (map fst outs) -> assoc x v =
       Some (match assoc x vals with Some w => w | None => match assoc x outs with Some w => w | None => None end end).
Proof.
  intros outs vals v H N M. unfold check_outputs in H. apply obind_Ok in H as (v' & Fl & H).
  destruct (forallb _ v') eqn:Fb; [|discriminate]. apply Ok_inj in H. subst v'.
  destruct (fill_ok _ _ _ Fl N M) as (B1 & B2 & B3 & B4 & B5). split; [exact B1|]. split.
  - intros x. split; [|apply B2]. intros I. apply in_map_iff in I as ([y u] & E & I). cbn in E. subst y.
    rewrite forallb_forall in Fb. specialize (Fb _ I). cbn [fst] in Fb.
    destruct (assoc x outs) as [w|] eqn:A; [|discriminate]. apply assoc_in in A. apply in_map_iff. exists (x, w). auto.
  - intros x I. destruct (assoc x vals) as [u|] eqn:A.
    + rewrite B4; congruence.
    + rewrite (B5 x I A). destruct (assoc x outs) eqn:Q; [reflexivity|]. apply assoc_none in Q. contradiction.
Qed.
Lemma check_all_in : forall F l s, check_all F l = Ok tt -> In s l ->
  check_outputs (fam_outs F (f_fsm (fam_state F s))) (f_out (fam_state F s)) = Ok (outs_of F s).
Proof.
  induction l as [|a l IH]; intros s H I; [destruct I|]. cbn [check_all] in H. apply obind_Ok in H as (v & V & H).
  destruct I as [->|I]; [|apply IH; assumption]. unfold outs_of. rewrite V. reflexivity.
Qed.
Lemma outs_spec : forall F s l, wf_family F -> check_all F l = Ok tt -> In s l ->
  NoDup (map fst (outs_of F s))
  /\ (forall x, In x (map fst (outs_of F s)) <-> In x (map fst (fam_outs F (f_fsm (fam_state F s)))))
  /\ (forall x v, In (x, v) (outs_of F s) -> v = declared F s x)
  /\ (forall x, In x (map fst (fam_outs F (f_fsm (fam_state F s)))) -> In (x, declared F s x) (outs_of F s)).
Proof.
  intros F s l (_ & _ & _ & W1 & W2) H I.
  destruct (check_outputs_ok _ _ _ (check_all_in F l s H I) (W1 s) (W2 _)) as (A & B & C).
  split; [exact A|]. split; [exact B|]. split.
  - intros x v J. pose proof (in_assoc _ _ _ _ A J) as Q. rewrite C in Q; [inversion Q; reflexivity|].
    apply B, in_map_iff. exists (x, v). auto.
  - intros x J. apply assoc_in. apply C, J.
Qed.

Section Machine.
  Variables (G : tenv) (F : family) (f start : nat) (moore : bool) (rs : reset) (cur nxt : var) (M : machine).
  Hypothesis pos : forall x, 0 < d_width (G x).
  Hypothesis wf : wf_family F.
  Hypothesis made : realize F f moore (Some start) rs cur nxt = Ok M.
  Hypothesis labels : distinct_labels F f.
  Hypothesis ncn : cur <> nxt.
  Hypothesis fcur : unused F f cur.
  Hypothesis fnxt : unused F f nxt.
  Notation E := (encode F f).
  Hypothesis wcur : d_width (G cur) = e_width E.
  Hypothesis wnxt : d_width (G nxt) = e_width E.

  Lemma made_inv : m_enc M = E /\ check_all F (all_states F f) = Ok tt
    /\ gen_seq E rs cur nxt start = Ok (m_seq M) /\ gen_transition F E moore cur nxt = Ok (m_comb M)
    /\ m_output M = (if moore then gen_output E cur start else []).
  Proof.
    pose proof made as H. unfold realize in H. change (e_states E) with (all_states F f) in H.
    destruct (all_states F f) as [|a l] eqn:Q; [discriminate|]. apply obind_Ok in H as ([] & H1 & H).
    apply obind_Ok in H as (sq & H2 & H). apply obind_Ok in H as (cb & H3 & H). apply Ok_inj in H. subst M.
    cbn. auto.
  Qed.
  Lemma st_iff : forall s, In s (e_states E) <-> member F f s.
  Proof. intros s. apply (states_spec F f wf). Qed.
  Lemma nd : names_distinct F f.
  Proof. apply labels_distinct; assumption. Qed.
  Lemma code_fits : forall t, In t (e_states E) -> 0 <= e_code E t < 2 ^ e_width E.
  Proof. intros t I. apply width_fits. apply code_range; [exact nd|exact I]. Qed.
  Lemma out_unused : forall x, unused F f x -> forall t, In t (e_states E) -> ~ In x (map fst (e_out E t)).
  Proof.
    intros x U t I J. destruct made_inv as (_ & C & _). destruct (outs_spec F t _ wf C I) as (_ & B & _).
    apply B in J. apply in_map_iff in J as ([y v] & <- & J). destruct (U t (proj1 (st_iff t) I)) as [_ U2].
    destruct (U2 y v (or_intror J)) as [K _]. cbn in K. congruence.
  Qed.
  Lemma codes_nodup : NoDup (map (e_code E) (e_states E)).
  Proof.
    destruct (states_spec F f wf) as (N & _ & _). change (e_states E) with (all_states F f).
    assert (forall l, NoDup l -> incl l (all_states F f) -> NoDup (map (e_code E) l)) as K; [|apply K; [exact N|apply incl_refl]].
    induction l as [|a l IH]; intros N1 I; [constructor|]. apply NoDup_cons_iff in N1 as [N1 N2]. cbn [map].
    constructor; [|apply IH; [exact N2|intros x Hx; apply I; right; exact Hx]].
    intros J. apply in_map_iff in J as (b & Q & J). apply N1.
    rewrite (code_inj F f a b nd); auto; apply I; [left; reflexivity|right; exact J].
  Qed.
  Lemma next_agree : forall r r' s, member F f s ->
    (forall x, x <> nxt -> x <> cur -> r x = r' x) -> next_state G F r s = next_state G F r' s.
  Proof.
    intros r r' s I A. unfold next_state.
    assert (forall l, (forall c t, In (Some c, t) l -> In (Some c, t) (f_next (fam_state F s))) ->
      find (fun ct : option expr * nat => match fst ct with Some c => truth G r c | None => false end) l =
      find (fun ct : option expr * nat => match fst ct with Some c => truth G r' c | None => false end) l) as K.
    { induction l as [|[[c|] t] l IH]; intros H; [reflexivity| |].
      - cbn [find fst]. assert (truth G r c = truth G r' c) as ->.
        { unfold truth. rewrite (ev_agree G r r' c); [reflexivity|]. intros x Hx.
          assert (In (Some c, t) (f_next (fam_state F s))) as J by (apply H; left; reflexivity).
          apply A; intros ->; [destruct (fnxt s I) as [K _]|destruct (fcur s I) as [K _]]; exact (K c t J Hx). }
        rewrite IH; [reflexivity|]. intros c' t' J. apply H. right. exact J.
      - cbn [find fst]. apply IH. intros c' t' J. apply H. right. exact J. }
    rewrite K by auto. reflexivity.
  Qed.
  (* the next-state process *)
  Lemma comb_cases : exists cs, m_comb M = [SAssign Blocking (LVar nxt) (EVar cur);
      SSwitch (EVar cur) cs
        (if is_2_power (Z.of_nat (length cs)) then None else Some [SAssign Blocking (LVar nxt) (EVar cur)])]
    /\ Forall2 (fun s kb => fst kb = e_code E s /\ state_body F E moore nxt s = Ok (snd kb)) (e_states E) cs.
  Proof.
    destruct made_inv as (_ & _ & _ & T & _). unfold gen_transition in T. apply obind_Ok in T as (cs & C & T).
    apply Ok_inj in T. exists cs. split; [symmetry; exact T|].
    destruct (state_cases_ok F E moore nxt (e_states E) [] cs C) as (new & -> & A); [apply codes_nodup|exact A].
  Qed.
  Lemma cases_keys : forall cs, Forall2 (fun s kb => fst kb = e_code E s /\ state_body F E moore nxt s = Ok (snd kb)) (e_states E) cs ->
    map fst cs = map (e_code E) (e_states E).
  Proof. induction 1 as [|s kb l l' [H _] _ IH]; [reflexivity|]. cbn [map]. rewrite H, IH. reflexivity. Qed.
  Lemma cases_range : forall cs, map fst cs = map (e_code E) (e_states E) -> Forall (fun cb : Z * list stmt => 0 <= fst cb < 2 ^ d_width (G cur)) cs.
  Proof.
    intros cs H. apply Forall_forall. intros cb I. assert (In (fst cb) (map fst cs)) as J by (apply in_map, I).
    rewrite H in J. apply in_map_iff in J as (t & <- & J). rewrite wcur. apply code_fits, J.
  Qed.
  Lemma body_of : forall cs, Forall2 (fun s kb => fst kb = e_code E s /\ state_body F E moore nxt s = Ok (snd kb)) (e_states E) cs ->
    forall s, In s (e_states E) -> exists b, In (e_code E s, b) cs /\ state_body F E moore nxt s = Ok b.
  Proof.
    intros cs H s I. induction H as [|a kb l l' [H1 H2] _ IH]; [destruct I|]. destruct I as [->|I].
    - exists (snd kb). split; [|exact H2]. left. rewrite <- H1. destruct kb; reflexivity.
    - destruct (IH I) as (b & B1 & B2). exists b. split; [right; exact B1|exact B2].
  Qed.
  (* the next-state process runs the body of the current state *)
  Lemma comb_run : forall r s, member F f s -> val G r cur = e_code E s ->
    exists b st1, state_body F E moore nxt s = Ok b /\ run G (m_comb M) (start_state r) = run G b st1
      /\ st_status st1 = Running /\ st_nba st1 = [] /\ (forall x, x <> nxt -> st_cur st1 x = r x)
      /\ val G (st_cur st1) nxt = e_code E s.
  Proof.
    intros r s I V. destruct comb_cases as (cs & -> & C). pose proof (cases_keys cs C) as K.
    destruct (body_of cs C s (proj2 (st_iff s) I)) as (b & B1 & B2).
    set (st1 := exec G (SAssign Blocking (LVar nxt) (EVar cur)) (start_state r)).
    exists b, st1. split; [exact B2|].
    assert (st_status st1 = Running) as S by reflexivity.
    assert (forall x, x <> nxt -> st_cur st1 x = r x) as A by (intros x Hx; apply assign_other; exact Hx).
    assert (val G (st_cur st1) cur = e_code E s) as Vc.
    { unfold val. cbn [ev]. rewrite (A cur ncn). exact V. }
    split; [|split; [exact S|split; [reflexivity|split; [exact A|]]]].
    - rewrite run_cons. fold st1. rewrite S, run_single, exec_switch. cbn [ewidth].
      apply pick_hit with (k := e_code E s); [exact B1| |apply cases_range, K|exact Vc].
      rewrite K. apply codes_nodup.
    - unfold st1. rewrite assign_val by (exact pos || discriminate).
      change (enc (d_width (G nxt)) (val G r cur) = e_code E s). rewrite V, wnxt. apply enc_small, code_fits, st_iff, I.
  Qed.
  Lemma comb_next : forall r s, member F f s -> (unconditional F s <= 1)%nat -> val G r cur = e_code E s ->
    val G (st_cur (run G (m_comb M) (start_state r))) nxt = e_code E (next_state G F r s)
    /\ member F f (next_state G F r s).
  Proof.
    intros r s I U V. destruct (comb_run r s I V) as (b & st1 & B & -> & S & _ & A & Vn).
    destruct (body_next G pos F E moore nxt wnxt (out_unused nxt fnxt) s b st1 B U S code_fits (proj2 (st_iff s) I) Vn)
      as [Q1 Q2].
    rewrite <- (next_agree (st_cur st1) r s I) by (intros x Hx _; apply A, Hx).
    split; [exact Q1|apply st_iff, Q2].
  Qed.
  (* the state register *)
  Notation regv r1 := (activate G (m_seq M) r1).
  Lemma seq_ok : forall r1, member F f start /\
    val G (regv r1) cur = if asserted G (rs_var rs) (reset_active_high rs) r1 then e_code E start else enc (e_width E) (val G r1 nxt).
  Proof.
    intros r1. destruct made_inv as (_ & _ & Sq & _). unfold gen_seq in Sq. apply obind_Ok in Sq as (c & Ec & Sq).
    apply Ok_inj in Sq. unfold enum_of in Ec. destruct (mem start (e_states E)) eqn:Mm; [|discriminate].
    apply mem_in in Mm. apply Ok_inj in Ec. split; [apply st_iff, Mm|]. rewrite <- Sq, <- Ec. unfold activate. rewrite run_single, exec_if.
    assert (truth G (st_cur (start_state r1)) (if reset_active_high rs then EVar (rs_var rs) else EUn UNot (EVar (rs_var rs)))
            = asserted G (rs_var rs) (reset_active_high rs) r1) as ->.
    { unfold truth, asserted. cbn [st_cur start_state]. destruct (reset_active_high rs); [reflexivity|].
      cbn [ev sv_un]. destruct (enc _ (r1 (rs_var rs)) =? 0); reflexivity. }
    destruct (asserted G (rs_var rs) (reset_active_high rs) r1); rewrite run_single; unfold commit; cbn [exec do_assign st_nba st_cur app fold_left start_state];
      unfold val; cbn [ev]; unfold do_write, upd; cbn [target w_var w_lo w_n w_val]; rewrite Nat.eqb_refl, enc_put by (specialize (pos cur); lia).
    - cbn [ev]. rewrite wcur, enc_enc. apply enc_small, code_fits, Mm.
    - cbn [ev]. rewrite wcur. reflexivity.
  Qed.
  (* one clock cycle of the generated processes: the combinational one, then the register *)
  Hypothesis rs_in : rs_var rs <> nxt /\ forall t y v, member F f t -> In (y, v) (fam_outs F (f_fsm (fam_state F t))) -> y <> rs_var rs.
  Lemma cycle_ok : forall r s, member F f s -> (unconditional F s <= 1)%nat -> val G r cur = e_code E s ->
    val G (regv (st_cur (run G (m_comb M) (start_state r)))) cur
      = e_code E (cycle G F start (asserted G (rs_var rs) (reset_active_high rs)) s r)
    /\ member F f (cycle G F start (asserted G (rs_var rs) (reset_active_high rs)) s r).
  Proof.
    intros r s I U V. destruct (comb_next r s I U V) as [N1 N2]. set (r1 := st_cur (run G (m_comb M) (start_state r))) in *.
    destruct (seq_ok r1) as [Ms Sq]. rewrite Sq. unfold cycle.
    assert (asserted G (rs_var rs) (reset_active_high rs) r1 = asserted G (rs_var rs) (reset_active_high rs) r) as ->.
    { assert (r1 (rs_var rs) = r (rs_var rs)) as Q.
      { destruct (comb_run r s I V) as (b & st1 & B & Rn & _ & _ & A & _). unfold r1. rewrite Rn.
        destruct made_inv as (_ & C & _). destruct rs_in as [R1 R2].
        rewrite (body_frame G F E moore nxt (rs_var rs) s b st1 B); [apply A, R1|exact R1|].
        intros t It J. destruct (outs_spec F t _ wf C It) as (_ & Bo & _). apply Bo in J.
        apply in_map_iff in J as ([y v] & Ey & J). cbn in Ey. exact (R2 t y v (proj1 (st_iff t) It) J Ey). }
      unfold asserted. cbn [ev]. rewrite Q. reflexivity. }
    destruct (asserted G (rs_var rs) (reset_active_high rs) r); [auto|]. split; [|exact N2].
    rewrite N1. apply enc_small, code_fits, st_iff, N2.
  Qed.
  Lemma history_ok : (forall t, member F f t -> (unconditional F t <= 1)%nat) -> rs_var rs <> cur ->
    forall h s, member F f s ->
    fold_left (hw_cycle G (m_comb M) (m_seq M) cur) h (e_code E s) = e_code E (history G F start (asserted G (rs_var rs) (reset_active_high rs)) s h)
    /\ member F f (history G F start (asserted G (rs_var rs) (reset_active_high rs)) s h).
  Proof.
    intros U Nrc. induction h as [|ins h IH]; intros s I; [auto|]. unfold history. cbn [fold_left].
    set (r := upd ins cur (e_code E s)).
    assert (val G r cur = e_code E s) as V.
    { unfold val, r. cbn [ev]. unfold upd. rewrite Nat.eqb_refl, wcur. apply enc_small, code_fits, st_iff, I. }
    destruct (cycle_ok r s I (U s I) V) as [C1 C2].
    assert (cycle G F start (asserted G (rs_var rs) (reset_active_high rs)) s r
            = cycle G F start (asserted G (rs_var rs) (reset_active_high rs)) s ins) as Q.
    { unfold cycle. assert (asserted G (rs_var rs) (reset_active_high rs) r = asserted G (rs_var rs) (reset_active_high rs) ins) as ->.
      { unfold asserted. cbn [ev]. unfold r, upd. destruct (Nat.eqb_spec (rs_var rs) cur); [contradiction|reflexivity]. }
      destruct (asserted _ _ _ ins); [reflexivity|]. apply next_agree; [exact I|].
      intros x _ Hx. unfold r, upd. destruct (Nat.eqb_spec x cur); [contradiction|reflexivity]. }
    rewrite Q in C1, C2. change (hw_cycle G (m_comb M) (m_seq M) cur (e_code E s) ins) with
      (val G (regv (st_cur (run G (m_comb M) (start_state r)))) cur). rewrite C1. apply IH, C2.
  Qed.
  (* a reset cycle leads to the start state whatever the register holds *)
  Lemma comb_frame : forall r y, y <> nxt -> (forall t, In t (e_states E) -> ~ In y (map fst (e_out E t))) ->
    st_cur (run G (m_comb M) (start_state r)) y = r y.
  Proof.
    intros r y Ny No. destruct comb_cases as (cs & -> & C).
    rewrite run_cons. rewrite assign_status. cbn [st_status start_state]. rewrite run_single, exec_switch.
    set (st1 := exec G (SAssign Blocking (LVar nxt) (EVar cur)) (start_state r)).
    assert (st_cur st1 y = r y) as Q by (apply assign_other; exact Ny).
    rewrite <- Q. generalize (is_2_power (Z.of_nat (length cs))). intros p.
    generalize (ev G (st_cur st1) (EVar cur)) (ewidth G (EVar cur)). intros v w.
    assert (Forall (fun kb => st_cur (run G (snd kb) st1) y = st_cur st1 y) cs) as K.
    { apply Forall_forall. intros kb I. apply in_split in I as (a & b & ->).
      apply Forall2_app_inv_r in C as (l1 & l2 & _ & C & _). inversion C as [|s x l l' [_ H] _]; subst.
      eapply body_frame; eauto. }
    clear C. induction K as [|kb l' H _ IH]; cbn [pick].
    - destruct p; [reflexivity|]. rewrite run_single. apply assign_other, Ny.
    - destruct (v =? enc w (fst kb)); [exact H|exact IH].
  Qed.
  Lemma reset_ok : forall c ins, rs_var rs <> cur -> asserted G (rs_var rs) (reset_active_high rs) ins = true ->
    hw_cycle G (m_comb M) (m_seq M) cur c ins = e_code E start.
  Proof.
    intros c ins Nc H. unfold hw_cycle. destruct (seq_ok (st_cur (run G (m_comb M) (start_state (upd ins cur c))))) as [_ ->].
    assert (asserted G (rs_var rs) (reset_active_high rs) (st_cur (run G (m_comb M) (start_state (upd ins cur c)))) = true) as ->; [|reflexivity].
    rewrite <- H. unfold asserted. cbn [ev]. rewrite comb_frame.
    - unfold upd. destruct (Nat.eqb_spec (rs_var rs) cur); [contradiction|reflexivity].
    - apply rs_in.
    - intros t It J. destruct made_inv as (_ & C & _). destruct (outs_spec F t _ wf C It) as (_ & Bo & _). apply Bo in J.
      apply in_map_iff in J as ([y v] & Ey & J). cbn in Ey. exact (proj2 rs_in t y v (proj1 (st_iff t) It) J Ey).
  Qed.

  (* ---- Moore outputs ---- *)
  Definition effective (l : list (var * option expr)) : list (var * expr) :=
    flat_map (fun p => match snd p with
                       | Some e => if expr_eqb e (EVar (fst p)) then [] else [(fst p, e)]
                       | None => [] end) l.
  Lemma out_effective : forall l, out_stmts l = assigns_of Undefined (effective l).
  Proof.
    unfold out_stmts, effective, assigns_of. induction l as [|[x [e|]] l IH]; [reflexivity| |].
    - cbn [flat_map fst snd]. destruct (expr_eqb e (EVar x)); cbn [app map]; rewrite IH; reflexivity.
    - cbn [flat_map fst snd]. exact IH.
  Qed.
  Lemma effective_in : forall l x e, In (x, e) (effective l) <-> In (x, Some e) l /\ e <> EVar x.
  Proof.
    intros l x e. unfold effective. rewrite in_flat_map. split.
    - intros ([y [u|]] & I & J); [|destruct J]. cbn [fst snd] in J. destruct (expr_eqb u (EVar y)) eqn:Q; [destruct J|].
      destruct J as [J|[]]. inversion J; subst. split; [exact I|]. intros ->. rewrite expr_eqb_refl in Q. discriminate.
    - intros [I N]. exists (x, Some e). split; [exact I|]. cbn [fst snd]. destruct (expr_eqb e (EVar x)) eqn:Q; [|left; reflexivity].
      apply expr_eqb_eq in Q. contradiction.
  Qed.
  Lemma effective_keys : forall l, incl (map fst (effective l)) (map fst l).
  Proof.
    intros l x I. apply in_map_iff in I as ([y e] & <- & I). apply effective_in in I as [I _].
    apply in_map_iff. exists (y, Some e). auto.
  Qed.
  Lemma effective_nodup : forall l, NoDup (map fst l) -> NoDup (map fst (effective l)).
  Proof.
    induction l as [|[x [e|]] l IH]; intros N; [constructor| |]; cbn [map fst] in N; apply NoDup_cons_iff in N as [N1 N2];
      unfold effective; cbn [flat_map fst snd]; [|apply IH, N2].
    destruct (expr_eqb e (EVar x)); cbn [app map fst]; [apply IH, N2|]. constructor; [|apply IH, N2].
    intros Q. apply N1. apply effective_keys, Q.
  Qed.
  Lemma out_cases_spec : forall l cs, NoDup (map fst cs ++ map (e_code E) l) ->
    exists new, out_cases E l cs = cs ++ new /\ incl (map fst new) (map (e_code E) l) /\ NoDup (map fst (cs ++ new))
      /\ (forall s, In s l -> out_stmts (e_out E s) <> [] -> In (e_code E s, out_stmts (e_out E s)) new)
      /\ (forall k b, In (k, b) new -> exists s, In s l /\ k = e_code E s /\ b = out_stmts (e_out E s) /\ b <> []).
  Proof.
    induction l as [|s l IH]; intros cs N; cbn [out_cases].
    - exists []. rewrite app_nil_r in *. split; [reflexivity|]. split; [intros x []|]. split; [exact N|].
      split; [intros s []|intros k b []].
    - cbn [map] in N. unfold add_nonempty. destruct (out_stmts (e_out E s)) as [|o os] eqn:Q.
      + destruct (IH cs) as (new & A & B & C & D & D').
        { apply NoDup_remove_1 in N. exact N. }
        exists new. split; [exact A|]. split; [intros x Hx; right; apply B, Hx|]. split; [exact C|]. split.
        * intros t [->|I] Ne; [congruence|]. apply D; assumption.
        * intros k b I. destruct (D' k b I) as (t & T1 & T2). exists t. split; [right; exact T1|exact T2].
      + rewrite add_case_new by (apply NoDup_remove_2 in N; intros J; apply N, in_app_iff; auto).
        destruct (IH (cs ++ [(e_code E s, o :: os)])) as (new & A & B & C & D & D').
        { rewrite map_app. cbn [map fst]. rewrite <- app_assoc. exact N. }
        exists ((e_code E s, o :: os) :: new). rewrite <- app_assoc in A, C. split; [exact A|]. split.
        { intros x [<-|Hx]; [left; reflexivity|right; apply B, Hx]. }
        split; [exact C|]. split.
        * intros t [->|I] Ne; [left; rewrite Q; reflexivity|right; apply D; assumption].
        * intros k b [I|I].
          -- inversion I; subst. exists s. split; [left; reflexivity|]. split; [reflexivity|]. split; [auto|discriminate].
          -- destruct (D' k b I) as (t & T1 & T2). exists t. split; [right; exact T1|exact T2].
  Qed.
  Hypothesis is_moore : moore = true.
  Lemma moore_out : forall r s, member F f s -> val G r cur = e_code E s -> quiet F s ->
    (exists y e, In y (map fst (fam_outs F (f_fsm (fam_state F s)))) /\ declared F s y = Some e /\ e <> EVar y) ->
    forall x, In x (map fst (fam_outs F (f_fsm (fam_state F s)))) ->
    val G (activate G (m_output M) r) x
    = match declared F s x with Some e => enc (d_width (G x)) (ev G r e) | None => val G r x end.
  Proof.
    intros r s I V Qt (y0 & e0 & O1 & O2 & O3) x Hx.
    destruct made_inv as (_ & C & _ & _ & Mo). rewrite is_moore in Mo. rewrite Mo. unfold gen_output.
    pose proof (proj2 (st_iff s) I) as Is. destruct (outs_spec F s _ wf C Is) as (P1 & P2 & P3 & P4).
    destruct (out_cases_spec (e_states E) []) as (new & A & B & Cn & D & D'); [apply codes_nodup|]. cbn [app] in A, Cn.
    rewrite A. unfold activate. rewrite run_single, exec_switch. cbn [ewidth st_cur start_state].
    rewrite (pick_hit G (ev G r (EVar cur)) (d_width (G cur)) new _ _ (e_code E s) (out_stmts (e_out E s))).
    - cbn [e_out encode]. rewrite out_effective.
      destruct (run_assigns G pos Undefined (effective (outs_of F s)) (start_state r)) as (S1 & S2 & S3).
      + discriminate.
      + reflexivity.
      + apply effective_nodup, P1.
      + intros x' e' y Ie Iy. apply effective_in in Ie as [Ie _]. pose proof (P3 _ _ Ie) as Qd.
        destruct (Qt x' y e') as [K|K]; auto.
        * apply P2, in_map_iff. exists (x', Some e'). auto.
        * right. intros J. apply K, P2. apply effective_keys, J.
      + assert (st_nba (run G (assigns_of Undefined (effective (outs_of F s))) (start_state r)) = []) as Nb.
        { generalize (effective (outs_of F s)) as l. intros l.
          assert (forall st, st_nba st = [] -> st_nba (run G (assigns_of Undefined l) st) = []) as K; [|apply K; reflexivity].
          induction l as [|p l IH]; intros st Hn; [exact Hn|]. cbn [assigns_of map]. rewrite run_cons.
          destruct (st_status (exec G _ st)); [apply IH|..]; exact Hn. }
        unfold commit. rewrite Nb. cbn [fold_left]. pose proof (P4 x Hx) as Ix.
        destruct (declared F s x) as [e|] eqn:Dx.
        * destruct (expr_eqb e (EVar x)) eqn:Qe.
          -- apply expr_eqb_eq in Qe. subst e. unfold val. cbn [ev]. rewrite S3; [symmetry; apply enc_enc|].
             intros J. apply in_map_iff in J as ([x' e'] & Ex & J). cbn in Ex. subst x'.
             apply effective_in in J as [J J2]. apply P3 in J. congruence.
          -- apply S2. apply effective_in. split; [exact Ix|]. intros ->. rewrite expr_eqb_refl in Qe. discriminate.
        * unfold val. cbn [ev]. rewrite S3; [reflexivity|]. intros J. apply in_map_iff in J as ([x' e'] & Ex & J).
          cbn in Ex. subst x'. apply effective_in in J as [J _]. apply P3 in J. congruence.
    - apply D; [exact Is|]. cbn [e_out encode]. rewrite out_effective. intros Q.
      assert (In (y0, e0) (effective (outs_of F s))) as J.
      { apply effective_in. split; [|exact O3]. rewrite <- O2. apply P4, O1. }
      destruct (effective (outs_of F s)); [destruct J|discriminate].
    - exact Cn.
    - apply Forall_forall. intros [k b] J. cbn [fst]. destruct (D' k b J) as (t & T1 & -> & _).
      rewrite wcur. apply code_fits, T1.
    - exact V.
  Qed.
End Machine.
