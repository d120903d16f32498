From Verif Require Import Base SV_spec IR IRSem_spec IR_lemmas IfCase_proofs IR_frame Flow_spec Flow_proofs Design_spec Design_proofs Dce_spec Dce_model Dce_proofs
  Fan_spec Fan_model Retarget_proofs Fan_proofs Tie_spec Tie_model.
Local Open Scope Z_scope.

Lemma statements_in : forall f d it s, In (it, s) (statements f d) <-> In it d /\ inside s (body_of (i_proc it)) /\ f s = true.
Proof.
  intros f d it s. unfold statements. rewrite in_flat_map. split.
  - intros (i0 & I & J). apply in_map_iff in J. destruct J as (s0 & E & J). injection E as -> ->. apply filter_In in J as [J F].
    apply collect_in in J. destruct J as (s0 & Is & [->|[]]). auto.
  - intros (I & Is & F). exists it. split; [exact I|]. apply in_map_iff. exists s. split; [reflexivity|]. apply filter_In. split; [|exact F].
    apply collect_in. exists s. split; [exact Is|now left].
Qed.
Lemma statements_one : forall f (P : stmt -> Prop) d it s, (forall s, f s = true <-> P s) -> statements f d = [(it, s)] -> only P d it s.
Proof.
  intros f P d it s FP E. assert (In (it, s) (statements f d)) as I by (rewrite E; now left). apply statements_in in I as (I & Is & F).
  split; [exact I|]. split; [exact Is|]. split; [now apply FP|]. intros it' s' I' Is' P'. assert (In (it', s') (statements f d)) as J.
  { apply statements_in. split; [exact I'|]. split; [exact Is'|]. now apply FP. }
  rewrite E in J. destruct J as [J|[]]. injection J as -> ->. auto.
Qed.
Lemma assigns_to_spec : forall x s, assigns_to x s = true <-> writes_stmt x s.
Proof.
  intros x s. destruct s; cbn; try (split; [discriminate|intros (k0 & l0 & e0 & E & _); discriminate]).
  rewrite Nat.eqb_eq. split; [intros E; do 3 eexists; eauto|]. intros (k0 & l0 & e0 & E & V). injection E as -> -> ->. exact V.
Qed.
Lemma const_activate : forall G y v w s r z, activate G [SAssign Blocking (LVar y) (EConst v w s)] r z = if Nat.eqb z y then put_bits (r y) 0 (d_width (G y)) (enc w v) else r z.
Proof. reflexivity. Qed.
Lemma const_eq : forall G y v w s r, in_range G r -> w = d_width (G y) -> activate G [SAssign Blocking (LVar y) (EConst v w s)] r y = r y <-> r y = enc w v.
Proof.
  intros G y v w s r R ->. rewrite const_activate, Nat.eqb_refl. pose proof (width_pos G r y R) as W. rewrite put_whole by (try exact W; apply R).
  unfold enc. rewrite Z.mod_mod by (apply Z.pow_nonzero; lia). split; congruence.
Qed.
Lemma const_reads : forall x y v w s, ~ reads x [SAssign Blocking (LVar y) (EConst v w s)].
Proof. intros x y v w s (q & I & R). apply inside_subs in I. cbn in I. destruct I as [<-|[]]. inversion R as [? ? ? H0| | |]; subst. cbn in H0. tauto. Qed.
Lemma const_touches : forall x y v w s, touches x [SAssign Blocking (LVar y) (EConst v w s)] -> x = y.
Proof.
  intros x y v w s [(k & l & e & I & E)|(u & b & st & bd & I)]; apply inside_subs in I; cbn in I; destruct I as [I|[]]; [|discriminate].
  injection I as <- <- <-. now symmetry.
Qed.

Section Gen.
  Variables (G : tenv) (H : hierarchy) (d : design) (g : nat).
  Hypothesis TG : tie_good G H d.
  Let ts := ties H d g.
  Let d' := tie_gen H d g.
  Record tie_fact (t : tie) : Prop := {
    tf_var : In (t_var t) (h_vars H g);
    tf_port : h_kind H (t_port t) <> KVar;
    tf_type : G (t_var t) = G (t_port t);
    tf_source : In (t_source t) d /\ i_gen (t_source t) = g /\ exists v w s, t_const t = EConst v w s /\ w = d_width (G (t_var t)) /\ i_proc (t_source t) = PWire (LVar (t_var t)) (EConst v w s);
    tf_sink : In (t_sink t) d /\ i_gen (t_sink t) = g /\ i_proc (t_sink t) = PWire (LVar (t_port t)) (EVar (t_var t));
    tf_reads : forall it, In it d -> reads (t_var t) (body_of (i_proc it)) -> it = t_sink t;
    tf_touches : forall it, In it d -> touches (t_var t) (body_of (i_proc it)) -> it = t_source t;
    tf_event : ~ d_event (t_var t) d }.
  Lemma tie_of_facts : forall x t, In x (h_vars H g) -> In t (tie_of H d g x) -> t_var t = x /\ tie_fact t.
  Proof.
    intros x t Ix I. unfold tie_of in I. destruct (h_kind H x) eqn:K; [|destruct I|destruct I].
    destruct (sources_of d x) as [|[i1 [k1 l1 [|v w s| | | | | |]| | | | | | |]] [|? ?]] eqn:S1; try (destruct I).
    destruct (sinks_of d x) as [|[i2 [k2 [p| |] e2| | | | | | |]] [|? ?]] eqn:S2; try (destruct I).
    assert (h_kind H p <> KVar /\ h_parent H (h_owner H p) = Some g /\ t = {| t_var := x; t_port := p; t_const := EConst v w s; t_source := i1; t_sink := i2 |}) as (Kp & Pp & ->).
    { destruct (h_kind H p) eqn:Kp; [destruct I| |]; (destruct (h_parent H (h_owner H p)) as [q|]; [|destruct I]); (destruct (Nat.eqb_spec q g) as [Eq0|]; [|destruct I]);
        destruct I as [<-|[]]; repeat split; congruence. }
    split; [reflexivity|]. apply (statements_one _ (writes_stmt x)) in S1; [|apply assigns_to_spec].
    apply (statements_one _ (reads_stmt x)) in S2; [|intros q; rewrite mem_In; apply reads_sinks].
    assert (tied H d g x p) as Td.
    { split; [exact Ix|]. split; [exact Kp|]. split; [exact Pp|]. split; [do 6 eexists; exact S1|do 3 eexists; exact S2]. }
    destruct (ti_plain _ _ _ TG g x p Td) as (Ty & Ev & Lo & Src & Snk). destruct (Src _ _ _ _ _ _ S1) as (A1 & A2 & A3). destruct (Snk _ _ _ S2) as (B1 & B2).
    destruct S1 as (I1 & Is1 & W1 & U1). destruct S2 as (I2 & Is2 & W2 & U2). constructor; cbn; auto.
    - split; [exact I1|]. split; [exact A1|]. exists v, w, s. auto.
    - intros it It (q & Iq & Rq). apply (U2 it q It Iq Rq).
    - intros it It [(k & l & e & Iq & E)|Lp]; [|exfalso; exact (Lo it It Lp)]. apply (U1 it (SAssign k l e) It Iq). do 3 eexists. eauto.
  Qed.
  Lemma tie_facts : forall t, In t ts -> tie_fact t.
  Proof. intros t I. unfold ts, ties in I. apply in_flat_map in I. destruct I as (x & Ix & I). apply (tie_of_facts x t Ix I). Qed.
  Lemma tie_same : forall t u, In t ts -> In u ts -> t_var t = t_var u -> t = u.
  Proof.
    intros t u It Iu E. unfold ts, ties in It, Iu. apply in_flat_map in It, Iu. destruct It as (x & Ix & It). destruct Iu as (y & Iy & Iu).
    destruct (tie_of_facts x t Ix It) as [Ex _]. destruct (tie_of_facts y u Iy Iu) as [Ey _]. assert (x = y) as <- by congruence.
    clear - It Iu. unfold tie_of in *. destruct (h_kind H x); [|destruct It|destruct It].
    destruct (sources_of d x) as [|[i1 [k1 l1 [|v w s| | | | | |]| | | | | | |]] [|? ?]]; try (destruct It).
    destruct (sinks_of d x) as [|[i2 [k2 [p| |] e2| | | | | | |]] [|? ?]]; try (destruct It).
    destruct (h_kind H p); [destruct It| |]; (destruct (h_parent H (h_owner H p)) as [q|]; [|destruct It]); (destruct (Nat.eqb q g); [|destruct It]);
      destruct It as [<-|[]]; destruct Iu as [<-|[]]; reflexivity.
  Qed.
  Definition thid (x : var) : bool := mem x (map t_var ts).
  Lemma thid_in : forall x, thid x = true <-> exists t, In t ts /\ t_var t = x.
  Proof. intros x. unfold thid. rewrite mem_In, in_map_iff. split; intros (t & A & B); eauto. Qed.
  Lemma thid_kind : forall x, thid x = true -> h_kind H x = KVar.
  Proof. intros x I. apply thid_in in I. destruct I as (t & It & <-). apply (ti_vars _ _ _ TG g). apply (tf_var _ (tie_facts t It)). Qed.
  Lemma loose_spec : forall it, In it d -> (loose g ts it = true <-> exists t, In t ts /\ (it = t_sink t \/ it = t_source t)).
  Proof.
    intros it I. unfold loose. rewrite !andb_true_iff, Nat.eqb_eq, mem_In, in_flat_map. split.
    - intros [_ (t & It & J)]. exists t. split; [exact It|]. destruct (tie_facts t It) as [_ _ _ (S1 & _) (S2 & _) _ _ _].
      cbn in J. destruct J as [J|[J|[]]]; [left|right]; apply (same_id d); auto; apply (ti_ids _ _ _ TG).
    - intros (t & It & J). destruct (tie_facts t It) as [_ _ _ (S1 & S2 & v & w & s & _ & _ & S3) (S4 & S5 & S6) _ _ _].
      unfold is_wire. destruct J as [-> | ->]; [rewrite S6|rewrite S3]; (split; [auto|]; exists t; split; [exact It|]; cbn; auto).
  Qed.
  Lemma kept_off : forall it x, In it d -> loose g ts it = false -> thid x = true -> ~ reads x (body_of (i_proc it)) /\ ~ touches x (body_of (i_proc it)).
  Proof.
    intros it x I L Hx. apply thid_in in Hx. destruct Hx as (t & It & <-). pose proof (tie_facts t It) as F. split; intros C.
    - apply (tf_reads _ F it I) in C. subst it. rewrite (proj2 (loose_spec (t_sink t) I)) in L; [discriminate|]. eauto.
    - apply (tf_touches _ F it I) in C. subst it. rewrite (proj2 (loose_spec (t_source t) I)) in L; [discriminate|]. eauto.
  Qed.
  Lemma tie_wires_in : forall us n it, In it (tie_wires g n us) -> i_gen it = g /\ (n <= i_id it)%nat /\ exists t, In t us /\ i_proc it = PWire (LVar (t_port t)) (t_const t).
  Proof.
    induction us as [|u us IH]; intros n it I; [destruct I|]. cbn in I. destruct I as [<-|I].
    - cbn. split; [reflexivity|]. split; [lia|]. exists u. split; [now left|reflexivity].
    - destruct (IH (S n) it I) as (A & B & t & It & E). split; [exact A|]. split; [lia|]. exists t. split; [now right|exact E].
  Qed.
  Lemma tie_wires_has : forall us n t, In t us -> exists it, In it (tie_wires g n us) /\ i_proc it = PWire (LVar (t_port t)) (t_const t).
  Proof.
    induction us as [|u us IH]; intros n t I; [destruct I|]. cbn. destruct I as [->|I].
    - eexists. split; [left; reflexivity|reflexivity].
    - destruct (IH (S n) t I) as (it & A & B). exists it. auto.
  Qed.
  Lemma tie_wires_nodup : forall us n, NoDup (map i_id (tie_wires g n us)).
  Proof.
    induction us as [|u us IH]; intros n; cbn; constructor; [|apply IH]. intros I. apply in_map_iff in I. destruct I as (it & E & I).
    apply tie_wires_in in I. lia.
  Qed.
  Lemma in_d2 : forall it, In it d' <-> (In it d /\ loose g ts it = false) \/ In it (tie_wires g (fresh d) ts).
  Proof. intros it. unfold d', tie_gen. fold ts. rewrite in_app_iff, filter_In, negb_true_iff. reflexivity. Qed.
  Lemma fresh_above : forall it, In it d -> (i_id it < fresh d)%nat.
  Proof.
    intros it I. unfold fresh. assert (i_id it <= fold_right Nat.max 0 (map i_id d))%nat; [|lia].
    clear TG ts d'. induction d as [|q r IH]; [destruct I|]. cbn. destruct I as [->|I]; [lia|]. specialize (IH I). lia.
  Qed.
  Lemma new_wire : forall it, In it (tie_wires g (fresh d) ts) -> exists t v w s, In t ts /\ t_const t = EConst v w s /\ w = d_width (G (t_port t)) /\ i_proc it = PWire (LVar (t_port t)) (EConst v w s).
  Proof.
    intros it I. apply tie_wires_in in I. destruct I as (_ & _ & t & It & E). destruct (tie_facts t It) as [_ _ Ty (_ & _ & v & w & s & Ec & Ew & _) _ _ _ _].
    exists t, v, w, s. split; [exact It|]. split; [exact Ec|]. split; [now rewrite <- Ty|]. now rewrite E, Ec.
  Qed.
  Lemma events_kept : forall it, In it d -> events_of (i_proc it) <> [] -> loose g ts it = false.
  Proof.
    intros it I E. destruct (loose g ts it) eqn:L; [|reflexivity]. unfold loose, is_wire in L. destruct (i_proc it); cbn in *; try discriminate; congruence.
  Qed.
  Lemma fired_kept2 : forall r1 r2 s1 s2, (forall x, thid x = false -> r1 x = s1 x) -> (forall x, thid x = false -> r2 x = s2 x) ->
    fired G d' s1 s2 = fired G d r1 r2.
  Proof.
    intros r1 r2 s1 s2 A1 A2. unfold fired, d', tie_gen. fold ts. rewrite filter_app.
    assert (filter (fun it => existsb (edge G s1 s2) (events_of (i_proc it))) (tie_wires g (fresh d) ts) = []) as ->.
    { generalize (fresh d), ts. intros n us. revert n. induction us as [|u us IH]; intros n; [reflexivity|]. cbn. apply IH. }
    rewrite app_nil_r.
    assert (forall m, incl m d -> filter (fun it => existsb (edge G s1 s2) (events_of (i_proc it))) (filter (fun it => negb (loose g ts it)) m) =
      filter (fun it => existsb (edge G r1 r2) (events_of (i_proc it))) m) as K.
    { induction m as [|it m IH]; intros Im; [reflexivity|]. cbn [filter]. assert (In it d) as I by (apply Im; now left).
      specialize (IH (fun z Z0 => Im z (or_intror Z0))).
      assert (existsb (edge G s1 s2) (events_of (i_proc it)) = existsb (edge G r1 r2) (events_of (i_proc it))) as Ee.
      { assert (forall evs, incl evs (events_of (i_proc it)) -> existsb (edge G s1 s2) evs = existsb (edge G r1 r2) evs) as Q0.
        { induction evs as [|e evs IHe]; intros Ie; [reflexivity|]. cbn [existsb]. rewrite IHe by (intros z Z0; apply Ie; now right). f_equal.
          unfold edge. assert (thid (snd e) = false) as Hh.
          { destruct (thid (snd e)) eqn:Hh; [|reflexivity]. exfalso. apply thid_in in Hh. destruct Hh as (t & It & Et). apply (tf_event _ (tie_facts t It)). rewrite Et.
            exists it, e. split; [exact I|]. split; [apply Ie; now left|reflexivity]. }
          cbn [ev]. rewrite (A1 _ Hh), (A2 _ Hh). reflexivity. }
        apply Q0. intros z Z0; exact Z0. }
      destruct (loose g ts it) eqn:L; cbn [negb].
      - rewrite IH. destruct (events_of (i_proc it)) as [|e0 es] eqn:En; [reflexivity|]. rewrite (events_kept it I) in L; [discriminate|]. rewrite En. discriminate.
      - cbn [filter]. rewrite Ee. destruct (existsb _ _); now rewrite IH. }
    apply K. intros z Z0; exact Z0.
  Qed.
  Definition cval (x : var) : Z := match find (fun t => Nat.eqb (t_var t) x) ts with Some t => ev G (fun _ => 0) (t_const t) | None => 0 end.
  Definition tlift (r : venv) : venv := fun x => if thid x then cval x else r x.
  Lemma cval_eq : forall t, In t ts -> cval (t_var t) = ev G (fun _ => 0) (t_const t).
  Proof.
    intros t I. unfold cval. destruct (find _ ts) as [u|] eqn:E.
    - apply List.find_some in E. destruct E as [Iu E]. apply Nat.eqb_eq in E. now rewrite (tie_same u t Iu I E).
    - pose proof (List.find_none _ _ E t I) as N. cbn in N. rewrite Nat.eqb_refl in N. discriminate.
  Qed.
  Lemma tlift_off : forall r x, thid x = false -> tlift r x = r x.
  Proof. intros r x E. unfold tlift. now rewrite E. Qed.
  Lemma tlift_on : forall r t, In t ts -> tlift r (t_var t) = ev G (fun _ => 0) (t_const t).
  Proof. intros r t I. unfold tlift. rewrite (proj2 (thid_in _)); [now apply cval_eq|eauto]. Qed.
  Lemma tlift_range : forall r, in_range G r -> in_range G (tlift r).
  Proof.
    intros r R x. unfold tlift. destruct (thid x) eqn:E; [|apply R]. apply thid_in in E. destruct E as (t & It & <-). rewrite cval_eq by exact It.
    destruct (tie_facts t It) as [_ _ _ (_ & _ & v & w & s & Ec & Ew & _) _ _ _ _]. rewrite Ec. cbn [ev]. unfold enc. rewrite Ew. apply Z.mod_pos_bound.
    specialize (R (t_var t)). lia.
  Qed.
  Lemma port_off : forall t, In t ts -> thid (t_port t) = false.
  Proof. intros t I. destruct (thid (t_port t)) eqn:E; [|reflexivity]. exfalso. apply (tf_port _ (tie_facts t I)). now apply thid_kind. Qed.

  Lemma tsettled_fwd : forall r, in_range G r -> settled G d r -> settled G d' r.
  Proof.
    intros r R S0 it I E x. apply in_d2 in I. destruct I as [[I _]|I]; [exact (S0 it I E x)|]. apply new_wire in I. destruct I as (t & v & w & s & It & Ec & Ew & Ep). rewrite Ep. cbn [body_of].
    destruct (Nat.eq_dec x (t_port t)) as [->|N]; [|rewrite const_activate; destruct (Nat.eqb_spec x (t_port t)); [contradiction|reflexivity]].
    apply const_eq; [exact R|exact Ew|]. destruct (tie_facts t It) as [_ _ Ty (S1 & _ & v1 & w1 & s1 & Ec1 & Ew1 & S2) (S3 & _ & S4) _ _ _].
    rewrite Ec in Ec1. injection Ec1 as <- <- <-.
    assert (r (t_port t) = r (t_var t)) as ->.
    { apply (wire_eq G (t_var t) (t_port t) r R Ty). pose proof (S0 _ S3) as Q. rewrite S4 in Q. now apply Q. }
    apply (const_eq G (t_var t) v w s r R Ew1). pose proof (S0 _ S1) as Q. rewrite S2 in Q. now apply Q.
  Qed.
  Lemma tsettled_bwd : forall r, in_range G r -> settled G d' r -> settled G d (tlift r).
  Proof.
    intros r R S0 it I E x. pose proof (tlift_range r R) as R2. destruct (loose g ts it) eqn:L.
    - apply (loose_spec it I) in L. destruct L as (t & It & J). pose proof (tie_facts t It) as F. destruct F as [_ _ Ty (S1 & _ & v & w & s & Ec & Ew & S2) (S3 & _ & S4) _ _ _].
      destruct J as [-> | ->].
      + rewrite S4. cbn [body_of]. destruct (Nat.eq_dec x (t_port t)) as [->|N]; [|rewrite wire_activate; destruct (Nat.eqb_spec x (t_port t)); [contradiction|reflexivity]].
        apply wire_eq; auto. rewrite (tlift_on r t It), (tlift_off r _ (port_off t It)). rewrite Ec. cbn [ev].
        destruct (tie_wires_has ts (fresh d) t It) as (i2 & I2 & E2). rewrite Ec in E2. apply (const_eq G (t_port t) v w s r R); [now rewrite <- Ty|].
        assert (In i2 d') as Id by (apply in_d2; now right). pose proof (S0 i2 Id) as Q. rewrite E2 in Q. now apply Q.
      + rewrite S2. cbn [body_of]. destruct (Nat.eq_dec x (t_var t)) as [->|N]; [|rewrite const_activate; destruct (Nat.eqb_spec x (t_var t)); [contradiction|reflexivity]].
        apply const_eq; auto. rewrite (tlift_on r t It), Ec. reflexivity.
    - assert (In it d') as Id by (apply in_d2; left; auto). destruct (thid x) eqn:Hx.
      + apply activate_off. apply (kept_off it x I L Hx).
      + rewrite (unread_activate G thid _ (tlift r) r); auto.
        * rewrite tlift_off by exact Hx. now apply S0.
        * intros z Hz. destruct (thid z) eqn:Tz; [|reflexivity]. exfalso. destruct (kept_off it z I L Tz) as [A B]. destruct Hz; contradiction.
        * intros z Hz. now apply tlift_off.
  Qed.
  Lemma tclocked : forall x, clocked d' x <-> clocked d x.
  Proof.
    intros x. split.
    - intros (it & I & E & A). apply in_d2 in I. destruct I as [[I _]|I]; [exists it; auto|]. apply new_wire in I. destruct I as (t & v & w & s & _ & _ & _ & Ep). rewrite Ep in E. now destruct E.
    - intros (it & I & E & A). exists it. split; [|auto]. apply in_d2. left. split; [exact I|now apply events_kept].
  Qed.
  Lemma tclocked_off : forall x, clocked d x -> thid x = false.
  Proof.
    intros x (it & I & E & A). destruct (thid x) eqn:Hx; [|reflexivity]. exfalso. destruct (kept_off it x I (events_kept it I E) Hx) as [_ B]. apply B. now left.
  Qed.
  Lemma tnext_fwd : forall r1 r2, in_range G r2 -> next G d r1 r2 -> next G d' r1 r2.
  Proof.
    intros r1 r2 R2 [S2 C]. split; [now apply tsettled_fwd|]. intros x Cx. rewrite (fired_kept2 r1 r2 r1 r2) by reflexivity. apply C. now apply tclocked.
  Qed.
  Lemma tnext_bwd : forall r1 r2, in_range G r2 -> next G d' r1 r2 -> next G d (tlift r1) (tlift r2).
  Proof.
    intros r1 r2 R2 [S2 C]. split; [now apply tsettled_bwd|]. intros x Cx. pose proof (tclocked_off x Cx) as Hx.
    rewrite (tlift_off r2 x Hx), (C x) by now apply tclocked. rewrite (fired_kept2 (tlift r1) (tlift r2) r1 r2) by (intros; now apply tlift_off).
    assert (flat_map (fun it => queued G it r1) (fired G d (tlift r1) (tlift r2)) = flat_map (fun it => queued G it (tlift r1)) (fired G d (tlift r1) (tlift r2))) as ->.
    { assert (forall m, (forall it, In it m -> In it d /\ loose g ts it = false) -> flat_map (fun it => queued G it r1) m = flat_map (fun it => queued G it (tlift r1)) m) as K.
      { induction m as [|it m IH]; intros Hm; [reflexivity|]. cbn [flat_map]. rewrite IH by (intros; apply Hm; now right). f_equal. destruct (Hm it) as [I L]; [now left|].
        unfold queued. symmetry. apply (unread_run G thid).
        - intros z Hz. destruct (thid z) eqn:Tz; [|reflexivity]. exfalso. destruct (kept_off it z I L Tz) as [A B]. destruct Hz; contradiction.
        - intros z Hz. now apply tlift_off. }
      apply K. intros it I. apply filter_In in I as [I E]. split; [exact I|]. apply events_kept; [exact I|]. intros X. rewrite X in E. discriminate. }
    apply writes_at. symmetry. now apply tlift_off.
  Qed.
  Lemma thistory_fwd : forall h, Forall (in_range G) h -> history G d h -> history G d' h.
  Proof.
    intros h F Hh. induction Hh as [r S0|r r' m Hh IH N]; inversion F; subst; [apply h_first; now apply tsettled_fwd|]. apply h_next; [now apply IH|now apply tnext_fwd].
  Qed.
  Lemma thistory_bwd : forall h, Forall (in_range G) h -> history G d' h -> history G d (map tlift h).
  Proof.
    intros h F Hh. induction Hh as [r S0|r r' m Hh IH N]; inversion F; subst; cbn [map]; [apply h_first; now apply tsettled_bwd|]. apply h_next; [now apply IH|now apply tnext_bwd].
  Qed.

  (* what happens to uses of variables *)
  Lemma d2_reads : forall x, d_reads x d' -> d_reads x d /\ thid x = false.
  Proof.
    intros x (it & I & R). apply in_d2 in I. destruct I as [[I L]|I].
    - split; [exists it; auto|]. destruct (thid x) eqn:Hx; [|reflexivity]. exfalso. exact (proj1 (kept_off it x I L Hx) R).
    - apply new_wire in I. destruct I as (t & v & w & s & _ & _ & _ & Ep). rewrite Ep in R. now apply const_reads in R.
  Qed.
  Lemma d2_assigns : forall x, h_kind H x = KVar -> d_assigns x d' -> d_assigns x d /\ thid x = false.
  Proof.
    intros x K (it & I & A). apply in_d2 in I. destruct I as [[I L]|I].
    - split; [exists it; auto|]. destruct (thid x) eqn:Hx; [|reflexivity]. exfalso. apply (proj2 (kept_off it x I L Hx)). now left.
    - exfalso. apply new_wire in I. destruct I as (t & v & w & s & It & _ & _ & Ep). rewrite Ep in A.
      assert (x = t_port t) as -> by (eapply const_touches; left; exact A). exact (tf_port _ (tie_facts t It) K).
  Qed.
  Lemma stay_item : forall it x, In it d -> h_kind H x = KVar -> thid x = false -> reads x (body_of (i_proc it)) \/ assigns x (body_of (i_proc it)) -> In it d'.
  Proof.
    intros it x I K Hx RA. apply in_d2. left. split; [exact I|]. destruct (loose g ts it) eqn:L; [|reflexivity]. exfalso. apply (loose_spec it I) in L. destruct L as (t & It & J).
    pose proof (tie_facts t It) as F. destruct F as [_ Kp _ (_ & _ & v & w & s & _ & _ & S2) (_ & _ & S4) _ _ _].
    assert (x <> t_var t) as Nx by (intros ->; rewrite (proj2 (thid_in _)) in Hx; [discriminate|eauto]). assert (x <> t_port t) as Np by (intros ->; contradiction).
    destruct J as [-> | ->]; [rewrite S4 in RA|rewrite S2 in RA]; destruct RA as [Q|Q].
    - apply wire_reads in Q. contradiction.
    - apply Np. eapply wire_touches. left. exact Q.
    - now apply const_reads in Q.
    - apply Nx. eapply const_touches. left. exact Q.
  Qed.
  Lemma only_back : forall (P : stmt -> Prop) x it s, h_kind H x = KVar -> thid x = false ->
    (forall it s, inside s (body_of (i_proc it)) -> P s -> reads x (body_of (i_proc it)) \/ assigns x (body_of (i_proc it))) ->
    (only P d' it s -> only P d it s).
  Proof.
    intros P x it s K Hx HP (I & Is & Ps & U). assert (In it d) as Id.
    { apply in_d2 in I. destruct I as [[I _]|I]; [exact I|]. exfalso. apply new_wire in I. destruct I as (t & v & w & s0 & It & _ & _ & Ep).
      destruct (HP it s Is Ps) as [Q|Q]; rewrite Ep in Q; [now apply const_reads in Q|]. assert (x = t_port t) as -> by (eapply const_touches; left; exact Q). exact (tf_port _ (tie_facts t It) K). }
    split; [exact Id|]. split; [exact Is|]. split; [exact Ps|]. intros it' s' I' Is' Ps'. apply U; auto. eapply stay_item; eauto.
  Qed.
  Lemma only_fwd : forall (P : stmt -> Prop) x it s, h_kind H x = KVar -> thid x = false ->
    (forall it s, inside s (body_of (i_proc it)) -> P s -> reads x (body_of (i_proc it)) \/ assigns x (body_of (i_proc it))) ->
    (only P d it s -> only P d' it s).
  Proof.
    intros P x it s K Hx HP (I & Is & Ps & U). split; [eapply stay_item; eauto|]. split; [exact Is|]. split; [exact Ps|]. intros it' s' I' Is' Ps'. apply U; auto.
    apply in_d2 in I'. destruct I' as [[I' _]|I']; [exact I'|]. exfalso. apply new_wire in I'. destruct I' as (t & v & w & s0 & It & _ & _ & Ep).
    destruct (HP it' s' Is' Ps') as [Q|Q]; rewrite Ep in Q; [now apply const_reads in Q|]. assert (x = t_port t) as -> by (eapply const_touches; left; exact Q). exact (tf_port _ (tie_facts t It) K).
  Qed.
  Lemma reads_use : forall x it s, inside s (body_of (i_proc it)) -> reads_stmt x s -> reads x (body_of (i_proc it)) \/ assigns x (body_of (i_proc it)).
  Proof. intros x it s I R. left. exists s. auto. Qed.
  Lemma writes_use : forall x it s, inside s (body_of (i_proc it)) -> writes_stmt x s -> reads x (body_of (i_proc it)) \/ assigns x (body_of (i_proc it)).
  Proof. intros x it s I (k & l & e & -> & E). right. exists k, l, e. auto. Qed.
  Lemma tie_good_next : tie_good G H d'.
  Proof.
    constructor.
    - unfold d', tie_gen. fold ts. rewrite map_app. assert (forall a b : list nat, NoDup a -> NoDup b -> (forall x, In x a -> ~ In x b) -> NoDup (a ++ b)) as App.
      { intros a b Na Nb Dj. induction Na as [|x a Nx _ IH]; [exact Nb|]. cbn. constructor; [|apply IH; intros y Iy; apply Dj; now right]. rewrite in_app_iff. intros [C|C]; [contradiction|]. apply (Dj x); [now left|exact C]. }
      apply App.
      + pose proof (ti_ids _ _ _ TG) as N. revert N. generalize (loose g ts). intros f. clear. induction d as [|it r IH]; intros N; [constructor|]. cbn in *. inversion N as [|? ? N1 N2]; subst.
        destruct (negb (f it)); [|now apply IH]. cbn. constructor; [|now apply IH]. intros I. apply N1. apply in_map_iff in I. destruct I as (q & <- & I). apply in_map. now apply filter_In in I.
      + apply tie_wires_nodup.
      + intros x Ia Ib. apply in_map_iff in Ia. destruct Ia as (ia & <- & Ia). apply in_map_iff in Ib. destruct Ib as (ib & Eb & Ib). apply filter_In in Ia as [Ia _].
        apply fresh_above in Ia. apply tie_wires_in in Ib. lia.
    - apply (ti_vars _ _ _ TG).
    - intros g' x p (Ix & Kp & Pp & (i1 & k1 & l1 & v & w & s & O1) & (i2 & k2 & e2 & O2)). assert (h_kind H x = KVar) as K by apply (ti_vars _ _ _ TG g' x Ix).
      assert (thid x = false) as Hx. { apply (d2_reads x). destruct O2 as (I2 & Is2 & R2 & _). exists i2. split; [exact I2|]. exists (SAssign k2 (LVar p) e2). auto. }
      assert (tied H d g' x p) as Td.
      { split; [exact Ix|]. split; [exact Kp|]. split; [exact Pp|]. split; [exists i1, k1, l1, v, w, s; eapply only_back; eauto; apply writes_use|exists i2, k2, e2; eapply only_back; eauto; apply reads_use]. }
      destruct (ti_plain _ _ _ TG g' x p Td) as (A & B & C & D & E). split; [exact A|]. split; [|split; [|split]].
      + intros (it & e0 & I & Ie & Ex). apply in_d2 in I. destruct I as [[I _]|I]; [apply B; exists it, e0; auto|]. apply new_wire in I. destruct I as (t & ? & ? & ? & _ & _ & _ & Ep). rewrite Ep in Ie. destruct Ie.
      + intros it I Lo. apply in_d2 in I. destruct I as [[I _]|I]; [exact (C it I Lo)|]. apply new_wire in I. destruct I as (t & ? & ? & ? & It & _ & _ & Ep). rewrite Ep in Lo.
        assert (x = t_port t) as -> by (eapply const_touches; right; exact Lo). exact (tf_port _ (tie_facts t It) K).
      + intros it k l v0 w0 s0 O. apply (D it k l). eapply only_back; eauto. apply writes_use.
      + intros it k e0 O. apply (E it k e0). eapply only_back; eauto. apply reads_use.
  Qed.
End Gen.

Record tsame (G : tenv) (H : hierarchy) (d d' : design) : Prop := {
  tsm_good : tie_good G H d';
  tsm_fwd : forall h, Forall (in_range G) h -> history G d h -> history G d' h;
  tsm_bwd : forall h', Forall (in_range G) h' -> history G d' h' ->
    exists h, Forall (in_range G) h /\ history G d h /\ Forall2 (agree (fun x => ~ untied H d d' x)) h h';
  tsm_reads : forall x, d_reads x d' -> d_reads x d;
  tsm_assigns : forall x, h_kind H x = KVar -> d_assigns x d' -> d_assigns x d }.
Lemma tsame_refl : forall G H d, tie_good G H d -> tsame G H d d.
Proof.
  intros G H d TG. constructor; auto. intros h F Hh. exists h. split; [exact F|]. split; [exact Hh|]. clear. induction h; constructor; auto. intros x _. reflexivity.
Qed.
Lemma tsame_trans : forall G H a b c, tsame G H a b -> tsame G H b c -> tsame G H a c.
Proof.
  intros G H a b c A B. constructor.
  - apply (tsm_good _ _ _ _ B).
  - intros h F Hh. apply (tsm_fwd _ _ _ _ B); auto. now apply (tsm_fwd _ _ _ _ A).
  - intros h2 F2 H2. destruct (tsm_bwd _ _ _ _ B h2 F2 H2) as (h1 & F1 & H1 & A1). destruct (tsm_bwd _ _ _ _ A h1 F1 H1) as (h0 & F0 & H0 & A0).
    exists h0. split; [exact F0|]. split; [exact H0|]. clear - A B A0 A1. revert h2 A1. induction A0 as [|r0 r1 t0 t1 E0 _ IH]; intros h2 A1; inversion A1 as [|? r2 ? t2 E1 A1']; subst; constructor; auto.
    intros x N. rewrite E0, E1; [reflexivity| |].
    + intros (K & R & Nr & Na). apply N. split; [exact K|]. split; [now apply (tsm_reads _ _ _ _ A)|]. auto.
    + intros (K & R & Nr & Na). apply N. split; [exact K|]. split; [exact R|]. split; [intros R2; apply Nr; now apply (tsm_reads _ _ _ _ B)|intros R2; apply Na; now apply (tsm_assigns _ _ _ _ B)].
  - intros x Hx. apply (tsm_reads _ _ _ _ A), (tsm_reads _ _ _ _ B), Hx.
  - intros x K Hx. apply (tsm_assigns _ _ _ _ A _ K), (tsm_assigns _ _ _ _ B _ K), Hx.
Qed.
Lemma tie_gen_same : forall G H d g, tie_good G H d -> tsame G H d (tie_gen H d g).
Proof.
  intros G H d g TG. constructor.
  - now apply tie_good_next.
  - intros h F Hh. now apply (thistory_fwd G H d g TG).
  - intros h' F Hh. exists (map (tlift G H d g) h'). split; [apply Forall_map; eapply Forall_impl; [|exact F]; intros r Hr; now apply tlift_range|].
    split; [now apply thistory_bwd|]. clear Hh F. induction h' as [|r t IH]; constructor; [|exact IH]. intros x N. apply tlift_off.
    destruct (thid H d g x) eqn:Hx; [|reflexivity]. exfalso. apply N. pose proof (thid_kind G H d g TG x Hx) as K. split; [exact K|]. split; [|split].
    + apply thid_in in Hx. destruct Hx as (t0 & It & <-). destruct (tf_sink _ _ _ _ _ (tie_facts G H d g TG t0 It)) as (A & _ & B). exists (t_sink t0). split; [exact A|]. rewrite B. apply (wire_here (t_var t0) (t_port t0)).
    + intros R. apply (d2_reads G H d g TG) in R. destruct R. congruence.
    + intros R. apply (d2_assigns G H d g TG x K) in R. destruct R. congruence.
  - intros x R. apply (d2_reads G H d g TG x R).
  - intros x K R. apply (d2_assigns G H d g TG x K R).
Qed.
Lemma merge_same : forall G H gs d, tie_good G H d -> tsame G H d (fold_left (tie_gen H) gs d).
Proof.
  intros G H. induction gs as [|g gs IH]; intros d TG; cbn [fold_left]; [now apply tsame_refl|].
  pose proof (tie_gen_same G H d g TG) as S1. eapply tsame_trans; [exact S1|]. apply IH. apply (tsm_good _ _ _ _ S1).
Qed.

(* every tied variable is found *)
Lemma statements_wire : forall f (P : stmt -> Prop) d it l e, (forall s, f s = true <-> P s) -> NoDup (map i_id d) -> i_proc it = PWire l e ->
  only P d it (SAssign Blocking l e) -> statements f d = [(it, SAssign Blocking l e)].
Proof.
  intros f P d it l e FP N Ep (I & _ & Pe & U). apply in_split in I. destruct I as (a & b & ->).
  assert (forall m, (forall q, In q m -> In q (a ++ it :: b) /\ q <> it) -> statements f m = []) as K.
  { intros m Hm. destruct (statements f m) as [|[q s] r] eqn:E; [reflexivity|]. exfalso.
    assert (In (q, s) (statements f m)) as J by (rewrite E; now left). apply statements_in in J as (Iq & Is & F). destruct (Hm q Iq) as [Iq2 Nq]. apply Nq.
    apply (U q s Iq2 Is). now apply FP. }
  rewrite map_app in N. cbn in N. apply NoDup_remove_2 in N. rewrite in_app_iff in N.
  assert (statements f (a ++ it :: b) = statements f a ++ statements f [it] ++ statements f b) as ->.
  { change (it :: b) with ([it] ++ b). unfold statements. now rewrite !flat_map_app. }
  rewrite (K a), (K b).
  - unfold statements. cbn [flat_map]. rewrite Ep. cbn. rewrite (proj2 (FP _) Pe). reflexivity.
  - intros q Iq. split; [apply in_or_app; right; now right|]. intros ->. apply N. right. now apply in_map.
  - intros q Iq. split; [apply in_or_app; now left|]. intros ->. apply N. left. now apply in_map.
Qed.
Lemma tied_found : forall G H d g x p it k l v w s, tie_good G H d -> tied H d g x p -> only (writes_stmt x) d it (SAssign k l (EConst v w s)) ->
  exists t, In t (ties H d g) /\ t_var t = x /\ t_port t = p /\ t_const t = EConst v w s.
Proof.
  intros G H d g x p i1 k1 l1 v w s TG Td O1. destruct (ti_plain _ _ _ TG g x p Td) as (Ty & Ev & Lo & Src & Snk). destruct (Src _ _ _ _ _ _ O1) as (A1 & A2 & A3).
  destruct Td as (Ix & Kp & Pp & _ & (i2 & k2 & e2 & O2)). destruct (Snk _ _ _ O2) as (B1 & B2).
  assert (SAssign k1 l1 (EConst v w s) = SAssign Blocking (LVar x) (EConst v w s)) as X1.
  { destruct O1 as (_ & Is & _). rewrite A2 in Is. apply inside_subs in Is. cbn in Is. destruct Is as [Is|[]]. now symmetry. }
  assert (SAssign k2 (LVar p) e2 = SAssign Blocking (LVar p) (EVar x)) as X2.
  { destruct O2 as (_ & Is & _). rewrite B2 in Is. apply inside_subs in Is. cbn in Is. destruct Is as [Is|[]]. now symmetry. }
  rewrite X1 in O1. rewrite X2 in O2.
  assert (sources_of d x = [(i1, SAssign Blocking (LVar x) (EConst v w s))]) as S1.
  { eapply statements_wire; [apply assigns_to_spec|apply (ti_ids _ _ _ TG)|exact A2|exact O1]. }
  assert (sinks_of d x = [(i2, SAssign Blocking (LVar p) (EVar x))]) as S2.
  { eapply statements_wire; [|apply (ti_ids _ _ _ TG)|exact B2|exact O2]. intros q. rewrite mem_In. apply reads_sinks. }
  exists {| t_var := x; t_port := p; t_const := EConst v w s; t_source := i1; t_sink := i2 |}. cbn. split; [|auto].
  unfold ties. apply in_flat_map. exists x. split; [exact Ix|]. unfold tie_of. rewrite (proj2 (ti_vars _ _ _ TG g x Ix)), S1, S2, Pp, Nat.eqb_refl.
  destruct (h_kind H p); [contradiction|now left|now left].
Qed.
Lemma tied_back : forall G H d g, tie_good G H d -> forall g' x p, tied H (tie_gen H d g) g' x p -> tied H d g' x p /\ thid H d g x = false.
Proof.
  intros G H d g TG g' x p (Ix & Kp & Pp & (i1 & k1 & l1 & v & w & s & O1) & (i2 & k2 & e2 & O2)). assert (h_kind H x = KVar) as K by apply (ti_vars _ _ _ TG g' x Ix).
  assert (thid H d g x = false) as Hx. { apply (d2_reads G H d g TG x). destruct O2 as (I2 & Is2 & R2 & _). exists i2. split; [exact I2|]. exists (SAssign k2 (LVar p) e2). auto. }
  split; [|exact Hx]. split; [exact Ix|]. split; [exact Kp|]. split; [exact Pp|].
  split; [exists i1, k1, l1, v, w, s; eapply only_back; eauto; apply writes_use|exists i2, k2, e2; eapply only_back; eauto; apply reads_use].
Qed.
Lemma tied_none : forall G H gs d, tie_good G H d -> forall g x p, In g gs -> ~ tied H (fold_left (tie_gen H) gs d) g x p.
Proof.
  intros G H gs. induction gs as [|g0 gs IH]; intros d TG g x p Ig Td; [destruct Ig|]. cbn [fold_left] in Td. pose proof (tie_good_next G H d g0 TG) as TG1.
  destruct Ig as [->|Ig]; [|exact (IH _ TG1 g x p Ig Td)].
  assert (tied H (tie_gen H d g) g x p) as T1.
  { clear IH. revert TG1 Td. generalize (tie_gen H d g). induction gs as [|g1 gs IH]; intros d1 TG1 Td; [exact Td|]. cbn [fold_left] in Td.
    apply (tied_back G H d1 g1 TG1). apply IH; [now apply tie_good_next|exact Td]. }
  destruct (tied_back G H d g TG g x p T1) as [T0 Hx]. pose proof T0 as (_ & _ & _ & (i1 & k1 & l1 & v & w & s & O1) & _).
  destruct (tied_found G H d g x p i1 k1 l1 v w s TG T0 O1) as (t & It & Et & _). assert (thid H d g x = true) as Hy by (apply thid_in; eauto). congruence.
Qed.
Lemma no_ties : forall G H d g, tie_good G H d -> (forall x p, ~ tied H d g x p) -> ties H d g = [].
Proof.
  intros G H d g TG N. destruct (ties H d g) as [|t r] eqn:E; [reflexivity|]. exfalso. assert (In t (ties H d g)) as I by (rewrite E; now left). unfold ties in I.
  apply in_flat_map in I. destruct I as (x & Ix & I). clear E r. unfold tie_of in I. destruct (h_kind H x) eqn:K; [|destruct I|destruct I].
  destruct (sources_of d x) as [|[i1 [k1 l1 [|v w s| | | | | |]| | | | | | |]] [|? ?]] eqn:S1; try (destruct I).
  destruct (sinks_of d x) as [|[i2 [k2 [p| |] e2| | | | | | |]] [|? ?]] eqn:S2; try (destruct I).
  assert (h_kind H p <> KVar /\ h_parent H (h_owner H p) = Some g) as (Kp & Pp).
  { destruct (h_kind H p) eqn:Kp; [destruct I| |]; (destruct (h_parent H (h_owner H p)) as [q|]; [|destruct I]); (destruct (Nat.eqb_spec q g) as [Eq0|]; [|destruct I]); split; congruence. }
  apply (statements_one _ (writes_stmt x)) in S1; [|apply assigns_to_spec].
  apply (statements_one _ (reads_stmt x)) in S2; [|intros q; rewrite mem_In; apply reads_sinks].
  apply (N x p). split; [exact Ix|]. split; [exact Kp|]. split; [exact Pp|]. split; [do 6 eexists; exact S1|do 3 eexists; exact S2].
Qed.
Lemma merge_again : forall G H gs d, tie_good G H d -> (forall g x p, In g gs -> ~ tied H d g x p) -> fold_left (tie_gen H) gs d = d.
Proof.
  intros G H gs d TG N. induction gs as [|g gs IH]; [reflexivity|]. cbn [fold_left].
  assert (tie_gen H d g = d) as ->; [|apply IH; intros; apply N; now right].
  unfold tie_gen. rewrite (no_ties G) by (auto; intros; apply N; now left). cbn. rewrite app_nil_r. assert (forall it, negb (loose g [] it) = true) as K by (intros it; unfold loose; cbn; now rewrite andb_false_r).
  clear - K. induction d as [|it r IH]; [reflexivity|]. cbn. rewrite K. now rewrite IH.
Qed.
(* the port gets the constant and keeps it *)
Lemma const_wire_stays : forall G H gs d it p v w s, tie_good G H d -> In it d -> i_proc it = PWire (LVar p) (EConst v w s) -> h_kind H p <> KVar -> In it (fold_left (tie_gen H) gs d).
Proof.
  intros G H gs. induction gs as [|g gs IH]; intros d it p v w s TG I Ep K; [exact I|]. cbn [fold_left]. eapply IH; eauto; [now apply tie_good_next|].
  apply in_d2. left. split; [exact I|]. destruct (loose g (ties H d g) it) eqn:L; [|reflexivity]. exfalso. apply (loose_spec G H d g TG it I) in L. destruct L as (t & It & J).
  destruct (tie_facts G H d g TG t It) as [Tv _ _ (_ & _ & v0 & w0 & s0 & _ & _ & S2) (_ & _ & S4) _ _ _]. destruct J as [-> | ->]; [congruence|].
  rewrite Ep in S2. injection S2 as -> _ _ _. apply K. apply (ti_vars _ _ _ TG g _ Tv).
Qed.
Lemma tied_fwd : forall G H d g, tie_good G H d -> forall g' x p, g' <> g -> tied H d g' x p -> tied H (tie_gen H d g) g' x p /\
  (forall it k l v w s, only (writes_stmt x) d it (SAssign k l (EConst v w s)) -> only (writes_stmt x) (tie_gen H d g) it (SAssign k l (EConst v w s))).
Proof.
  intros G H d g TG g' x p Ng (Ix & Kp & Pp & (i1 & k1 & l1 & v & w & s & O1) & (i2 & k2 & e2 & O2)). destruct (ti_vars _ _ _ TG g' x Ix) as [Ow K].
  assert (thid H d g x = false) as Hx. { destruct (thid H d g x) eqn:Hx; [|reflexivity]. exfalso. apply thid_in in Hx. destruct Hx as (t & It & Et). pose proof (tf_var _ _ _ _ _ (tie_facts G H d g TG t It)) as Tv. rewrite Et in Tv. apply Ng. rewrite <- Ow. apply (ti_vars _ _ _ TG g x Tv). }
  assert (forall it k l v w s, only (writes_stmt x) d it (SAssign k l (EConst v w s)) -> only (writes_stmt x) (tie_gen H d g) it (SAssign k l (EConst v w s))) as Q
    by (intros; eapply only_fwd; eauto; apply writes_use).
  split; [|exact Q]. split; [exact Ix|]. split; [exact Kp|]. split; [exact Pp|]. split; [exists i1, k1, l1, v, w, s; now apply Q|exists i2, k2, e2; eapply only_fwd; eauto; apply reads_use].
Qed.
Lemma tied_const : forall G H gs d g x p it k l v w s, tie_good G H d -> In g gs -> tied H d g x p -> only (writes_stmt x) d it (SAssign k l (EConst v w s)) ->
  let d' := fold_left (tie_gen H) gs d in
  ~ d_reads x d' /\ ~ d_assigns x d' /\ exists it', In it' d' /\ i_gen it' = g /\ i_proc it' = PWire (LVar p) (EConst v w s).
Proof.
  intros G H gs. induction gs as [|g0 gs IH]; intros d g x p it k l v w s TG Ig Td O; [destruct Ig|]. cbn [fold_left]. pose proof (tie_good_next G H d g0 TG) as TG1.
  destruct (Nat.eq_dec g g0) as [<-|Ng].
  - destruct (tied_found G H d g x p it k l v w s TG Td O) as (t & It & <- & <- & Ec). assert (thid H d g (t_var t) = true) as Hx by (apply thid_in; eauto).
    pose proof (merge_same G H gs _ TG1) as S1. assert (h_kind H (t_var t) = KVar) as K by now apply (thid_kind G H d g TG).
    split; [|split].
    + intros R. apply (tsm_reads _ _ _ _ S1) in R. apply (d2_reads G H d g TG) in R. destruct R. congruence.
    + intros R. apply (tsm_assigns _ _ _ _ S1 _ K) in R. apply (d2_assigns G H d g TG _ K) in R. destruct R. congruence.
    + destruct (tie_wires_has g (ties H d g) (fresh d) t It) as (i2 & I2 & E2). exists i2. split; [|split].
      * eapply const_wire_stays; [exact TG1|apply in_d2; right; exact I2|rewrite Ec in E2; exact E2|apply (tf_port _ _ _ _ _ (tie_facts G H d g TG t It))].
      * now apply tie_wires_in in I2.
      * now rewrite E2, Ec.
  - destruct Ig as [->|Ig]; [congruence|]. destruct (tied_fwd G H d g0 TG g x p Ng Td) as [T1 Q]. eapply IH; eauto.
Qed.
