From Verif Require Import Base SV_spec IR IRSem_spec IR_lemmas IfCase_proofs IR_frame Flow_spec Flow_proofs Design_spec Design_proofs Dce_spec Dce_model Dce_proofs
  Fan_spec Fan_model Retarget_proofs Fan_proofs Tie_model Tie_proofs Move_spec Move_model Move_proofs Move_props Pass_spec Pass_proofs Inline_spec Inline_model.
Local Open Scope Z_scope.
Notation body it := (body_of (i_proc it)).

(* ---- processes that do the same in the states P ---- *)
Record like (G : tenv) (P : venv -> Prop) (it it' : item) : Prop := {
  lk_none : events_of (i_proc it') = [] <-> events_of (i_proc it) = [];
  lk_edge : forall r r', P r -> P r' -> existsb (edge G r r') (events_of (i_proc it')) = existsb (edge G r r') (events_of (i_proc it));
  lk_assigns : forall x, assigns x (body it') <-> assigns x (body it);
  lk_run : forall r, P r -> run G (body it') (start_state r) = run G (body it) (start_state r) }.
Section Like.
  Variables (G : tenv) (P : venv -> Prop) (F : item -> item) (d : design).
  Hypothesis HA : forall it, In it d -> like G P it (F it).
  Lemma like_settled : forall r, P r -> settled G d r <-> settled G (map F d) r.
  Proof.
    intros r Q. split; intros S0 it I E x.
    - apply in_map_iff in I. destruct I as (it0 & <- & I). unfold activate. rewrite (lk_run _ _ _ _ (HA it0 I) r Q). apply (S0 it0 I). now apply (lk_none _ _ _ _ (HA it0 I)).
    - unfold activate. rewrite <- (lk_run _ _ _ _ (HA it I) r Q). apply (S0 (F it)); [now apply in_map|]. now apply (lk_none _ _ _ _ (HA it I)).
  Qed.
  Lemma like_queue : forall r r', P r -> P r' -> flat_map (fun it => queued G it r) (fired G (map F d) r r') = flat_map (fun it => queued G it r) (fired G d r r').
  Proof.
    intros r r' Q Q'. unfold fired. clear - HA Q Q'. induction d as [|it l IH]; [reflexivity|]. cbn [map filter]. rewrite (lk_edge _ _ _ _ (HA it (or_introl eq_refl)) r r' Q Q').
    specialize (IH (fun it' I => HA it' (or_intror I))). destruct (existsb _ (events_of (i_proc it))); [|exact IH]. cbn [flat_map]. rewrite IH. f_equal. unfold queued.
    now rewrite (lk_run _ _ _ _ (HA it (or_introl eq_refl)) r Q).
  Qed.
  Lemma like_clocked : forall x, clocked (map F d) x <-> clocked d x.
  Proof.
    intros x. split.
    - intros (it & I & E & As). apply in_map_iff in I. destruct I as (it0 & <- & I). exists it0. split; [exact I|]. split; [intros X; apply E; now apply (lk_none _ _ _ _ (HA it0 I))|now apply (lk_assigns _ _ _ _ (HA it0 I))].
    - intros (it & I & E & As). exists (F it). split; [now apply in_map|]. split; [intros X; apply E; now apply (lk_none _ _ _ _ (HA it I))|now apply (lk_assigns _ _ _ _ (HA it I))].
  Qed.
  Lemma like_next : forall r r', P r -> P r' -> next G d r r' <-> next G (map F d) r r'.
  Proof.
    intros r r' Q Q'. unfold next. rewrite (like_settled r' Q'), (like_queue r r' Q Q'). apply and_iff_compat_l. split; intros N x C; apply N; now apply like_clocked.
  Qed.
  Lemma like_history : forall h, Forall P h -> history G d h <-> history G (map F d) h.
  Proof.
    intros h Q. split; intros Hh.
    - induction Hh as [r S0|r r' l Hh IH N]; inversion Q as [|? ? Q1 Q2]; subst; [apply h_first; now apply like_settled|]. inversion Q2; subst. apply h_next; [now apply IH|]. now apply like_next.
    - induction Hh as [r S0|r r' l Hh IH N]; inversion Q as [|? ? Q1 Q2]; subst; [apply h_first; now apply like_settled|]. inversion Q2; subst. apply h_next; [now apply IH|]. now apply like_next.
  Qed.
End Like.

Lemma touches_dec : forall x l, touches x l \/ ~ touches x l.
Proof.
  intros x l. destruct (in_dec Nat.eq_dec x (collect_body (fun s => match s with SAssign _ l _ => [lhs_var l] | SFor i _ _ _ _ => [i] | _ => [] end) l)) as [I|N].
  - left. apply collect_in in I. destruct I as (s & I & J). destruct s; try (destruct J; fail); destruct J as [<-|[]]; [left|right]; do 4 eexists; eauto.
  - right. intros [(k & lh & e & I & V)|(a & b & st & bd & I)]; apply N; apply collect_in; eexists; (split; [exact I|]); left; auto.
Qed.
(* ---- an output goes to its signal ---- *)
Section Out.
  Variables (G : tenv) (d : design) (g : nat) (q y : var).
  Hypothesis Hqy : q <> y.
  Hypothesis HG : G q = G y.
  Hypothesis Hq : forall it, In it d -> (touches q (body it) -> ~ reads q (body it)) /\ ~ touches y (body it) /\ (touches q (body it) -> i_gen it = g) /\ ~ loops_over q (body it).
  Hypothesis Ho : forall it, In it d -> reads y (body it) -> ~ changes_now q (body it).
  Notation ts := (to_stmt q y).
  Notation st := (to_in g q y).
  Lemma out_body : forall it, i_gen it = g -> body (st it) = map ts (body it).
  Proof using. clear. intros it E. unfold to_in. rewrite E, Nat.eqb_refl. apply to_body. Qed.
  Lemma out_else : forall it, i_gen it <> g -> st it = it.
  Proof using. clear. intros it E. unfold to_in. destruct (Nat.eqb_spec (i_gen it) g); [contradiction|reflexivity]. Qed.
  Lemma out_events : forall it, events_of (i_proc (st it)) = events_of (i_proc it).
  Proof using. clear. intros it. unfold to_in. destruct (Nat.eqb (i_gen it) g); [apply to_events|reflexivity]. Qed.
  Lemma out_same : forall it, ~ touches q (body it) -> body (st it) = body it.
  Proof using. clear. intros it N. destruct (Nat.eq_dec (i_gen it) g) as [E|E]; [|now rewrite (out_else it E)]. rewrite (out_body it E). apply to_same. intros X. apply N. now left. Qed.
  Lemma out_fit : forall it, In it d -> touches q (body it) -> forall s, inside s (body it) -> fit q y (~ changes_now q (body it)) s.
  Proof using Hqy Hq Ho.
    intros it I Tt s Is. destruct (Hq it I) as (Rq & Ty & Tq & Lq). specialize (Rq Tt).
    assert (forall x, reads_stmt x s -> x <> q /\ (x = y -> ~ changes_now q (body it))) as K.
    { intros x R. split; [intros ->; apply Rq; exists s; auto|]. intros ->. apply Ho; [exact I|]. exists s; auto. }
    unfold fit, may_read. destruct s as [k l e|c0 t f|e cs dd|v a b sp bd|bd|e| |k]; auto; try (intros x J; apply K; now constructor).
    - split; [intros x J; apply K; constructor; auto|]. split; [intros x J; apply K; constructor; auto|]. split.
      + intros X. apply Ty. left. exists k, l, e. auto.
      + intros N V. assert (k = NonBlocking \/ k <> NonBlocking) as [X|X] by (destruct k; [right|left|right]; congruence); [exact X|]. exfalso. apply N. left. exists k, l, e. auto.
    - split; intros ->; [apply Lq|apply Ty; right]; do 4 eexists; exact Is.
  Qed.
  Notation lv r := (r q = r y).
  Lemma out_still : forall it r, In it d -> lv r -> (forall x, activate G (body it) r x = r x) <-> (forall x, activate G (body (st it)) r x = r x).
  Proof using Hqy HG Hq Ho.
    intros it r I Q. destruct (touches_dec q (body it)) as [Tt|Nt]; [|rewrite (out_same it Nt); reflexivity].
    pose proof (proj1 (proj2 (proj2 (Hq it I))) Tt) as Eg. rewrite (out_body it Eg).
    destruct (to_activate G q y (r q) _ Hqy HG (body it) r eq_refl (eq_sym Q) (out_fit it I Tt)) as (A & B & C & D).
    split; intros S0 x.
    - destruct (Nat.eq_dec x q) as [->|Ni]; [exact D|]. destruct (Nat.eq_dec x y) as [->|Nn]; [rewrite B, S0; exact Q|]. now rewrite A.
    - destruct (Nat.eq_dec x q) as [->|Ni]; [rewrite <- B, S0; now symmetry|]. destruct (Nat.eq_dec x y) as [->|Nn]; [now rewrite C|]. now rewrite <- A.
  Qed.
  Lemma out_settled : forall r, lv r -> settled G d r <-> settled G (map st d) r.
  Proof using Hqy HG Hq Ho.
    intros r Q. split; intros S0 it I E.
    - apply in_map_iff in I. destruct I as (it0 & <- & I). rewrite out_events in E. apply (out_still it0 r I Q). exact (S0 it0 I E).
    - pose proof (in_map st _ _ I) as I'. specialize (S0 _ I'). rewrite out_events in S0. apply (out_still it r I Q). exact (S0 E).
  Qed.
  Lemma out_queue : forall r r', lv r ->
    flat_map (fun it => queued G it r) (fired G (map st d) r r') = map (to_write q y) (flat_map (fun it => queued G it r) (fired G d r r')) /\
    Forall (fun u => w_var u <> y) (flat_map (fun it => queued G it r) (fired G d r r')).
  Proof using Hqy HG Hq Ho.
    intros r r' Q. assert (forall it, In it d -> queued G (st it) r = map (to_write q y) (queued G it r) /\ Forall (fun u => w_var u <> y) (queued G it r)) as K.
    { intros it I. destruct (touches_dec q (body it)) as [Tt|Ng].
      - pose proof (proj1 (proj2 (proj2 (Hq it I))) Tt) as Eg. destruct (to_queued G q y (r q) _ Hqy HG it r eq_refl (eq_sym Q) (out_fit it I Tt)) as [A B]. split; [|exact B].
        rewrite <- A. unfold queued. now rewrite (out_body it Eg), to_body.
      - replace (queued G (st it) r) with (queued G it r) by (unfold queued; now rewrite (out_same it Ng)). destruct (Hq it I) as (_ & Ty & Tq & _).
        assert (forall z, ~ touches z (body it) -> Forall (fun u => w_var u <> z) (queued G it r)) as S1.
        { intros z Nz. pose proof (seen_run G (Nat.eqb z) (body it) r) as F. unfold queued. eapply Forall_impl; [|apply F].
          - intros u Hu X. cbn in Hu. apply Nat.eqb_neq in Hu. congruence.
          - intros x Tx. apply Nat.eqb_neq. intros ->. contradiction. }
        split; [|now apply S1]. assert (Forall (fun u => w_var u <> q) (queued G it r)) as F by (now apply S1).
        clear S1. induction F as [|u l Hu _ IH]; [reflexivity|]. cbn [map]. rewrite <- IH. f_equal. unfold to_write. destruct (Nat.eqb_spec (w_var u) q); [contradiction|now destruct u]. }
    unfold fired. clear Hq Ho. induction d as [|it l IH]; [split; [reflexivity|constructor]|]. cbn [map filter]. rewrite out_events.
    destruct (IH (fun it' I => K it' (or_intror I))) as [A B]. destruct (existsb _ (events_of (i_proc it))); [|split; assumption].
    cbn [flat_map]. destruct (K it (or_introl eq_refl)) as [C D]. rewrite C, A, map_app. split; [reflexivity|]. apply Forall_app; split; assumption.
  Qed.
  Lemma out_clocked : forall x, clocked (map st d) x <-> exists z, clocked d z /\ x = tv q y z.
  Proof using Hq.
    intros x. split.
    - intros (it & I & E & As). apply in_map_iff in I. destruct I as (it0 & <- & I). rewrite out_events in E. destruct (Nat.eq_dec (i_gen it0) g) as [Eg|Ng].
      + rewrite (out_body it0 Eg) in As. apply assigns_to_iff in As. destruct As as (z & As & ->). exists z. split; [exists it0; auto|reflexivity].
      + rewrite (out_else it0 Ng) in As. exists x. split; [exists it0; auto|]. unfold tv. destruct (Nat.eqb_spec x q) as [->|]; [|reflexivity]. exfalso. apply Ng. apply (proj1 (proj2 (proj2 (Hq it0 I)))). now left.
    - intros (z & (it & I & E & As) & ->). exists (st it). split; [now apply in_map|]. split; [now rewrite out_events|]. destruct (Nat.eq_dec (i_gen it) g) as [Eg|Ng].
      + rewrite (out_body it Eg). apply assigns_to_iff. exists z. auto.
      + rewrite (out_else it Ng). unfold tv. destruct (Nat.eqb_spec z q) as [->|]; [|exact As]. exfalso. apply Ng. apply (proj1 (proj2 (proj2 (Hq it I)))). now left.
  Qed.
  Lemma out_next : forall r r', lv r -> lv r' -> next G d r r' <-> next G (map st d) r r'.
  Proof using Hqy HG Hq Ho.
    intros r r' Q Q'. unfold next. rewrite (out_settled r' Q'). destruct (out_queue r r' Q) as [-> F].
    destruct (writes_to q y Hqy (flat_map (fun it => queued G it r) (fired G d r r')) r r (fun _ _ _ => eq_refl) (eq_sym Q) F) as (W1 & W2 & W3 & W4).
    apply and_iff_compat_l. split; intros N x C.
    - apply out_clocked in C. destruct C as (z & C & ->). unfold tv. destruct (Nat.eqb_spec z q) as [->|Ny].
      + rewrite W2, <- (N q C). symmetry. exact Q'.
      + destruct (Nat.eq_dec z y) as [->|Nn]; [|rewrite W1 by assumption; now apply N]. exfalso. destruct C as (it & I & _ & As). apply (proj1 (proj2 (Hq it I))). now left.
    - assert (clocked (map st d) (tv q y x)) as C' by (apply out_clocked; exists x; auto). specialize (N _ C'). unfold tv in N. destruct (Nat.eqb_spec x q) as [E0|Nx]; [subst x|].
      + rewrite <- W2, <- N. exact Q'.
      + destruct (Nat.eq_dec x y) as [->|Nn]; [|rewrite <- W1 by assumption; exact N]. exfalso. destruct C as (it & I & _ & As). apply (proj1 (proj2 (Hq it I))). now left.
  Qed.
  Lemma out_history : forall h, Forall (fun r => lv r) h -> history G d h <-> history G (map st d) h.
  Proof using Hqy HG Hq Ho.
    intros h Q. split; intros Hh.
    - induction Hh as [r S0|r r' l Hh IH N]; inversion Q as [|? ? Q1 Q2]; subst; [apply h_first; now apply out_settled|]. inversion Q2; subst. apply h_next; [now apply IH|]. now apply out_next.
    - induction Hh as [r S0|r r' l Hh IH N]; inversion Q as [|? ? Q1 Q2]; subst; [apply h_first; now apply out_settled|]. inversion Q2; subst. apply h_next; [now apply IH|]. now apply out_next.
  Qed.
End Out.

(* ---- an input becomes its signal ---- *)
Section In.
  Variables (G : tenv) (d : design) (g : nat) (a b : var).
  Hypothesis Hab : a <> b.
  Hypothesis HG : G a = G b.
  Hypothesis Hs : forall it, In it d -> reads a (body it) -> steady a b (body it).
  Lemma in_like : forall it, In it d -> like G (fun r => r a = r b) it (move_item a b g it).
  Proof using HG Hs.
    intros it I. unfold move_item. destruct (Nat.eqb (i_gen it) g); [|split; reflexivity]. split; cbn [i_proc].
    - now rewrite move_events.
    - intros. now rewrite move_events.
    - intros x. rewrite move_body. apply ms_assigns.
    - intros r E. rewrite move_body. destruct (reads_dec a (body it)) as [R|N].
      + apply (ms_run a b G HG); [now apply Hs|exact E].
      + now rewrite (ms_none_body a b).
  Qed.
  Lemma in_history : forall h, Forall (fun r => r a = r b) h -> history G d h <-> history G (map (move_item a b g) d) h.
  Proof using HG Hs. intros h. apply like_history. exact in_like. Qed.
End In.

(* ---- tests and events that name a port name its signal instead ---- *)
Section Rn.
  Variables (m : list (var * var)).
  Notation rs := (rn_stmt m).
  Lemma rn_inside : forall s l, inside s (map rs l) -> exists s0, inside s0 l /\ s = rs s0.
  Proof.
    intros s l H. remember (map rs l) as ml eqn:E. revert l E. induction H as [ml I|ml c t f I _ IH|ml c t f I _ IH|ml e cs d k bd I J _ IH|ml e cs bd I _ IH|ml i u v st bd I _ IH|ml bd I _ IH]; intros l ->.
    - apply in_map_iff in I. destruct I as (s0 & <- & I). exists s0. split; [now apply in_here|reflexivity].
    - apply in_map_iff in I. destruct I as (s0 & E & I). destruct s0; try discriminate. cbn in E. injection E as _ <- <-.
      destruct (IH _ eq_refl) as (s1 & I1 & ->). exists s1. split; [|reflexivity]. eapply in_then; eauto.
    - apply in_map_iff in I. destruct I as (s0 & E & I). destruct s0; try discriminate. cbn in E. injection E as _ <- <-.
      destruct (IH _ eq_refl) as (s1 & I1 & ->). exists s1. split; [|reflexivity]. eapply in_else; eauto.
    - apply in_map_iff in I. destruct I as (s0 & E & I). destruct s0 as [| |e0 cs0 d0| | | | |]; try discriminate. cbn in E. injection E as _ <- <-.
      apply in_map_iff in J. destruct J as ([k0 b0] & E & J). cbn in E. injection E as <- <-.
      destruct (IH _ eq_refl) as (s1 & I1 & ->). exists s1. split; [|reflexivity]. eapply in_case; eauto.
    - apply in_map_iff in I. destruct I as (s0 & E & I). destruct s0 as [| |e0 cs0 d0| | | | |]; try discriminate. cbn in E. destruct d0 as [b0|]; [|discriminate].
      injection E as _ <- <-. destruct (IH _ eq_refl) as (s1 & I1 & ->). exists s1. split; [|reflexivity]. eapply in_default; eauto.
    - apply in_map_iff in I. destruct I as (s0 & E & I). destruct s0; try discriminate. cbn in E. injection E as -> -> -> -> <-.
      destruct (IH _ eq_refl) as (s1 & I1 & ->). exists s1. split; [|reflexivity]. eapply in_for; eauto.
    - apply in_map_iff in I. destruct I as (s0 & E & I). destruct s0; try discriminate. cbn in E. injection E as <-.
      destruct (IH _ eq_refl) as (s1 & I1 & ->). exists s1. split; [|reflexivity]. eapply in_block; eauto.
  Qed.
  Lemma inside_rn : forall s l, inside s l -> inside (rs s) (map rs l).
  Proof.
    intros s l H. induction H as [l I|l c t f I _ IH|l c t f I _ IH|l e cs d k bd I J _ IH|l e cs bd I _ IH|l i u v st bd I _ IH|l bd I _ IH];
      apply (in_map rs) in I.
    - now apply in_here.
    - eapply in_then; [exact I|exact IH].
    - eapply in_else; [exact I|exact IH].
    - eapply (in_case _ _ _ _ _ k (map rs bd)); [exact I| |exact IH]. apply in_map_iff. exists (k, bd). auto.
    - eapply in_default; [exact I|exact IH].
    - eapply in_for; [exact I|exact IH].
    - eapply in_block; [exact I|exact IH].
  Qed.
  Lemma rn_assign_inv : forall s k l e, rs s = SAssign k l e -> s = SAssign k l e.
  Proof. intros s0 k l0 e0 E. destruct s0; cbn in E; try discriminate. exact E. Qed.
  Lemma rn_assigns : forall x l, assigns x (map rs l) <-> assigns x l.
  Proof.
    intros x l. split; intros (k & lh & e & I & V).
    - apply rn_inside in I. destruct I as (s0 & I & E). symmetry in E. apply rn_assign_inv in E. subst s0. exists k, lh, e. auto.
    - exists k, lh, e. split; [|exact V]. exact (inside_rn _ _ I).
  Qed.
  Lemma rn_loops : forall x l, loops_over x (map rs l) <-> loops_over x l.
  Proof.
    intros x l. split; intros (a & b & st & bd & I).
    - apply rn_inside in I. destruct I as (s0 & I & E). destruct s0; try discriminate. cbn in E. injection E as <- <- <- <- _. do 4 eexists. exact I.
    - exists a, b, st, (map rs bd). exact (inside_rn _ _ I).
  Qed.
  Lemma rn_touches : forall x l, touches x (map rs l) <-> touches x l.
  Proof. intros x l. unfold touches. rewrite rn_assigns. pose proof (rn_loops x l). unfold loops_over in *. tauto. Qed.
  Lemma rn_changes : forall x l, changes_now x (map rs l) <-> changes_now x l.
  Proof.
    intros x l. pose proof (rn_loops x l) as L. unfold loops_over in L. unfold changes_now. split; (intros [(k & lh & e & I & N & V)|X]; [left|right; now apply L]).
    - apply rn_inside in I. destruct I as (s0 & I & E). symmetry in E. apply rn_assign_inv in E. subst s0. exists k, lh, e. auto.
    - exists k, lh, e. split; [|auto]. exact (inside_rn _ _ I).
  Qed.
  Lemma rn_test_reads : forall x e, In x (evars (rn_test m e)) -> In x (evars e) /\ (e = EVar x -> look m x = x) \/ exists p, e = EVar p /\ x = look m p.
  Proof. intros x e I. destruct e as [v| | | | | | |]; try (left; split; [exact I|discriminate]). cbn in I. destruct I as [<-|[]]. right. eauto. Qed.
  Lemma rn_reads : forall x s, reads_stmt x (rs s) -> (reads_stmt x s /\ ~ plain_test x s) \/ exists p, plain_test p s /\ x = look m p.
  Proof.
    intros x s R. destruct s as [k l e|c t f|e cs dd|v a b st bd|bd|e| |k]; cbn [rn_stmt] in R; try (left; split; [exact R|intros []]); try (inversion R; fail).
    - inversion R as [|? ? ? I| |]; subst. destruct c as [v| | | | | | |]; try (left; split; [now constructor|discriminate]). cbn in I. destruct I as [<-|[]]. right. exists v. split; reflexivity.
    - inversion R as [| |? ? ? I|]; subst. destruct e as [v| | | | | | |]; try (left; split; [now constructor|discriminate]). cbn in I. destruct I as [<-|[]]. right. exists v. split; reflexivity.
  Qed.
  Variables (G : tenv) (T : var -> Prop).
  Hypothesis HT : forall x, T x -> G (look m x) = G x.
  Definition eqm (st : pstate) : Prop := forall x, T x -> st_cur st (look m x) = st_cur st x.
  Definition calm (l : list stmt) : Prop :=
    (forall x, T x -> ~ changes_now x l /\ ~ changes_now (look m x) l) /\ (forall s x, inside s l -> plain_test x s -> look m x <> x -> T x).
  Definition QR (s : stmt) : Prop := calm [s] -> forall st, eqm st -> exec G (rs s) st = exec G s st.
  Lemma calm_sub : forall l l', (forall s, inside s l -> inside s l') -> calm l' -> calm l.
  Proof. intros l l' Hi [A B]. split; [|eauto]. intros x Tx. destruct (A x Tx) as [A1 A2]. split; intros X; [apply A1|apply A2]; eapply changes_sub; eauto. Qed.
  Lemma eqm_exec : forall s st, calm [s] -> eqm st -> eqm (exec G s st).
  Proof. intros s st [A _] E x Tx. destruct (A x Tx) as [A1 A2]. rewrite (exec_frame G _ s A2 st), (exec_frame G _ s A1 st). now apply E. Qed.
  Lemma eqm_run : forall l st, calm l -> eqm st -> eqm (run G l st).
  Proof. intros l st [A _] E x Tx. destruct (A x Tx) as [A1 A2]. rewrite (run_frame G _ l A2 st), (run_frame G _ l A1 st). now apply E. Qed.
  Lemma rn_run_aux : forall l, Forall QR l -> calm l -> forall st, eqm st -> run G (map rs l) st = run G l st.
  Proof.
    induction 1 as [|s r Hs _ IH]; intros F st E; [reflexivity|]. cbn [map]. rewrite !run_cons.
    assert (calm [s]) as F1 by (eapply calm_sub; [|exact F]; intros y; apply ins_hd). assert (calm r) as F2 by (eapply calm_sub; [|exact F]; intros y; apply ins_tl).
    rewrite (Hs F1 st E). destruct (st_status (exec G s st)); auto. apply IH; auto. now apply eqm_exec.
  Qed.
  Lemma rn_test_ev : forall st e, eqm st -> (forall x, e = EVar x -> look m x <> x -> T x) -> ev G (st_cur st) (rn_test m e) = ev G (st_cur st) e /\ ewidth G (rn_test m e) = ewidth G e.
  Proof. intros st e E F. destruct e as [v| | | | | | |]; try (split; reflexivity). cbn. destruct (Nat.eq_dec (look m v) v) as [->|Ne]; [auto|]. rewrite (E v (F v eq_refl Ne)), (HT v (F v eq_refl Ne)). auto. Qed.
  Lemma rn_exec : forall s, QR s.
  Proof.
    induction s as [k l e|c t f Ht Hf|e cs d Hcs Hd|i u v sp body Hb|body Hb|e| |k] using stmt_ind'; intros F st E; try reflexivity.
    - cbn [rn_stmt]. rewrite !exec_if. unfold truth. destruct (rn_test_ev st c E) as [-> _]; [intros x ->; apply (proj2 F (SIf (EVar x) t f)); [apply inside_self|reflexivity]|].
      destruct (negb _); apply rn_run_aux; auto; (eapply calm_sub; [|exact F]; intros y Hy); [now apply ins_then|now apply ins_else].
    - cbn [rn_stmt]. rewrite !exec_switch. destruct (rn_test_ev st e E) as [-> ->]; [intros x ->; apply (proj2 F (SSwitch (EVar x) cs d)); [apply inside_self|reflexivity]|].
      assert (forall k l, In (k, l) cs -> calm l) as N1 by (intros k l X; eapply calm_sub; [|exact F]; intros y Hy; eapply ins_case; eauto).
      assert (forall l, d = Some l -> calm l) as N2 by (intros l ->; eapply calm_sub; [|exact F]; intros y Hy; now apply ins_def).
      generalize (ev G (st_cur st) e) (ewidth G e). intros z w. clear F.
      induction Hcs as [|[k l] r Hb Hr IH]; cbn [map fst snd pick].
      + destruct d as [l|]; [|reflexivity]. apply rn_run_aux; [now apply Hd|now apply N2|exact E].
      + destruct (z =? enc w k); [apply rn_run_aux; auto; apply (N1 k); now left|]. apply IH. intros k1 b1 I1. apply (N1 k1). now right.
    - cbn [rn_stmt]. rewrite !exec_for. assert (calm body) as N by (eapply calm_sub; [|exact F]; intros y Hy; now apply ins_for).
      assert (forall x, T x -> i <> x /\ i <> look m x) as Ni by (intros x Tx; destruct (proj1 F x Tx) as [F1 F2]; split; intros X; [apply F1|apply F2]; right; rewrite <- X; do 4 eexists; apply inside_self).
      clear F. revert st E. induction (for_values u v sp) as [|z vs IH]; intros st E; [reflexivity|]. cbn [loop].
      set (s1 := {| st_cur := upd (st_cur st) i _; st_nba := _; st_status := _ |}).
      assert (eqm s1) as E1.
      { intros x Tx. unfold s1, upd. cbn [st_cur]. destruct (Ni x Tx) as [N1 N2]. destruct (Nat.eqb_spec (look m x) i); [congruence|]. destruct (Nat.eqb_spec x i); [congruence|]. now apply E. }
      rewrite (rn_run_aux body Hb N s1 E1). destruct (st_status (run G body s1)); auto. apply IH. now apply eqm_run.
    - cbn [rn_stmt]. rewrite !exec_block. apply rn_run_aux; auto. eapply calm_sub; [|exact F]. intros y Hy. now apply ins_block.
  Qed.
  Lemma rn_run : forall l st, calm l -> eqm st -> run G (map rs l) st = run G l st.
  Proof. intros l st F E. apply rn_run_aux; auto. apply Forall_forall. intros; apply rn_exec. Qed.
  Lemma rn_body : forall it g, i_gen it = g -> body (rn_item m g it) = map rs (body it).
  Proof. intros it g E. unfold rn_item. rewrite E, Nat.eqb_refl. cbn. destruct (i_proc it); reflexivity. Qed.
  Lemma rn_events : forall it g, i_gen it = g -> events_of (i_proc (rn_item m g it)) = map (fun e => (fst e, look m (snd e))) (events_of (i_proc it)).
  Proof. intros it g E. unfold rn_item. rewrite E, Nat.eqb_refl. cbn. destruct (i_proc it); reflexivity. Qed.
End Rn.

(* the three changes do not interfere *)
Lemma rn_move_test : forall m a b c, rn_test m (moved_test a b c) = moved_test a b (rn_test m c).
Proof.
  intros m a b c. unfold moved_test. destruct c as [v| | | | | | |]; cbn [rn_test];
    match goal with |- context[if ?x then _ else _] => destruct x eqn:? end; try reflexivity.
  - cbn [test]. destruct (mem a (evars (EVar (look m v)))); reflexivity.
  - destruct (mem a (evars (EVar (look m v)))); reflexivity.
  - cbn [test right set_right]. unfold right. cbn [set_right change]. destruct (match c1 with ESlice _ _ _ => (c1, false) | _ => change a b c1 end) as [x' f].
    destruct (match c2 with EVar v => _ | _ => _ end) as [y' f']. reflexivity.
  - cbn [test right set_right]. unfold right. cbn [set_right change]. destruct c; reflexivity.
Qed.
Lemma rn_move_stmt : forall m a b s, rn_stmt m (move_stmt a b s) = move_stmt a b (rn_stmt m s).
Proof.
  intros m a b. assert (forall l, Forall (fun s => rn_stmt m (move_stmt a b s) = move_stmt a b (rn_stmt m s)) l -> map (rn_stmt m) (map (move_stmt a b) l) = map (move_stmt a b) (map (rn_stmt m) l)) as B.
  { induction 1 as [|s r E _ IH]; [reflexivity|]. cbn [map]. now rewrite E, IH. }
  induction s as [k l e|c t f Ht Hf|e cs d Hcs Hd|i u v sp body Hb|body Hb|e| |k] using stmt_ind'; try reflexivity.
  - rewrite ms_assign. cbn [rn_stmt]. now rewrite ms_assign.
  - cbn [move_stmt rn_stmt]. fold (moved_test a b c). fold (moved_test a b (rn_test m c)). now rewrite (B t Ht), (B f Hf), rn_move_test.
  - cbn [move_stmt rn_stmt]. fold (moved_test a b e). fold (moved_test a b (rn_test m e)). rewrite rn_move_test. f_equal.
    + clear Hd. induction Hcs as [|[k l] r Hb _ IH]; [reflexivity|]. cbn [map fst snd] in *. now rewrite (B l Hb), IH.
    + destruct d as [l|]; [|reflexivity]. f_equal. apply B. now apply Hd.
  - cbn [move_stmt rn_stmt]. now rewrite (B body Hb).
  - cbn [move_stmt rn_stmt]. now rewrite (B body Hb).
Qed.
Lemma rn_to_stmt : forall m a b s, rn_stmt m (to_stmt a b s) = to_stmt a b (rn_stmt m s).
Proof.
  intros m a b. assert (forall l, Forall (fun s => rn_stmt m (to_stmt a b s) = to_stmt a b (rn_stmt m s)) l -> map (rn_stmt m) (map (to_stmt a b) l) = map (to_stmt a b) (map (rn_stmt m) l)) as B.
  { induction 1 as [|s r E _ IH]; [reflexivity|]. cbn [map]. now rewrite E, IH. }
  induction s as [k l e|c t f Ht Hf|e cs d Hcs Hd|i u v sp body Hb|body Hb|e| |k] using stmt_ind'; try reflexivity; cbn [to_stmt rn_stmt].
  - now rewrite (B t Ht), (B f Hf).
  - f_equal.
    + clear Hd. induction Hcs as [|[k l] r Hb _ IH]; [reflexivity|]. cbn [map fst snd] in *. now rewrite (B l Hb), IH.
    + destruct d as [l|]; [|reflexivity]. f_equal. apply B. now apply Hd.
  - now rewrite (B body Hb).
  - now rewrite (B body Hb).
Qed.
Lemma map_comm : forall {A} (f h : A -> A) l, (forall x, f (h x) = h (f x)) -> map f (map h l) = map h (map f l).
Proof. intros A f h l E. rewrite !map_map. apply map_ext. exact E. Qed.
Lemma rn_move_item : forall m a b g it, rn_item m g (move_item a b g it) = move_item a b g (rn_item m g it).
Proof.
  intros m a b g it. unfold rn_item, move_item. destruct (Nat.eqb (i_gen it) g) eqn:E; cbn [i_gen i_proc i_id]; rewrite ?E; [|reflexivity]. f_equal.
  destruct (i_proc it) as [l e|l|evs l]; cbn [move_proc rn_proc].
  - destruct (uses a (SAssign Blocking l e)); reflexivity.
  - now rewrite (map_comm (rn_stmt m) (move_stmt a b)) by apply rn_move_stmt.
  - now rewrite (map_comm (rn_stmt m) (move_stmt a b)) by apply rn_move_stmt.
Qed.
Lemma rn_to_item : forall m a b g it, rn_item m g (to_in g a b it) = to_in g a b (rn_item m g it).
Proof.
  intros m a b g it. unfold rn_item, to_in, to_item. destruct (Nat.eqb (i_gen it) g) eqn:E; cbn [i_gen i_proc i_id]; rewrite ?E; [|reflexivity]. cbn [i_gen i_proc i_id]. f_equal.
  destruct (i_proc it) as [l e|l|evs l]; cbn [to_proc rn_proc]; [reflexivity| |].
  - now rewrite (map_comm (rn_stmt m) (to_stmt a b)) by apply rn_to_stmt.
  - now rewrite (map_comm (rn_stmt m) (to_stmt a b)) by apply rn_to_stmt.
Qed.

(* ---- one connection after the other ---- *)
Lemma holds_reads : forall a s, holds a s -> reads_stmt a s.
Proof.
  intros a s Hh. assert (forall e, root e = Some a \/ hides a e -> In a (evars e)) as K.
  { intros e [R|R]; [rewrite (root_evars e a R); now left|now apply hides_in]. }
  inversion Hh; subst; constructor; auto.
Qed.
Lemma stuck_reads : forall a s, stuck a s -> reads_stmt a s.
Proof. intros a s Hh. inversion Hh; subst; constructor; auto. Qed.
Lemma mem_in : forall x l, mem x l = true <-> In x l.
Proof. intros x l. unfold mem. rewrite existsb_exists. split; [intros (y & I & E); apply Nat.eqb_eq in E; now subst|intros I; exists x; split; [exact I|apply Nat.eqb_refl]]. Qed.
Definition mp (L : list conn) : list (var * var) := map (fun k => (k_port k, k_sig k)) L.
Notation rho L := (look (mp L)).
Lemma rho_cons : forall k L x, rho (k :: L) x = if Nat.eqb (k_port k) x then k_sig k else rho L x.
Proof. intros k L x. unfold look. cbn. destruct (Nat.eqb (k_port k) x); reflexivity. Qed.
Lemma rho_off : forall L x, ~ In x (map k_port L) -> rho L x = x.
Proof. induction L as [|k L IH]; intros x N; [reflexivity|]. rewrite rho_cons. cbn in N. destruct (Nat.eqb_spec (k_port k) x); [tauto|]. apply IH. tauto. Qed.
Lemma rho_key : forall L k, NoDup (map k_port L) -> In k L -> rho L (k_port k) = k_sig k.
Proof.
  induction L as [|k0 L IH]; intros k N I; [destruct I|]. rewrite rho_cons. cbn in N. inversion N as [|? ? N1 N2]; subst. destruct I as [->|I]; [now rewrite Nat.eqb_refl|].
  destruct (Nat.eqb_spec (k_port k0) (k_port k)) as [E|]; [|now apply IH]. exfalso. apply N1. rewrite E. now apply in_map.
Qed.
Lemma rho_cases : forall L x, (exists k, In k L /\ k_port k = x /\ rho L x = k_sig k) \/ (~ In x (map k_port L) /\ rho L x = x).
Proof.
  induction L as [|k L IH]; intros x; [right; split; [intros []|reflexivity]|]. rewrite rho_cons. destruct (Nat.eqb_spec (k_port k) x) as [E|N].
  - left. exists k. split; [now left|auto].
  - destruct (IH x) as [(k' & I & P & R)|[I R]]; [left; exists k'; split; [now right|auto]|]. right. split; [|exact R]. cbn. tauto.
Qed.

Section Steps.
  Variables (G : tenv) (g : nat) (full : Prop).
  Definition step1 (k : conn) (it : item) : item := if k_in k then move_item (k_port k) (k_sig k) g it else to_in g (k_port k) (k_sig k) it.
  Record ok (L : list conn) (D : design) : Prop := {
    ok_nodup : NoDup (map k_port L);
    ok_apart : forall k k', In k L -> In k' L -> k_sig k <> k_port k';
    ok_outs : forall k k', In k L -> In k' L -> k_in k = false -> k_in k' = false -> k_sig k = k_sig k' -> k_port k = k_port k';
    ok_type : forall k, In k L -> G (k_port k) = G (k_sig k);
    ok_in : forall k it, In k L -> k_in k = true -> In it D -> ~ touches (k_port k) (body it) /\ (reads (k_port k) (body it) -> i_gen it = g) /\
      (forall s, inside s (body it) -> (full -> ~ holds (k_port k) s) /\ ~ stuck (k_port k) s);
    ok_out : forall k it, In k L -> k_in k = false -> In it D -> ~ reads (k_port k) (body it) /\ ~ touches (k_sig k) (body it) /\
      (touches (k_port k) (body it) -> i_gen it = g) /\ ~ loops_over (k_port k) (body it);
    ok_order : forall it x y, In it D -> reads x (body it) -> changes_now y (body it) -> rho L x = rho L y -> x = y }.
  Lemma sig_off : forall L D k, ok L D -> In k L -> ~ In (k_sig k) (map k_port L).
  Proof. intros L D k O I X. apply in_map_iff in X. destruct X as (k' & E & I'). apply (ok_apart _ _ O k k' I I'). now symmetry. Qed.
  Lemma step1_gen : forall k it, i_gen (step1 k it) = i_gen it /\ i_id (step1 k it) = i_id it /\ events_of (i_proc (step1 k it)) = events_of (i_proc it).
  Proof.
    intros k it. unfold step1, move_item, to_in. destruct (k_in k), (Nat.eqb (i_gen it) g); cbn; auto; [rewrite move_events; auto|]. destruct (i_proc it); auto.
  Qed.
  Lemma order_in : forall L D k it, ok L D -> In k L -> k_in k = true -> In it D -> reads (k_port k) (body it) -> steady (k_port k) (k_sig k) (body it).
  Proof.
    intros L D k it O I Ik Iit R. destruct (ok_in _ _ O k it I Ik Iit) as (T & _ & _). split; intros C; [apply T; now apply changes_touches|].
    assert (k_port k = k_sig k) as E.
    { apply (ok_order _ _ O it _ _ Iit R C). rewrite (rho_key L k (ok_nodup _ _ O) I). now rewrite (rho_off L _ (sig_off L D k O I)). }
    apply (ok_apart _ _ O k k I I). now symmetry.
  Qed.
  Lemma step_history : forall k L D h, ok (k :: L) D -> Forall (fun r => r (k_port k) = r (k_sig k)) h -> history G D h <-> history G (map (step1 k) D) h.
  Proof.
    intros k L D h O Fh. pose proof (ok_type _ _ O k (or_introl eq_refl)) as Ty. unfold step1. destruct (k_in k) eqn:Ik.
    - apply (in_history G D g (k_port k) (k_sig k) Ty); [|exact Fh]. intros it I R. now apply (order_in (k :: L) D k it O (or_introl eq_refl)).
    - apply (out_history G D g (k_port k) (k_sig k)); [|exact Ty| |  |exact Fh].
      + intros E. apply (ok_apart _ _ O k k (or_introl eq_refl) (or_introl eq_refl)). now symmetry.
      + intros it I. destruct (ok_out _ _ O k it (or_introl eq_refl) Ik I) as (O1 & O2). split; [intros _; exact O1|exact O2].
      + intros it I R C. apply (sig_off (k :: L) D k O (or_introl eq_refl)). assert (k_sig k = k_port k) as E; [|rewrite E; now left].
        apply (ok_order _ _ O it _ _ I R C). rewrite (rho_key (k :: L) k (ok_nodup _ _ O) (or_introl eq_refl)). now rewrite (rho_off _ _ (sig_off (k :: L) D k O (or_introl eq_refl))).
  Qed.
  (* what a step changes *)
  Lemma ms_touches : forall a b x l, touches x (map (move_stmt a b) l) <-> touches x l.
  Proof.
    intros a b x l. unfold touches. rewrite ms_assigns. split; (intros [A|(u & v & st & bd & I)]; [now left|right]).
    - apply (ms_loops a b x l). do 4 eexists. exact I.
    - apply (inside_ms a b) in I. do 4 eexists. exact I.
  Qed.
  Lemma ms_changes : forall a b x l, changes_now x (map (move_stmt a b) l) <-> changes_now x l.
  Proof.
    intros a b x l. unfold changes_now. split; (intros [(k & lh & e & I & N & V)|(u & v & st & bd & I)]; [left|right]).
    - apply ms_inside in I. destruct I as (s0 & I & E). destruct s0 as [k0 l0 e0| | | | | | |]; try discriminate. rewrite ms_assign in E. injection E as -> -> ->. do 3 eexists. eauto.
    - apply (ms_loops a b x l). do 4 eexists. exact I.
    - apply (inside_ms a b) in I. rewrite ms_assign in I. do 3 eexists. eauto.
    - apply (inside_ms a b) in I. do 4 eexists. exact I.
  Qed.
  Lemma ms_reads_from : forall a b x l, reads x (map (move_stmt a b) l) -> reads x l \/ (x = b /\ reads a l).
  Proof.
    intros a b x l R. destruct (reads_dec a l) as [Ra|Na]; [|left; now rewrite (ms_none_body a b) in R].
    destruct (Nat.eq_dec x b) as [->|Nb]; [now right|]. destruct (Nat.eq_dec x a) as [->|Nx]; [now left|]. left.
    destruct R as (s & I & R). apply ms_inside in I. destruct I as (s0 & I & ->). exists s0. split; [exact I|]. now apply (ms_reads a b x Nx Nb).
  Qed.
  Lemma to_nn : forall n s, to_stmt n n s = s.
  Proof.
    intros n. assert (forall l, to_lhs n n l = l) as A by (intros [x|x hi lo|x i w]; cbn; destruct (Nat.eqb_spec x n); congruence).
    assert (forall l, Forall (fun s => to_stmt n n s = s) l -> map (to_stmt n n) l = l) as B by (induction 1 as [|s r E _ IH]; cbn [map]; [reflexivity|now rewrite E, IH]).
    induction s as [k l e|c t f Ht Hf|e cs d Hcs Hd|i u v sp body Hb|body Hb|e| |k] using stmt_ind'; try reflexivity; cbn [to_stmt].
    - now rewrite A.
    - now rewrite (B t Ht), (B f Hf).
    - f_equal.
      + clear Hd. induction Hcs as [|[k l] r Hb _ IH]; [reflexivity|]. cbn [map fst snd] in *. now rewrite (B l Hb), IH.
      + destruct d as [l|]; [|reflexivity]. f_equal. apply B. now apply Hd.
    - now rewrite (B body Hb).
    - now rewrite (B body Hb).
  Qed.
  Lemma ms_holds : forall a b x s, x <> a -> x <> b -> holds x (move_stmt a b s) -> holds x s.
  Proof. intros a b x s Na Nb Hh. apply (step_holds b a b x Na Nb). now rewrite to_nn. Qed.
  Lemma ms_stuck : forall a b x s, x <> a -> x <> b -> stuck x (move_stmt a b s) -> stuck x s.
  Proof. intros a b x s Na Nb Hh. apply (step_stuck b a b x Na Nb). now rewrite to_nn. Qed.
  Lemma to_touches : forall a b x l, touches x (map (to_stmt a b) l) -> (touches x l /\ x <> a) \/ loops_over x l \/ (x = b /\ assigns a l).
  Proof.
    intros a b x l [A|A].
    - apply assigns_to_iff in A. destruct A as (y & A & ->). unfold tv. destruct (Nat.eqb_spec y a) as [->|N]; [right; right; auto|left; split; [now left|exact N]].
    - right. left. apply (proj1 (loops_to a b x l)). exact A.
  Qed.
  Lemma to_changes : forall a b x l, ~ loops_over a l -> changes_now x (map (to_stmt a b) l) -> exists z, changes_now z l /\ x = tv a b z.
  Proof.
    intros a b x l La [(k & lh & e & I & N & V)|A].
    - apply to_inside in I. destruct I as (s0 & I & E). destruct s0 as [k0 l0 e0| | | | | | |]; try discriminate. cbn in E. injection E as -> -> ->. rewrite to_var in V.
      exists (lhs_var l0). split; [|now symmetry]. left. exists k0, l0, e0. auto.
    - assert (loops_over x l) as L by (apply (proj1 (loops_to a b x l)); exact A). exists x. split; [right; exact L|]. unfold tv. destruct (Nat.eqb_spec x a); [congruence|reflexivity].
  Qed.
  Lemma step_ok : forall k L D, ok (k :: L) D -> ok L (map (step1 k) D).
  Proof.
    intros k L D O. pose proof (or_introl eq_refl : In k (k :: L)) as Ik. pose proof (ok_nodup _ _ O) as N. cbn in N. inversion N as [|? ? N1 N2]; subst.
    assert (forall k', In k' L -> k_port k' <> k_port k) as Pn by (intros k' I E; apply N1; rewrite <- E; now apply in_map).
    assert (forall k', In k' L -> k_port k' <> k_sig k) as Ps by (intros k' I E; apply (ok_apart _ _ O k k' Ik (or_intror I)); now symmetry).
    assert (forall k', In k' L -> k_sig k' <> k_port k) as Sp by (intros k' I E; apply (ok_apart _ _ O k' k (or_intror I) Ik E)).
    split.
    - exact N2.
    - intros a b A B. apply (ok_apart _ _ O); now right.
    - intros a b A B. apply (ok_outs _ _ O); now right.
    - intros a A. apply (ok_type _ _ O). now right.
    - intros k' it I Ki J. apply in_map_iff in J. destruct J as (it0 & <- & J). destruct (ok_in _ _ O k' it0 (or_intror I) Ki J) as (T & R & Hh). rewrite (proj1 (step1_gen k it0)).
      unfold step1. destruct (k_in k) eqn:Kk.
      + unfold move_item. destruct (Nat.eqb (i_gen it0) g); [|auto]. cbn [i_proc]. rewrite move_body. split; [now rewrite ms_touches|]. split.
        * intros X. apply ms_reads_from in X. destruct X as [X|[X _]]; [auto|]. exfalso. exact (Ps k' I X).
        * intros s X. apply ms_inside in X. destruct X as (s0 & X & ->). destruct (Hh s0 X) as [H1 H2]. split; [intros Fu Y; apply (H1 Fu)|intros Y; apply H2].
          -- exact (ms_holds _ _ _ _ (Pn k' I) (Ps k' I) Y).
          -- exact (ms_stuck _ _ _ _ (Pn k' I) (Ps k' I) Y).
      + unfold to_in. destruct (Nat.eqb (i_gen it0) g); [|auto]. rewrite to_body. split; [|split].
        * intros X. apply to_touches in X. destruct X as [[X _]|[X|[X _]]]; [exact (T X)|apply T; now right|exact (Ps k' I X)].
        * rewrite reads_to. exact R.
        * intros s X. apply to_inside in X. destruct X as (s0 & X & ->). destruct (Hh s0 X) as [H1 H2]. split; [intros Fu Y; apply (H1 Fu); now apply to_holds in Y|intros Y; apply H2; now apply to_stuck in Y].
    - intros k' it I Ki J. apply in_map_iff in J. destruct J as (it0 & <- & J). destruct (ok_out _ _ O k' it0 (or_intror I) Ki J) as (R & T & Tp & Lp). rewrite (proj1 (step1_gen k it0)).
      unfold step1. destruct (k_in k) eqn:Kk.
      + unfold move_item. destruct (Nat.eqb (i_gen it0) g); [|auto]. cbn [i_proc]. rewrite move_body. split; [|split; [|split]].
        * intros X. apply ms_reads_from in X. destruct X as [X|[X _]]; [auto|exact (Ps k' I X)].
        * now rewrite ms_touches.
        * now rewrite ms_touches.
        * intros X. apply Lp. now apply ms_loops in X.
      + unfold to_in. destruct (Nat.eqb (i_gen it0) g) eqn:Eg; [|auto]. rewrite to_body. split; [now rewrite reads_to|]. split; [|split].
        * intros X. apply to_touches in X. destruct X as [[X _]|[X|[X _]]]; [exact (T X)|apply T; now right|]. apply (Pn k' I). apply (ok_outs _ _ O k' k (or_intror I) Ik Ki Kk X).
        * intros _. now apply Nat.eqb_eq.
        * rewrite loops_to. exact Lp.
    - intros it x y J Rx Cy E. apply in_map_iff in J. destruct J as (it0 & <- & J). unfold step1 in Rx, Cy. destruct (k_in k) eqn:Kk.
      + destruct (ok_in _ _ O k it0 Ik Kk J) as (T & _ & _). unfold move_item in Rx, Cy. assert (forall z, changes_now z (body it0) -> k_port k <> z) as Nz by (intros z C Ez; apply T; rewrite Ez; now apply changes_touches).
        assert (changes_now y (body it0)) as C by (destruct (Nat.eqb (i_gen it0) g); [cbn [i_proc] in Cy; rewrite move_body in Cy; now apply ms_changes in Cy|exact Cy]).
        assert (reads x (body it0) \/ (x = k_sig k /\ reads (k_port k) (body it0))) as R by (destruct (Nat.eqb (i_gen it0) g); [cbn [i_proc] in Rx; rewrite move_body in Rx; now apply ms_reads_from in Rx|now left]).
        specialize (Nz y C). assert (rho (k :: L) y = rho L y) as Ey by (rewrite rho_cons; destruct (Nat.eqb_spec (k_port k) y); [contradiction|reflexivity]).
        destruct R as [R|[-> R]].
        * destruct (Nat.eq_dec x (k_port k)) as [->|Nx].
          -- exfalso. rewrite (rho_off L _ N1) in E. destruct (rho_cases L y) as [(k' & I' & _ & Q)|[_ Q]]; rewrite Q in E; [exact (Sp k' I' (eq_sym E))|congruence].
          -- apply (ok_order _ _ O it0 x y J R C). rewrite Ey, rho_cons. destruct (Nat.eqb_spec (k_port k) x); [congruence|exact E].
        * exfalso. apply Nz. apply (ok_order _ _ O it0 _ _ J R C). rewrite (rho_key _ k (ok_nodup _ _ O) Ik), Ey, <- E. symmetry. apply rho_off.
          intros X. apply (sig_off _ _ _ O Ik). now right.
      + destruct (ok_out _ _ O k it0 Ik Kk J) as (Rq & Ty & Tq & Lq). unfold to_in in Rx, Cy.
        assert (reads x (body it0)) as R by (destruct (Nat.eqb (i_gen it0) g); [rewrite to_body, reads_to in Rx; exact Rx|exact Rx]).
        assert (exists z, changes_now z (body it0) /\ y = tv (k_port k) (k_sig k) z) as (z & C & Ey).
        { destruct (Nat.eqb_spec (i_gen it0) g) as [Eg|Ng]; [rewrite to_body in Cy; now apply to_changes in Cy|]. exists y. split; [exact Cy|]. unfold tv. destruct (Nat.eqb_spec y (k_port k)) as [->|]; [|reflexivity].
          exfalso. apply Ng, Tq. now apply changes_touches. }
        assert (x <> k_port k) as Nx by (intros ->; contradiction).
        assert (x = z) as Exz.
        { apply (ok_order _ _ O it0 x z J R C). rewrite !rho_cons. destruct (Nat.eqb_spec (k_port k) x); [congruence|]. rewrite E, Ey. unfold tv.
          destruct (Nat.eqb_spec z (k_port k)) as [->|Nz].
          - rewrite Nat.eqb_refl. apply rho_off. intros X. apply (sig_off _ _ _ O Ik). now right.
          - destruct (Nat.eqb_spec (k_port k) z); [congruence|reflexivity]. }
        subst z. rewrite Ey. unfold tv. destruct (Nat.eqb_spec x (k_port k)); [contradiction|reflexivity].
  Qed.
  Definition steps (L : list conn) (D : design) : design := fold_left (fun D k => map (step1 k) D) L D.
  Definition level (L : list conn) (r : venv) : Prop := forall k, In k L -> r (k_port k) = r (k_sig k).
  Lemma steps_history : forall L D h, ok L D -> Forall (level L) h -> history G D h <-> history G (steps L D) h.
  Proof.
    induction L as [|k L IH]; intros D h O F; [reflexivity|]. cbn [steps fold_left]. rewrite (step_history k L D h O).
    - apply IH; [now apply step_ok|]. eapply Forall_impl; [|exact F]. intros r Lv k' I. apply Lv. now right.
    - eapply Forall_impl; [|exact F]. intros r Lv. apply Lv. now left.
  Qed.
  (* a port is not used any more *)
  Definition unused (x : var) (D : design) : Prop := forall it, In it D -> ~ reads x (body it) /\ ~ touches x (body it).
  Lemma step_unused : forall k x D, x <> k_sig k -> unused x D -> unused x (map (step1 k) D).
  Proof.
    intros k x D Nx U it J. apply in_map_iff in J. destruct J as (it0 & <- & J). destruct (U it0 J) as [R T]. unfold step1. destruct (k_in k).
    - unfold move_item. destruct (Nat.eqb (i_gen it0) g); [|auto]. cbn [i_proc]. rewrite move_body, ms_touches. split; [|exact T]. intros X. apply ms_reads_from in X. destruct X as [X|[X _]]; contradiction.
    - unfold to_in. destruct (Nat.eqb (i_gen it0) g); [|auto]. rewrite to_body, reads_to. split; [exact R|]. intros X. apply to_touches in X. destruct X as [[X _]|[X|[X _]]]; [contradiction|apply T; now right|contradiction].
  Qed.
  Lemma step_done : forall k L D, full -> ok (k :: L) D -> unused (k_port k) (map (step1 k) D).
  Proof.
    intros k L D Fu O it J. pose proof (or_introl eq_refl : In k (k :: L)) as Ik. apply in_map_iff in J. destruct J as (it0 & <- & J). assert (k_port k <> k_sig k) as Ne by (intros E; apply (ok_apart _ _ O k k Ik Ik); now symmetry).
    unfold step1. destruct (k_in k) eqn:Kk.
    - destruct (ok_in _ _ O k it0 Ik Kk J) as (T & R & Hh). unfold move_item. destruct (Nat.eqb_spec (i_gen it0) g) as [Eg|Ng].
      + cbn [i_proc]. rewrite move_body, ms_touches. split; [|exact T]. intros (s & I & X). apply ms_inside in I. destruct I as (s0 & I & ->). apply (proj1 (Hh s0 I) Fu).
        apply (stmt_stays (k_port k) (k_sig k) Ne s0); [apply (Hh s0 I)|exact X].
      + split; [|exact T]. intros X. apply Ng. now apply R.
    - destruct (ok_out _ _ O k it0 Ik Kk J) as (R & T & Tp & Lp). unfold to_in. destruct (Nat.eqb_spec (i_gen it0) g) as [Eg|Ng].
      + rewrite to_body, reads_to. split; [exact R|]. intros X. apply to_touches in X. destruct X as [[_ X]|[X|[X _]]]; [congruence|contradiction|contradiction].
      + split; [exact R|]. intros X. apply Ng. now apply Tp.
  Qed.
  Lemma steps_unused : forall L D x, (forall k, In k L -> x <> k_sig k) -> unused x D -> unused x (steps L D).
  Proof. induction L as [|k L IH]; intros D x N U; [exact U|]. cbn [steps fold_left]. apply IH; [intros k' I; apply N; now right|]. apply step_unused; [apply N; now left|exact U]. Qed.
  Lemma steps_done : forall L D k, full -> ok L D -> In k L -> unused (k_port k) (steps L D).
  Proof.
    induction L as [|k0 L IH]; intros D k Fu O I; [destruct I|]. cbn [steps fold_left]. destruct I as [->|I]; [|apply IH; [exact Fu|now apply step_ok|exact I]].
    apply steps_unused; [|now apply (step_done k L)]. intros k' I' E. apply (ok_apart _ _ O k' k (or_intror I') (or_introl eq_refl)). now symmetry.
  Qed.
  Lemma steps_events : forall L D it, In it (steps L D) -> exists it0, In it0 D /\ i_gen it = i_gen it0 /\ events_of (i_proc it) = events_of (i_proc it0).
  Proof.
    induction L as [|k0 L IH]; intros D it I; [exists it; auto|]. cbn [steps fold_left] in I. apply IH in I. destruct I as (it1 & I & E1 & E2). apply in_map_iff in I. destruct I as (it0 & <- & I).
    destruct (step1_gen k0 it0) as (A & _ & B). exists it0. split; [exact I|]. split; congruence.
  Qed.
  Lemma rn_steps : forall m L D, map (rn_item m g) (steps L D) = steps L (map (rn_item m g) D).
  Proof.
    intros m. induction L as [|k L IH]; intros D; [reflexivity|]. cbn [steps fold_left]. unfold steps in IH. rewrite IH. f_equal. rewrite !map_map. apply map_ext. intros it. unfold step1.
    destruct (k_in k); [apply rn_move_item|apply rn_to_item].
  Qed.
End Steps.

(* ---- the model's loop ---- *)
Section DropOne.
  Variable gone : stmt -> bool.
  Lemma drop_id : forall l, (forall s, inside s l -> gone s = false) -> drop_body gone l = l.
  Proof.
    assert (forall s, (forall s', inside s' [s] -> gone s' = false) -> drop_stmt gone s = s) as A.
    { assert (forall l, Forall (fun s => (forall s', inside s' [s] -> gone s' = false) -> drop_stmt gone s = s) l -> (forall s, inside s l -> gone s = false) -> drop_body gone l = l) as B.
      { induction 1 as [|s r E _ IH]; intros F; [reflexivity|]. cbn [drop_body]. rewrite (F s) by (apply in_here; now left). rewrite E, IH; [reflexivity| |]; intros s' I; apply F; [now apply ins_tl|now apply ins_hd]. }
      induction s as [k l e|c t f Ht Hf|e cs d Hcs Hd|i u v sp body Hb|body Hb|e| |k] using stmt_ind'; intros F; try reflexivity.
      - change (SIf c (drop_body gone t) (drop_body gone f) = SIf c t f). rewrite !B; auto; intros s' I; apply F; [now apply ins_else|now apply ins_then].
      - change (SSwitch e (map (fun cb => (fst cb, drop_body gone (snd cb))) cs) (match d with Some b => Some (drop_body gone b) | None => None end) = SSwitch e cs d). f_equal.
        + assert (forall k bd, In (k, bd) cs -> forall s', inside s' bd -> gone s' = false) as N1 by (intros k bd J s' I; apply F; eapply ins_case; eauto).
          clear F Hd. induction Hcs as [|[k bd] r Hb _ IH]; [reflexivity|]. cbn [map fst snd] in *. rewrite (B bd Hb) by (apply (N1 k); now left). f_equal. apply IH. intros k1 b1 J. apply (N1 k1). now right.
        + destruct d as [bd|]; [|reflexivity]. f_equal. apply B; [now apply Hd|]. intros s' I. apply F. now apply ins_def.
      - change (SFor i u v sp (drop_body gone body) = SFor i u v sp body). rewrite B; auto. intros s' I. apply F. now apply ins_for.
      - change (SBlock (drop_body gone body) = SBlock body). rewrite B; auto. intros s' I. apply F. now apply ins_block. }
    induction l as [|s r IH]; intros F; [reflexivity|]. cbn [drop_body]. rewrite (F s) by (apply in_here; now left). rewrite A, IH; [reflexivity| |]; intros s' I; apply F; [now apply ins_tl|now apply ins_hd].
  Qed.
  Lemma drop_item_id : forall it, (forall s, inside s (body it) -> gone s = false) -> drop_item gone it = [it].
  Proof.
    intros [i g p] F. unfold drop_item. cbn in *. destruct p as [l e|l|evs l]; cbn in *.
    - rewrite (F (SAssign Blocking l e)); [reflexivity|]. apply in_here. now left.
    - now rewrite (drop_id l F).
    - now rewrite (drop_id l F).
  Qed.
  Lemma drop_one : forall M i, (forall it, In it M -> i_id it = i -> drop_item gone it = []) -> (forall it, In it M -> i_id it <> i -> forall s, inside s (body it) -> gone s = false) ->
    drop_design gone M = filter (fun it => negb (Nat.eqb (i_id it) i)) M.
  Proof.
    induction M as [|it M IH]; intros i A B; [reflexivity|]. unfold drop_design in *. cbn [flat_map filter]. rewrite (IH i) by first [intros it0 I; apply A; now right|intros it0 I; apply B; now right].
    destruct (Nat.eqb_spec (i_id it) i) as [E|N]; cbn [negb].
    - now rewrite (A it (or_introl eq_refl) E).
    - rewrite (drop_item_id it); [reflexivity|]. apply (B it); [now left|exact N].
  Qed.
End DropOne.
Lemma filter_map : forall {A} (f : A -> A) (p : A -> bool) l, (forall x, p (f x) = p x) -> filter p (map f l) = map f (filter p l).
Proof. intros A f p l E. induction l as [|x l IH]; [reflexivity|]. cbn. rewrite E. destruct (p x); cbn; now rewrite IH. Qed.
Lemma filter_filter : forall {A} (p q : A -> bool) l, filter p (filter q l) = filter (fun x => q x && p x) l.
Proof. intros A p q l. induction l as [|x l IH]; [reflexivity|]. cbn. destruct (q x); cbn; [destruct (p x); now rewrite IH|exact IH]. Qed.
Lemma wire_in : forall l e s, inside s (body_of (PWire l e)) -> s = SAssign Blocking l e.
Proof. intros l e s I. apply inside_subs in I. cbn in I. destruct I as [I|[]]. now symmetry. Qed.
Lemma find_id : forall (M : design) it, NoDup (map i_id M) -> In it M -> find_item M (i_id it) = Some it.
Proof.
  induction M as [|a M IH]; intros it N I; [destruct I|]. cbn in N. inversion N as [|? ? N1 N2]; subst. unfold find_item. cbn [find]. destruct I as [->|I]; [now rewrite Nat.eqb_refl|].
  destruct (Nat.eqb_spec (i_id a) (i_id it)) as [E|_]; [exfalso; apply N1; rewrite E; now apply in_map|]. now apply IH.
Qed.
Lemma same_id : forall (M : design) a b, NoDup (map i_id M) -> In a M -> In b M -> i_id a = i_id b -> a = b.
Proof. intros M a b N A B E. pose proof (find_id M a N A) as X. rewrite E, (find_id M b N B) in X. now injection X. Qed.
Lemma ids_filter : forall (p : item -> bool) M, NoDup (map i_id M) -> NoDup (map i_id (filter p M)).
Proof.
  intros p M N. induction M as [|a M IH]; [constructor|]. cbn in N. inversion N as [|? ? N1 N2]; subst. cbn. destruct (p a); [|now apply IH]. cbn. constructor; [|now apply IH].
  intros X. apply N1. apply in_map_iff in X. destruct X as (b & E & I). apply filter_In in I. rewrite <- E. now apply in_map.
Qed.
Section Loop.
  Variables (G : tenv) (g : nat).
  Notation wl := (list (conn * nat)).
  Definition kept (W : wl) (it : item) : bool := negb (mem (i_id it) (map snd W)).
  Record at_ (W : wl) (M : design) : Prop := {
    at_ids : NoDup (map i_id M); at_dif : NoDup (map snd W);
    at_wire : forall k i, In (k, i) W -> exists it, In it M /\ i_id it = i /\ i_gen it = g /\ i_proc it = wire_of k;
    at_ok : ok G g False (map fst W) (filter (kept W) M) }.
  Lemma at_cases : forall W M it, at_ W M -> In it M -> (exists k, In (k, i_id it) W /\ i_proc it = wire_of k) \/ In it (filter (kept W) M).
  Proof.
    intros W M it A I. destruct (mem (i_id it) (map snd W)) eqn:E.
    - left. apply mem_in, in_map_iff in E. destruct E as ([k i] & Ei & J). cbn in Ei. subst i. destruct (at_wire _ _ A k _ J) as (it' & I' & Ei & _ & P).
      assert (it' = it) by (eapply same_id; eauto using at_ids). subst it'. eauto.
    - right. apply filter_In. split; [exact I|]. unfold kept. now rewrite E.
  Qed.
  Lemma wire_reads_k : forall k x, reads x (body_of (wire_of k)) -> x = if k_in k then k_sig k else k_port k.
  Proof. intros k x R. unfold wire_of in R. destruct (k_in k); now apply wire_reads in R. Qed.
  Lemma wire_touches_k : forall k x, touches x (body_of (wire_of k)) -> x = if k_in k then k_port k else k_sig k.
  Proof. intros k x R. unfold wire_of in R. destruct (k_in k); now apply wire_touches in R. Qed.
  Lemma step1_wire : forall k k' it, i_proc it = wire_of k' -> (k_in k = true -> ~ reads (k_port k) (body it)) -> (k_in k = false -> ~ touches (k_port k) (body it)) -> step1 g k it = it.
  Proof.
    intros k k' [i g0 p] E R T. cbn in E. subst p. unfold step1, move_item, to_in. cbn [i_gen i_proc i_id body_of] in *. destruct (k_in k) eqn:Kk.
    - destruct (Nat.eqb g0 g); [|reflexivity]. f_equal. specialize (R eq_refl). unfold wire_of in *. destruct (k_in k'); cbn [move_proc];
        match goal with |- (if ?c then _ else _) = _ => destruct c eqn:U end; try reflexivity; exfalso; apply R; apply uses_iff in U; eexists; (split; [apply in_here; now left|exact U]).
    - destruct (Nat.eqb g0 g); [|reflexivity]. apply to_item_same. intros A. apply (T eq_refl). now left.
  Qed.
  Definition after (s : ostate) (W : wl) (D : design) (s' : ostate) : Prop :=
    o_design s' = D /\ o_map s' = (o_map s ++ mp (map fst W))%list /\ o_sigs s' = (o_sigs s ++ map (fun w => k_sig (fst w)) W)%list /\
    (forall v, In v (o_old s') <-> In v (o_old s) \/ exists w, In w W /\ k_in (fst w) = false /\ k_sig (fst w) = v).
  Lemma dissolve_step : forall k i W s, at_ ((k, i) :: W) (o_design s) -> exists s', dissolve g s (k_in k, i) = Ok s' /\
    at_ W (o_design s') /\ filter (kept W) (o_design s') = map (step1 g k) (filter (kept ((k, i) :: W)) (o_design s)) /\ after s [(k, i)] (o_design s') s'.
  Proof.
    intros k i W s A. set (M := o_design s) in *. destruct (at_wire _ _ A k i (or_introl eq_refl)) as (w & Iw & Ei & Eg & Ew).
    pose proof (at_ok _ _ A) as O. cbn [map fst] in O. set (L := map fst W) in *. pose proof (or_introl eq_refl : In k (k :: L)) as Ik. pose proof (at_ids _ _ A) as Ids.
    pose proof (at_dif _ _ A) as Dif. cbn in Dif. inversion Dif as [|? ? D1 D2]; subst x l.
    assert (k_port k <> k_sig k) as Ne by (intros E; apply (ok_apart _ _ _ _ _ O k k Ik Ik); now symmetry).
    pose proof (ok_nodup _ _ _ _ _ O) as N. cbn in N. inversion N as [|? ? N1 N2]; subst x l.
    (* other connections *)
    assert (forall k' j, In (k', j) W -> k_port k' <> k_port k /\ k_sig k' <> k_port k /\ k_port k' <> k_sig k) as Ap.
    { intros k' j J. assert (In k' L) as J' by (apply in_map_iff; exists (k', j); auto). split; [intros E; apply N1; rewrite <- E; now apply in_map|]. split.
      - intros E. exact (ok_apart _ _ _ _ _ O k' k (or_intror J') Ik E).
      - intros E. apply (ok_apart _ _ _ _ _ O k k' Ik (or_intror J')). now symmetry. }
    (* the other items *)
    assert (forall it, In it M -> i_id it <> i -> (k_in k = true -> ~ touches (k_port k) (body it)) /\ (k_in k = false -> ~ reads (k_port k) (body it))) as Ot.
    { intros it I Ni. destruct (at_cases _ _ it A I) as [(k' & J & P)|J].
      - destruct J as [J|J]; [inversion J; subst; congruence|]. destruct (Ap k' _ J) as (P1 & P2 & P3). rewrite P. split; intros Kk X.
        + apply wire_touches_k in X. destruct (k_in k'); [apply P1|apply P2]; now symmetry.
        + apply wire_reads_k in X. destruct (k_in k'); [apply P2|apply P1]; now symmetry.
      - split; intros Kk; [apply (ok_in _ _ _ _ _ O k it Ik Kk J)|apply (ok_out _ _ _ _ _ O k it Ik Kk J)]. }
    assert (forall it, In it M -> i_id it = i -> it = w) as Uw by (intros it I E; eapply same_id; eauto; congruence).
    set (M' := map (step1 g k) M).
    assert (forall it, i_id (step1 g k it) = i_id it) as Idk by (intros it; apply step1_gen).
    assert (filter (fun it => negb (Nat.eqb (i_id it) i)) M' = map (step1 g k) (filter (fun it => negb (Nat.eqb (i_id it) i)) M)) as Efm by (apply filter_map; intros it; now rewrite Idk).
    set (Mn := filter (fun it => negb (Nat.eqb (i_id it) i)) M') in *.
    assert (step1 g k w = w) as Fw.
    { apply (step1_wire k k w Ew); intros Kk X; rewrite Ew in X; [apply wire_reads_k in X|apply wire_touches_k in X]; rewrite Kk in X; congruence. }
    assert (filter (kept W) Mn = map (step1 g k) (filter (kept ((k, i) :: W)) M)) as Ek.
    { rewrite Efm, filter_map by (intros it; unfold kept; now rewrite Idk). f_equal. rewrite filter_filter. apply filter_ext. intros it. unfold kept. cbn [map snd]. cbn [mem existsb]. now rewrite negb_orb. }
    assert (at_ W Mn) as At.
    { split.
      - rewrite Efm, map_map, (map_ext _ i_id Idk). now apply ids_filter.
      - exact D2.
      - intros k' j J. destruct (at_wire _ _ A k' j (or_intror J)) as (it & I & E1 & E2 & E3). exists it. split; [|auto]. rewrite Efm. apply in_map_iff. exists it.
        destruct (Ap k' j J) as (P1 & P2 & P3). split.
        + apply (step1_wire k k' it E3); intros Kk X; rewrite E3 in X; [apply wire_reads_k in X|apply wire_touches_k in X]; destruct (k_in k'); congruence.
        + apply filter_In. split; [exact I|]. apply negb_true_iff, Nat.eqb_neq. rewrite E1. intros ->. apply D1. apply in_map_iff. exists (k', i). auto.
      - rewrite Ek. now apply (step_ok G g False). }
    unfold dissolve. fold M. cbn [fst snd]. pose proof (find_id M w Ids Iw) as Fd. rewrite Ei in Fd. rewrite Fd, Ew. unfold wire_of. destruct (k_in k) eqn:Kk.
    - (* an input *)
      assert (move_sinks (k_port k) (k_sig k) g false M = Ok M') as Ms.
      { assert (M' = map (move_item (k_port k) (k_sig k) g) M) as -> by (unfold M', step1; now rewrite Kk). unfold move_sinks.
        match goal with |- (if ?c then _ else _) = _ => destruct c eqn:X end; [|reflexivity]. exfalso. apply throws_when in X. destruct X as (s0 & (it & I & E & Is) & St).
        assert (reads (k_port k) (body it)) as R by (exists s0; split; [exact Is|now apply stuck_reads]).
        destruct (at_cases _ _ it A I) as [(k' & J & P)|J]; [|now apply (ok_in _ _ _ _ _ O k it Ik Kk J) in St].
        rewrite P in R. apply wire_reads_k in R. destruct J as [J|J]; [injection J as -> _; rewrite Kk in R; congruence|]. destruct (Ap k' _ J) as (P1 & P2 & P3). destruct (k_in k'); congruence. }
      rewrite Ms. cbn [obind].
      assert (drop_design (assigns_to (k_port k)) M' = Mn) as Dr.
      { unfold Mn. apply drop_one.
        - intros it I E. unfold M' in I. apply in_map_iff in I. destruct I as (it0 & <- & I). rewrite Idk in E. rewrite (Uw it0 I E), Fw. unfold drop_item. rewrite Ew. unfold wire_of. rewrite Kk. cbn. now rewrite Nat.eqb_refl.
        - intros it I E s0 Is. unfold M' in I. apply in_map_iff in I. destruct I as (it0 & <- & I). rewrite Idk in E. destruct (assigns_to (k_port k) s0) eqn:X; [|reflexivity]. exfalso.
          apply assigns_to_spec in X. destruct X as (kd & l & e & -> & V). apply (proj1 (Ot it0 I E) eq_refl). left.
          assert (assigns (k_port k) (body (step1 g k it0))) as As by (exists kd, l, e; auto). unfold step1, move_item in As. rewrite Kk in As. destruct (Nat.eqb (i_gen it0) g); [|exact As]. cbn [i_proc] in As. rewrite move_body in As. rewrite ms_assigns in As. exact As. }
      eexists. split; [reflexivity|]. cbn [o_design o_map o_sigs o_old]. rewrite Dr. split; [exact At|]. split; [exact Ek|]. unfold after. cbn [o_design o_map o_sigs o_old map mp fst]. split; [reflexivity|]. split; [reflexivity|]. split; [reflexivity|].
      intros v. split; [now left|]. intros [X|(w0 & [<-|[]] & K0 & _)]; [exact X|]. cbn in K0. congruence.
    - (* an output *)
      assert (M' = map (to_in g (k_port k) (k_sig k)) M) as EM by (unfold M', step1; now rewrite Kk). rewrite <- EM.
      assert (forall it s0, In it M' -> i_id it <> i -> inside s0 (body it) -> assign_reads (k_port k) s0 = false) as Nr.
      { intros it s0 I E Is. unfold M' in I. apply in_map_iff in I. destruct I as (it0 & <- & I). rewrite Idk in E. destruct (assign_reads (k_port k) s0) eqn:X; [|reflexivity]. exfalso.
        apply (proj2 (Ot it0 I E) eq_refl). assert (reads (k_port k) (body (step1 g k it0))) as R.
        { exists s0. split; [exact Is|]. destruct s0; try discriminate. cbn in X. apply mem_in, in_app_iff in X. now constructor. }
        unfold step1, to_in in R. rewrite Kk in R. destruct (Nat.eqb (i_gen it0) g); [|exact R]. now rewrite to_body, reads_to in R. }
      assert (assign_reads (k_port k) (SAssign Blocking (LVar (k_sig k)) (EVar (k_port k))) = true) as Yr by (cbn; rewrite Nat.eqb_refl; reflexivity).
      assert (drop_design (assign_reads (k_port k)) M' = Mn) as Dr.
      { unfold Mn. apply drop_one.
        - intros it I E. unfold M' in I. apply in_map_iff in I. destruct I as (it0 & <- & I). rewrite Idk in E. rewrite (Uw it0 I E), Fw. unfold drop_item. rewrite Ew. unfold wire_of. rewrite Kk. now rewrite Yr.
        - intros it I E s0 Is. now apply (Nr it). }
      eexists. split; [reflexivity|]. cbn [o_design o_map o_sigs o_old]. rewrite Dr. split; [exact At|]. split; [exact Ek|]. unfold after. cbn [o_design o_map o_sigs o_old map mp fst]. split; [reflexivity|]. split; [reflexivity|]. split; [reflexivity|].
      intros v. rewrite in_app_iff. apply or_iff_compat_l. rewrite in_flat_map. split.
      + intros ((it, s0) & I & Hv). apply statements_in in I. destruct I as (I & Is & X). exists (k, i). split; [now left|]. split; [exact Kk|]. cbn [fst].
        destruct (Nat.eq_dec (i_id it) i) as [E|E]; [|rewrite (Nr it s0 I E Is) in X; discriminate]. unfold M' in I. apply in_map_iff in I. destruct I as (it0 & <- & I). rewrite Idk in E.
        rewrite (Uw it0 I E), Fw, Ew in Is. unfold wire_of in Is. rewrite Kk in Is. apply wire_in in Is. subst s0. cbn in Hv. destruct Hv as [<-|[]]. reflexivity.
      + intros (w0 & [<-|[]] & _ & <-). exists (w, SAssign Blocking (LVar (k_sig k)) (EVar (k_port k))). split; [|now left]. apply statements_in. split; [|split; [|exact Yr]].
        * unfold M'. apply in_map_iff. exists w. auto.
        * rewrite Ew. unfold wire_of. rewrite Kk. apply in_here. now left.
  Qed.
  Lemma dissolve_loop : forall W s, at_ W (o_design s) -> exists s', dissolve_all g (map (fun w => (k_in (fst w), snd w)) W) s = Ok s' /\
    after s W (steps g (map fst W) (filter (kept W) (o_design s))) s'.
  Proof.
    induction W as [|[k i] W IH]; intros s A; cbn [map dissolve_all fst snd].
    - exists s. split; [reflexivity|]. unfold after. cbn. rewrite !app_nil_r. assert (filter (kept []) (o_design s) = o_design s) as -> by (clear; induction (o_design s) as [|a l IH]; [reflexivity|]; cbn; fold (kept []) in *; f_equal; exact IH).
      repeat (split; [reflexivity|]). intros v. split; [now left|]. intros [X|(w & [] & _)]. exact X.
    - destruct (dissolve_step k i W s A) as (s1 & E1 & A1 & F1 & (B1 & B2 & B3 & B4)). rewrite E1. cbn [obind]. destruct (IH s1 A1) as (s' & E' & (C1 & C2 & C3 & C4)). exists s'. split; [exact E'|].
      unfold after. cbn [map steps fold_left fst]. unfold steps in C1. rewrite <- F1. split; [exact C1|]. split; [rewrite C2, B2; cbn; now rewrite <- app_assoc|]. split; [rewrite C3, B3; cbn; now rewrite <- app_assoc|].
      intros v. rewrite C4, B4. split.
      + intros [[X|(w & [<-|[]] & X)]|(w & I & X)]; [now left|right; eexists; split; [now left|exact X]|right; exists w; split; [now right|exact X]].
      + intros [X|(w & [<-|I] & X)]; [left; now left|left; right; eexists; split; [now left|exact X]|right; exists w; auto].
  Qed.
End Loop.
