From Verif Require Import Base SV_spec IR IRSem_spec IR_lemmas IfCase_proofs IR_frame Design_spec Design_proofs Dce_spec Dce_model Dce_proofs
  Fan_spec Fan_model Retarget_proofs Fan_proofs Tie_model Move_spec Move_model Move_proofs Move_props Pass_spec Pass_model.
Local Open Scope Z_scope.

Lemma reads_dec : forall x l, reads x l \/ ~ reads x l.
Proof.
  intros x l. destruct (in_dec Nat.eq_dec x (collect_body stmt_sinks l)) as [I|N].
  - left. apply collect_in in I. destruct I as (s & I & J). exists s. split; [exact I|now apply reads_sinks].
  - right. intros (s & I & J). apply N. apply collect_in. exists s. split; [exact I|now apply reads_sinks].
Qed.
Lemma changes_touches : forall x l, changes_now x l -> touches x l.
Proof. intros x l [(k & lh & e & I & _ & V)|B]; [left; exists k, lh, e; auto|right; exact B]. Qed.

(* signals nothing reads or writes can have any value *)
Section Hide.
  Variables (G : tenv) (d : design) (hid : var -> bool) (f : venv -> venv).
  Hypothesis Hd : forall x it, hid x = true -> In it d -> ~ reads x (body_of (i_proc it)) /\ ~ touches x (body_of (i_proc it)).
  Hypothesis He : forall x, hid x = true -> ~ d_event x d.
  Hypothesis Hf : forall r x, hid x = false -> f r x = r x.
  Lemma hide_off : forall it, In it d -> forall x, reads x (body_of (i_proc it)) \/ touches x (body_of (i_proc it)) -> hid x = false.
  Proof. intros it I x X. destruct (hid x) eqn:E; [|reflexivity]. destruct (Hd x it E I). tauto. Qed.
  Lemma hide_settled : forall r, settled G d r -> settled G d (f r).
  Proof.
    intros r S0 it I E x. destruct (hid x) eqn:Hx; [apply activate_off; now apply (Hd x it)|].
    rewrite (unread_activate G hid _ (f r) r (hide_off it I)); [rewrite (S0 it I E); symmetry; now apply Hf| |exact Hx]. intros y Hy. now apply Hf.
  Qed.
  Lemma hide_fired : forall r r', fired G d (f r) (f r') = fired G d r r'.
  Proof.
    intros r r'. unfold fired. assert (forall it, In it d -> existsb (edge G (f r) (f r')) (events_of (i_proc it)) = existsb (edge G r r') (events_of (i_proc it))) as K.
    { intros it I. assert (forall e, In e (events_of (i_proc it)) -> hid (snd e) = false) as O.
      { intros e Ie. destruct (hid (snd e)) eqn:X; [|reflexivity]. exfalso. apply (He _ X). exists it, e. auto. }
      induction (events_of (i_proc it)) as [|e l IH]; [reflexivity|]. cbn [existsb]. rewrite IH by (intros; apply O; now right). f_equal. unfold edge. cbn [ev]. now rewrite !Hf by (apply O; now left). }
    clear Hd He. induction d as [|it l IH]; [reflexivity|]. cbn [filter]. rewrite (K it (or_introl eq_refl)). rewrite IH; [reflexivity|]. intros it' I. apply K. now right.
  Qed.
  Lemma hide_queue : forall r l, (forall it, In it l -> In it d) -> flat_map (fun it => queued G it (f r)) l = flat_map (fun it => queued G it r) l.
  Proof.
    intros r l Hl. induction l as [|it l IH]; [reflexivity|]. cbn [flat_map]. rewrite IH by (intros; apply Hl; now right). f_equal. unfold queued.
    apply (unread_run G hid _ (f r) r (hide_off it (Hl it (or_introl eq_refl)))). intros y Hy. now apply Hf.
  Qed.
  Lemma hide_history : forall h, history G d h -> history G d (map f h).
  Proof.
    intros h Hh. induction Hh as [r S0|r r' l Hh IH [S0 N]]; cbn [map]; [apply h_first; now apply hide_settled|]. apply h_next; [exact IH|]. split; [now apply hide_settled|].
    intros x C. rewrite hide_fired, hide_queue by (intros it I; unfold fired in I; apply filter_In in I; tauto).
    assert (hid x = false) as Hx. { destruct C as (it & I & _ & As). apply (hide_off it I). right. now left. }
    rewrite Hf by exact Hx. rewrite (N x C). apply writes_at. symmetry. now apply Hf.
  Qed.
End Hide.

(* ---- one input i with output o in generator g; n replaces them ---- *)
Record pair_ok (G : tenv) (d : design) (g c : nat) (i o n : var) : Prop := {
  pk_gc : g <> c; pk_io : i <> o; pk_in_ : i <> n; pk_on : o <> n; pk_Gi : G i = G n; pk_Go : G o = G n;
  pk_in : forall it, In it d -> (reads i (body_of (i_proc it)) -> i_gen it = c) /\ (touches i (body_of (i_proc it)) -> i_gen it = g) /\ ~ loops_over i (body_of (i_proc it));
  pk_out : forall it, In it d -> (reads o (body_of (i_proc it)) -> i_gen it = g) /\ (touches o (body_of (i_proc it)) -> i_gen it = c);
  pk_event : ~ d_event i d /\ ~ d_event o d /\ ~ d_event n d;
  pk_order : forall it, In it d -> reads o (body_of (i_proc it)) -> ~ changes_now i (body_of (i_proc it));
  pk_moves : forall it s, In it d -> i_gen it = g -> inside s (body_of (i_proc it)) -> ~ holds o s /\ ~ stuck o s;
  pk_new : forall it, In it d -> ~ reads n (body_of (i_proc it)) /\ ~ touches n (body_of (i_proc it)) }.
Definition pair_item (g : nat) (i o n : var) (it : item) : item :=
  if Nat.eqb (i_gen it) g then {| i_id := i_id it; i_gen := i_gen it; i_proc := move_proc o n (to_proc i n (i_proc it)) |} else it.
Definition pair_step (g : nat) (i o n : var) (d : design) : design := map (pair_item g i o n) d.

Section Pair.
  Variables (G : tenv) (d : design) (g c : nat) (i o n : var).
  Hypothesis PK : pair_ok G d g c i o n.
  Notation body it := (body_of (i_proc it)).
  Notation ts := (to_stmt i n).
  Notation ms := (move_stmt o n).
  Notation tv := (fun x => if Nat.eqb x i then n else x).
  Lemma pair_body : forall it, i_gen it = g -> body (pair_item g i o n it) = map ms (map ts (body it)).
  Proof. intros it E. unfold pair_item. rewrite E, Nat.eqb_refl. cbn [i_proc]. rewrite move_body. f_equal. destruct (i_proc it); reflexivity. Qed.
  Lemma pair_gen : forall it, i_gen (pair_item g i o n it) = i_gen it.
  Proof. intros it. unfold pair_item. now destruct (Nat.eqb (i_gen it) g). Qed.
  Lemma pair_else : forall it, i_gen it <> g -> pair_item g i o n it = it.
  Proof. intros it E. unfold pair_item. destruct (Nat.eqb_spec (i_gen it) g); [contradiction|reflexivity]. Qed.
  Lemma pair_events : forall it, events_of (i_proc (pair_item g i o n it)) = events_of (i_proc it).
  Proof. intros it. unfold pair_item. destruct (Nat.eqb (i_gen it) g); [|reflexivity]. cbn [i_proc]. rewrite move_events. now destruct (i_proc it). Qed.
  Lemma pair_fit : forall it, In it d -> i_gen it = g -> forall s, inside s (body it) -> fit i n False s.
  Proof.
    intros it I Eg s Is. destruct (pk_in _ _ _ _ _ _ _ PK it I) as (Ri & Ti & Li). destruct (pk_new _ _ _ _ _ _ _ PK it I) as [Rn Tn].
    assert (forall x, reads_stmt x s -> x <> i /\ (x = n -> False)) as K.
    { intros x R. split; intros ->; [|apply Rn; exists s; auto]. apply (pk_gc _ _ _ _ _ _ _ PK). rewrite <- Eg. apply Ri. exists s; auto. }
    unfold fit, may_read. destruct s as [k l e|c0 t f|e cs dd|v a b st bd|bd|e| |k]; auto; try (intros x J; apply K; now constructor).
    - split; [intros x J; apply K; constructor; auto|]. split; [intros x J; apply K; constructor; auto|]. split; [|tauto]. intros X. apply Tn. left. exists k, l, e. auto.
    - split; intros ->; [apply Li|apply Tn; right]; do 4 eexists; exact Is.
  Qed.
  Lemma pair_steady : forall it, In it d -> i_gen it = g -> reads o (body it) -> steady o n (map ts (body it)).
  Proof.
    intros it I Eg R. destruct (pk_in _ _ _ _ _ _ _ PK it I) as (Ri & Ti & Li). destruct (pk_new _ _ _ _ _ _ _ PK it I) as [Rn Tn]. destruct (pk_out _ _ _ _ _ _ _ PK it I) as [Ro To].
    assert (forall x, changes_now x (map ts (body it)) -> exists y, changes_now y (body it) /\ x = tv y) as K.
    { intros x [(k & l & e & J & N & V)|(a & b & st & bd & J)].
      - apply to_inside in J. destruct J as (s0 & J & E). destruct s0; try discriminate. cbn in E. injection E as -> -> ->. rewrite to_var in V. exists (lhs_var l0). split; [|symmetry; exact V]. left. do 3 eexists. eauto.
      - assert (loops_over x (map ts (body it))) as L by (do 4 eexists; exact J). apply (proj1 (loops_to i n x _)) in L. exists x. split; [right; exact L|]. destruct (Nat.eqb_spec x i) as [->|]; [contradiction|reflexivity]. }
    split; intros X; apply K in X; destruct X as (y & Cy & E); destruct (Nat.eqb_spec y i) as [->|Ny].
    - exact (pk_on _ _ _ _ _ _ _ PK E).
    - subst y. apply (pk_gc _ _ _ _ _ _ _ PK). rewrite <- Eg. apply To. now apply changes_touches.
    - exact (pk_order _ _ _ _ _ _ _ PK it I R Cy).
    - subst y. apply Tn. now apply changes_touches.
  Qed.
  Definition eqp (r : venv) : Prop := r i = r n /\ r o = r n.
  Lemma pair_run : forall it r, In it d -> i_gen it = g -> eqp r -> run G (body (pair_item g i o n it)) (start_state r) = run G (map ts (body it)) (start_state r).
  Proof.
    intros it r I Eg [E1 E2]. rewrite (pair_body it Eg). destruct (reads_dec o (body it)) as [R|N].
    - apply (ms_run o n G (pk_Go _ _ _ _ _ _ _ PK)); [now apply pair_steady|exact E2].
    - rewrite (ms_none_body o n); [reflexivity|]. now rewrite reads_to.
  Qed.
  Lemma pair_still : forall it r, In it d -> i_gen it = g -> eqp r ->
    (forall x, activate G (body it) r x = r x) <-> (forall x, activate G (body (pair_item g i o n it)) r x = r x).
  Proof.
    intros it r I Eg Q. unfold activate at 2. rewrite (pair_run it r I Eg Q). fold (activate G (map ts (body it)) r). destruct Q as [E1 E2].
    destruct (to_activate G i n (r i) False (pk_in_ _ _ _ _ _ _ _ PK) (pk_Gi _ _ _ _ _ _ _ PK) (body it) r eq_refl (eq_sym E1) (pair_fit it I Eg)) as (A & B & C & D).
    split; intros S0 x.
    - destruct (Nat.eq_dec x i) as [->|Ni]; [exact D|]. destruct (Nat.eq_dec x n) as [->|Nn]; [rewrite B, S0; exact E1|]. now rewrite A.
    - destruct (Nat.eq_dec x i) as [->|Ni]; [rewrite <- B, S0; now symmetry|]. destruct (Nat.eq_dec x n) as [->|Nn]; [now rewrite C|]. now rewrite <- A.
  Qed.
  Lemma pair_settled : forall r, eqp r -> settled G d r <-> settled G (pair_step g i o n d) r.
  Proof.
    intros r Q. split; intros S0 it I E.
    - apply in_map_iff in I. destruct I as (it0 & <- & I). rewrite pair_events in E. destruct (Nat.eq_dec (i_gen it0) g) as [Eg|Ng].
      + apply (pair_still it0 r I Eg Q). exact (S0 it0 I E).
      + rewrite (pair_else it0 Ng). exact (S0 it0 I E).
    - pose proof (in_map (pair_item g i o n) _ _ I) as I'. specialize (S0 _ I'). rewrite pair_events in S0. specialize (S0 E). destruct (Nat.eq_dec (i_gen it) g) as [Eg|Ng].
      + apply (pair_still it r I Eg Q). exact S0.
      + rewrite (pair_else it Ng) in S0. exact S0.
  Qed.
  Lemma pair_queue : forall r r', eqp r ->
    flat_map (fun it => queued G it r) (fired G (pair_step g i o n d) r r') = map (to_write i n) (flat_map (fun it => queued G it r) (fired G d r r')) /\
    Forall (fun u => w_var u <> n) (flat_map (fun it => queued G it r) (fired G d r r')).
  Proof.
    intros r r' Q. assert (forall it, In it d -> queued G (pair_item g i o n it) r = map (to_write i n) (queued G it r) /\ Forall (fun u => w_var u <> n) (queued G it r)) as K.
    { intros it I. destruct (Nat.eq_dec (i_gen it) g) as [Eg|Ng].
      - destruct Q as [E1 E2]. destruct (to_queued G i n (r i) False (pk_in_ _ _ _ _ _ _ _ PK) (pk_Gi _ _ _ _ _ _ _ PK) it r eq_refl (eq_sym E1) (pair_fit it I Eg)) as [A B]. split; [|exact B].
        rewrite <- A. unfold queued. rewrite (pair_run it r I Eg (conj E1 E2)). now rewrite to_body.
      - rewrite (pair_else it Ng). destruct (pk_in _ _ _ _ _ _ _ PK it I) as (_ & Ti & _). destruct (pk_new _ _ _ _ _ _ _ PK it I) as [_ Tn].
        assert (forall y, ~ touches y (body it) -> Forall (fun u => w_var u <> y) (queued G it r)) as S1.
        { intros y Ny. pose proof (seen_run G (Nat.eqb y) (body it) r) as F. unfold queued. eapply Forall_impl; [|apply F].
          - intros u Hu X. cbn in Hu. apply Nat.eqb_neq in Hu. congruence.
          - intros x Tx. apply Nat.eqb_neq. intros ->. contradiction. }
        split; [|now apply S1]. assert (Forall (fun u => w_var u <> i) (queued G it r)) as F by (apply S1; intros X; now apply Ng, Ti).
        clear S1. induction F as [|u l Hu _ IH]; [reflexivity|]. cbn [map]. rewrite <- IH. f_equal. unfold to_write. destruct (Nat.eqb_spec (w_var u) i); [contradiction|now destruct u]. }
    unfold fired, pair_step. clear PK. induction d as [|it l IH]; [split; [reflexivity|constructor]|]. cbn [map filter]. rewrite pair_events.
    destruct (IH (fun it' I => K it' (or_intror I))) as [A B]. destruct (existsb _ (events_of (i_proc it))); [|split; assumption].
    cbn [flat_map]. destruct (K it (or_introl eq_refl)) as [C D]. rewrite C, A, map_app. split; [reflexivity|]. apply Forall_app; split; assumption.
  Qed.
  Lemma pair_assigns : forall it x, i_gen it = g -> assigns x (body (pair_item g i o n it)) <-> exists y, assigns y (body it) /\ x = tv y.
  Proof. intros it x Eg. rewrite (pair_body it Eg), ms_assigns, assigns_to_iff. reflexivity. Qed.
  Lemma pair_clocked : forall x, clocked (pair_step g i o n d) x <-> exists y, clocked d y /\ x = tv y.
  Proof.
    intros x. split.
    - intros (it & I & E & As). apply in_map_iff in I. destruct I as (it0 & <- & I). rewrite pair_events in E. destruct (Nat.eq_dec (i_gen it0) g) as [Eg|Ng].
      + apply pair_assigns in As; [|exact Eg]. destruct As as (y & As & ->). exists y. split; [exists it0; auto|reflexivity].
      + rewrite (pair_else it0 Ng) in As. exists x. split; [exists it0; auto|]. destruct (Nat.eqb_spec x i) as [->|]; [|reflexivity]. exfalso. apply Ng. apply (pk_in _ _ _ _ _ _ _ PK it0 I). now left.
    - intros (y & (it & I & E & As) & ->). exists (pair_item g i o n it). split; [now apply in_map|]. split; [now rewrite pair_events|]. destruct (Nat.eq_dec (i_gen it) g) as [Eg|Ng].
      + apply pair_assigns; [exact Eg|]. exists y. auto.
      + rewrite (pair_else it Ng). destruct (Nat.eqb_spec y i) as [->|]; [|exact As]. exfalso. apply Ng. apply (pk_in _ _ _ _ _ _ _ PK it I). now left.
  Qed.
  Lemma pair_next : forall r r', eqp r -> eqp r' -> next G d r r' <-> next G (pair_step g i o n d) r r'.
  Proof.
    intros r r' Q Q'. unfold next. rewrite (pair_settled r' Q'). destruct (pair_queue r r' Q) as [-> F].
    destruct (writes_to i n (pk_in_ _ _ _ _ _ _ _ PK) (flat_map (fun it => queued G it r) (fired G d r r')) r r (fun _ _ _ => eq_refl) (eq_sym (proj1 Q)) F) as (W1 & W2 & W3 & W4).
    apply and_iff_compat_l. split; intros N x C.
    - apply pair_clocked in C. destruct C as (y & C & ->). destruct (Nat.eqb_spec y i) as [->|Ny].
      + rewrite W2, <- (N i C). symmetry. apply Q'.
      + destruct (Nat.eq_dec y n) as [->|Nn]; [|rewrite W1 by assumption; now apply N]. exfalso. destruct C as (it & I & _ & As). apply (pk_new _ _ _ _ _ _ _ PK it I). now left.
    - assert (clocked (pair_step g i o n d) (tv x)) as C' by (apply pair_clocked; exists x; auto). specialize (N _ C'). cbn in N. destruct (Nat.eqb_spec x i) as [E0|Nx]; [subst x|].
      + rewrite <- W2, <- N. apply Q'.
      + destruct (Nat.eq_dec x n) as [->|Nn]; [|rewrite <- W1 by assumption; exact N]. exfalso. destruct C as (it & I & _ & As). apply (pk_new _ _ _ _ _ _ _ PK it I). now left.
  Qed.
  Lemma pair_history : forall h, Forall eqp h -> history G d h <-> history G (pair_step g i o n d) h.
  Proof.
    intros h Q. split; intros Hh.
    - induction Hh as [r S0|r r' l Hh IH N]; inversion Q as [|? ? Q1 Q2]; subst; [apply h_first; now apply pair_settled|]. inversion Q2; subst. apply h_next; [now apply IH|]. now apply pair_next.
    - induction Hh as [r S0|r r' l Hh IH N]; inversion Q as [|? ? Q1 Q2]; subst; [apply h_first; now apply pair_settled|]. inversion Q2; subst. apply h_next; [now apply IH|]. now apply pair_next.
  Qed.
End Pair.

(* ---- what a step changes ---- *)
Section Others.
  Variables (g : nat) (i o n : var) (x : var).
  Hypothesis Xi : x <> i.
  Hypothesis Xo : x <> o.
  Hypothesis Xn : x <> n.
  Notation ts := (to_stmt i n).
  Notation ms := (move_stmt o n).
  Lemma ms_reads : forall s, reads_stmt x (ms s) -> reads_stmt x s.
  Proof using Xo Xn.
    clear Xi. assert (forall e, In x (evars (moved_test o n e)) -> In x (evars e)) as K by (intros e; apply (partly_reads o n e _ x (moved_test_partly o n e) Xo Xn)).
    intros s R. destruct s as [k l e|c t f|e cs dd|v a b st bd|bd|e| |k]; try (inversion R; fail).
    - rewrite ms_assign in R. inversion R as [? ? ? R0| | |]; subst. constructor. destruct R0 as [R0|R0]; [now left|right]. now apply (partly_reads o n e _ x (moved_right_partly o n k l e) Xo Xn).
    - cbn [move_stmt] in R. fold (moved_test o n c) in R. inversion R; subst. constructor. now apply K.
    - cbn [move_stmt] in R. fold (moved_test o n e) in R. inversion R; subst. constructor. now apply K.
    - cbn [move_stmt] in R. fold (moved_test o n e) in R. inversion R; subst. constructor. now apply K.
  Qed.
  Lemma ms_loops : forall y l, loops_over y (map ms l) -> loops_over y l.
  Proof using.
    clear. intros y l (a & b & st & bd & I). apply ms_inside in I. destruct I as (s0 & I & E). destruct s0 as [k0 l0 e0| | |v0 a0 b0 st0 bd0| | | |]; try discriminate; [rewrite ms_assign in E; discriminate|].
    cbn in E. injection E as -> -> -> -> ->. do 4 eexists. exact I.
  Qed.
  Lemma step_inside : forall s l, inside s (map ms (map ts l)) -> exists s0, inside s0 l /\ s = ms (ts s0).
  Proof using. clear. intros s l I. apply ms_inside in I. destruct I as (s1 & I & ->). apply to_inside in I. destruct I as (s0 & I & ->). eauto. Qed.
  Lemma step_reads : forall l, reads x (map ms (map ts l)) -> reads x l.
  Proof using Xo Xn. clear Xi. intros l (s & I & R). apply step_inside in I. destruct I as (s0 & I & ->). exists s0. split; [exact I|]. apply ms_reads in R. now apply reads_ts in R. Qed.
  Lemma step_loops : forall y l, loops_over y (map ms (map ts l)) -> loops_over y l.
  Proof using. clear. intros y l L. apply ms_loops in L. now apply (proj1 (loops_to i n y _)) in L. Qed.
  Lemma step_assigns : forall l, assigns x (map ms (map ts l)) -> assigns x l.
  Proof using Xn. clear Xi Xo. intros l As. apply (proj1 (ms_assigns o n x _)) in As. apply (proj1 (assigns_to_iff i n x _)) in As. destruct As as (y & As & ->). unfold tv in *. destruct (Nat.eqb_spec y i) as [E0|]; [congruence|exact As]. Qed.
  Lemma step_touches : forall l, touches x (map ms (map ts l)) -> touches x l.
  Proof using Xn. clear Xi Xo. intros l [As|L]; [left; now apply step_assigns|right]. now apply (step_loops x l). Qed.
  Lemma step_changes : forall l, changes_now x (map ms (map ts l)) -> changes_now x l.
  Proof using Xn.
    clear Xi Xo. intros l [(k & lh & e & I & N & V)|L]; [left|right; now apply (step_loops x l)]. apply step_inside in I. destruct I as (s0 & I & E).
    destruct s0 as [k0 l0 e0| | | | | | |]; try discriminate. cbn [to_stmt] in E. rewrite ms_assign in E. injection E as -> -> ->. rewrite to_var in V. exists k0, l0, e0. split; [exact I|]. split; [exact N|].
    revert V. unfold tv. destruct (Nat.eqb_spec (lhs_var l0) i); congruence.
  Qed.
  (* uses of other signals stay where they are *)
  Lemma partly_root : forall e e', partly o n e e' -> root e' = Some x <-> root e = Some x.
  Proof using Xo Xn. clear Xi. intros e e' Pa. induction Pa; cbn [root]; try tauto. split; congruence. Qed.
  Lemma partly_here : forall e e', partly o n e e' -> e' = EVar x <-> e = EVar x.
  Proof using Xo Xn. clear Xi. intros e e' Pa. destruct Pa; split; congruence. Qed.
  Lemma partly_members : forall e e', partly o n e e' -> Forall2 (partly o n) (members e) (members e').
  Proof using.
    clear. intros e e' Pa. induction Pa; cbn [members]; try (repeat constructor; assumption). apply Forall2_app; [exact IHPa1|]. repeat constructor. exact Pa2.
  Qed.
  Lemma partly_member : forall l l', Forall2 (partly o n) l l' -> forall p', In p' l' -> exists p, In p l /\ partly o n p p'.
  Proof using. clear. intros l l' F. induction F as [|p q l l' Hp _ IH]; intros p0 I; [destruct I|]; destruct I as [<-|I]; [eexists; split; [now left|exact Hp]|]. destruct (IH p0 I) as (p1 & I0 & H0). exists p1. split; [now right|exact H0]. Qed.
  Lemma partly_hides : forall e', hides x e' -> forall e, partly o n e e' -> hides x e.
  Proof using Xo Xn.
    clear Xi. assert (forall e e', partly o n e e' -> In x (evars e') -> In x (evars e)) as PR by (intros e e' Pa; apply (partly_reads o n e e' x Pa Xo Xn)).
    induction 1 as [z w R|z w Hh IH|op z Hh IH|op y z Hh IH|op y z Hh IH|c y z R N|c y z Hh IH|c y z Hh IH|c y z Hh IH|z hi lo R I|y z p I R N|y z l1 l2 l3 E|y z p I Hh IH]; intros e Pa; inversion Pa; subst.
    - match goal with Hp : partly o n _ z |- _ => apply hd_extended; now apply (partly_root _ _ Hp) end.
    - apply hd_extend. now apply IH.
    - apply hd_un. now apply IH.
    - apply hd_left. now apply IH.
    - apply hd_right. now apply IH.
    - match goal with Hp : partly o n _ c |- _ => apply hd_test_slice; [now apply (partly_root _ _ Hp)|]; intros X; apply N; now apply (partly_here _ _ Hp) end.
    - apply hd_test. now apply IH.
    - apply hd_then. now apply IH.
    - apply hd_else. now apply IH.
    - match goal with Hp : partly o n _ z |- _ => apply hd_sliced; [intros X; apply R; now apply (partly_root _ _ Hp)|]; now apply (PR _ _ Hp) end.
    - destruct (partly_member _ _ (partly_members _ _ Pa) p I) as (p0 & I0 & P0). apply (hd_member_slice x _ _ p0 I0); [now apply (partly_root _ _ P0)|]. intros X. apply N. now apply (partly_here _ _ P0).
    - pose proof (partly_members _ _ Pa) as F. rewrite E in F. apply Forall2_app_inv_r in F. destruct F as (m1 & m2 & F1 & F2 & Em). inversion F2 as [|p q m3 ? Hp F3]; subst.
      apply Forall2_app_inv_r in F3. destruct F3 as (m4 & m5 & F4 & F5 & ->). inversion F5 as [|p2 q2 m6 ? Hp2 F6]; subst.
      rewrite (proj1 (partly_here _ _ Hp) eq_refl), (proj1 (partly_here _ _ Hp2) eq_refl) in Em. apply (hd_member_twice x _ _ m1 m4 m6). exact Em.
    - destruct (partly_member _ _ (partly_members _ _ Pa) p I) as (p0 & I0 & P0). apply (hd_member x _ _ p0 I0). now apply IH.
  Qed.
  Lemma partly_elsewhere : forall e e', partly o n e e' -> elsewhere x e' -> elsewhere x e.
  Proof using Xo Xn.
    clear Xi. intros e e' Pa. destruct Pa; cbn [elsewhere]; auto; try congruence. intros N X. apply N. cbn [root] in *. now apply (partly_root _ _ Pa).
  Qed.
  Lemma step_holds : forall s, holds x (ms (ts s)) -> holds x s.
  Proof using Xo Xn.
    clear Xi. assert (forall e, root (moved_test o n e) = Some x \/ hides x (moved_test o n e) -> root e = Some x \/ hides x e) as K.
    { intros e [X|X]; [left; now apply (partly_root _ _ (moved_test_partly o n e))|right]. now apply (partly_hides _ X e (moved_test_partly o n e)). }
    intros s Hh. destruct s as [k l e|c t f|e cs dd|v a b st bd|bd|e| |k]; cbn [to_stmt] in Hh; try (inversion Hh; fail).
    - rewrite ms_assign in Hh. inversion Hh; subst; [apply ho_index; now rewrite to_reads_l in *|]. apply ho_assign. match goal with X : hides _ _ |- _ => exact (partly_hides _ X e (moved_right_partly o n k (to_lhs i n l) e)) end.
    - cbn [move_stmt] in Hh. fold (moved_test o n c) in Hh. inversion Hh; subst. constructor. now apply K.
    - cbn [move_stmt] in Hh. fold (moved_test o n e) in Hh. inversion Hh; subst. constructor. now apply K.
    - cbn [move_stmt] in Hh. fold (moved_test o n e) in Hh. inversion Hh; subst. constructor. now apply K.
  Qed.
  Lemma step_stuck : forall s, stuck x (ms (ts s)) -> stuck x s.
  Proof using Xo Xn.
    clear Xi. assert (forall e e', partly o n e e' -> In x (evars e') -> In x (evars e)) as PR by (intros e e' Pa; apply (partly_reads o n e e' x Pa Xo Xn)).
    intros s Hh. destruct s as [k l e|c t f|e cs dd|v a b st bd|bd|e| |k]; cbn [to_stmt] in Hh; try (inversion Hh; fail).
    - rewrite ms_assign in Hh. pose proof (moved_right_partly o n k (to_lhs i n l) e) as Pa. inversion Hh as [? ? ? R E| | |]; subst. constructor; [|now apply (partly_elsewhere _ _ Pa)].
      rewrite to_reads_l in R. destruct R as [R|R]; [now left|right; now apply (PR _ _ Pa)].
    - cbn [move_stmt] in Hh. fold (moved_test o n c) in Hh. pose proof (moved_test_partly o n c) as Pa. inversion Hh; subst. constructor; [now apply (PR _ _ Pa)|now apply (partly_elsewhere _ _ Pa)].
    - cbn [move_stmt] in Hh. fold (moved_test o n e) in Hh. pose proof (moved_test_partly o n e) as Pa. inversion Hh; subst. constructor; [now apply (PR _ _ Pa)|now apply (partly_elsewhere _ _ Pa)].
    - cbn [move_stmt] in Hh. fold (moved_test o n e) in Hh. pose proof (moved_test_partly o n e) as Pa. inversion Hh; subst. constructor; [now apply (PR _ _ Pa)|now apply (partly_elsewhere _ _ Pa)].
  Qed.
End Others.

(* ---- several inputs of several instances ---- *)
Record lnk := { l_c : nat; l_i : var; l_o : var; l_n : var }.
Record apart (l m : lnk) : Prop := {
  ap_ii : l_i l <> l_i m; ap_io : l_i l <> l_o m; ap_in : l_i l <> l_n m;
  ap_oi : l_o l <> l_i m; ap_oo : l_o l <> l_o m; ap_on : l_o l <> l_n m;
  ap_ni : l_n l <> l_i m; ap_no : l_n l <> l_o m; ap_nn : l_n l <> l_n m }.
Lemma apart_sym : forall l m, apart l m -> apart m l.
Proof. intros l m A. destruct A. constructor; congruence. Qed.

Section Links.
  Variables (G : tenv) (g : nat).
  Notation body it := (body_of (i_proc it)).
  Definition ok (d : design) (l : lnk) : Prop := pair_ok G d g (l_c l) (l_i l) (l_o l) (l_n l).
  Definition stepl (d : design) (l : lnk) : design := pair_step g (l_i l) (l_o l) (l_n l) d.
  Definition wire_of (l : lnk) : proc := PWire (LVar (l_o l)) (EVar (l_i l)).
  Definition wired (d : design) (l : lnk) : Prop :=
    (exists it, In it d /\ i_gen it = l_c l /\ i_proc it = wire_of l) /\ (forall it, In it d -> reads (l_i l) (body it) -> i_proc it = wire_of l).
  Record done_ok (d : design) (l : lnk) : Prop := {
    dn_gc : g <> l_c l;
    dn_i : forall it, In it d -> (reads (l_i l) (body it) -> i_gen it = l_c l) /\ ~ touches (l_i l) (body it);
    dn_o : forall it, In it d -> ~ reads (l_o l) (body it) /\ (touches (l_o l) (body it) -> i_gen it = l_c l);
    dn_ev : ~ d_event (l_i l) d /\ ~ d_event (l_o l) d }.
  Lemma in_step : forall d l it', In it' (stepl d l) -> exists it, In it d /\ it' = pair_item g (l_i l) (l_o l) (l_n l) it.
  Proof. intros d l it' I. apply in_map_iff in I. destruct I as (it & <- & I). eauto. Qed.
  Lemma event_step : forall d l x, d_event x (stepl d l) -> d_event x d.
  Proof. intros d l x (it' & e & I & J & E). apply in_step in I. destruct I as (it & I & ->). rewrite pair_events in J. exists it, e. auto. Qed.
  (* what an item of the new design reads and writes *)
  Lemma reads_step : forall l x it, x <> l_o l -> x <> l_n l -> reads x (body (pair_item g (l_i l) (l_o l) (l_n l) it)) -> reads x (body it).
  Proof.
    intros l x it No Nn R. destruct (Nat.eq_dec (i_gen it) g) as [Eg|Ng]; [|now rewrite (pair_else g _ _ _ it Ng) in R]. rewrite (pair_body g _ _ _ it Eg) in R. now apply step_reads in R.
  Qed.
  Lemma touches_step : forall l x it, x <> l_n l -> touches x (body (pair_item g (l_i l) (l_o l) (l_n l) it)) -> touches x (body it).
  Proof.
    intros l x it Nn R. destruct (Nat.eq_dec (i_gen it) g) as [Eg|Ng]; [|now rewrite (pair_else g _ _ _ it Ng) in R]. rewrite (pair_body g _ _ _ it Eg) in R. now apply step_touches in R.
  Qed.
  Lemma ok_step : forall d l m, apart l m -> ok d m -> ok (stepl d l) m.
  Proof.
    intros d l m A K. destruct A, K as [K1 K2 K3 K4 K5 K6 K7 K8 K9 K10 K11 K12]. constructor; auto.
    - intros it' I. apply in_step in I. destruct I as (it & I & ->). rewrite pair_gen. destruct (K7 it I) as (R & Tc & Lo). split; [|split].
      + intros X. apply R. eapply reads_step; [| |exact X]; auto.
      + intros X. apply Tc. eapply touches_step; [|exact X]; auto.
      + intros X. apply Lo. destruct (Nat.eq_dec (i_gen it) g) as [Eg|Ng]; [|now rewrite (pair_else g _ _ _ it Ng) in X]. rewrite (pair_body g _ _ _ it Eg) in X. now apply step_loops in X.
    - intros it' I. apply in_step in I. destruct I as (it & I & ->). rewrite pair_gen. destruct (K8 it I) as (R & Tc). split.
      + intros X. apply R. eapply reads_step; [| |exact X]; auto.
      + intros X. apply Tc. eapply touches_step; [|exact X]; auto.
    - destruct K9 as (E1 & E2 & E3). repeat split; intros X; apply event_step in X; auto.
    - intros it' I R X. apply in_step in I. destruct I as (it & I & ->). apply (K10 it I); [eapply reads_step; [| |exact R]; auto|].
      destruct (Nat.eq_dec (i_gen it) g) as [Eg|Ng]; [|now rewrite (pair_else g _ _ _ it Ng) in X]. rewrite (pair_body g _ _ _ it Eg) in X. apply step_changes in X; auto.
    - intros it' s I Eg Is. apply in_step in I. destruct I as (it & I & ->). rewrite pair_gen in Eg. rewrite (pair_body g _ _ _ it Eg) in Is. apply step_inside in Is. destruct Is as (s0 & Is & ->).
      destruct (K11 it s0 I Eg Is) as [X Y]. split; intros Z0; [apply X; apply step_holds in Z0; auto|apply Y; apply step_stuck in Z0; auto].
    - intros it' I. apply in_step in I. destruct I as (it & I & ->). destruct (K12 it I) as [R Tc]. split; intros X; [apply R; eapply reads_step; [| |exact X]; auto|apply Tc; eapply touches_step; [|exact X]; auto].
  Qed.
  Lemma event_sub : forall (d d' : design) x, (forall it, In it d' -> In it d) -> d_event x d' -> d_event x d.
  Proof. intros d d' x S0 (it & e & I & J). exists it, e. auto. Qed.
  Lemma ok_sub : forall (d d' : design) l, (forall it, In it d' -> In it d) -> ok d l -> ok d' l.
  Proof.
    intros d d' l S0 K. destruct K as [K1 K2 K3 K4 K5 K6 K7 K8 K9 K10 K11 K12]. constructor; auto; [|intros; eapply K11; eauto]. destruct K9 as (E1 & E2 & E3). repeat split; intros X; apply (event_sub d) in X; auto.
  Qed.
  Lemma done_step : forall d l m, apart l m -> done_ok d m -> done_ok (stepl d l) m.
  Proof.
    intros d l m A K. destruct A, K as [K1 K2 K3 K4]. constructor; auto.
    - intros it' I. apply in_step in I. destruct I as (it & I & ->). rewrite pair_gen. destruct (K2 it I) as (R & Tc). split.
      + intros X. apply R. eapply reads_step; [| |exact X]; auto.
      + intros X. apply Tc. eapply touches_step; [|exact X]; auto.
    - intros it' I. apply in_step in I. destruct I as (it & I & ->). rewrite pair_gen. destruct (K3 it I) as (R & Tc). split.
      + intros X. apply R. eapply reads_step; [| |exact X]; auto.
      + intros X. apply Tc. eapply touches_step; [|exact X]; auto.
    - destruct K4 as (E1 & E2). split; intros X; apply event_step in X; auto.
  Qed.
  Lemma done_sub : forall (d d' : design) l, (forall it, In it d' -> In it d) -> done_ok d l -> done_ok d' l.
  Proof. intros d d' l S0 K. destruct K as [K1 K2 K3 K4]. constructor; auto. destruct K4 as (E1 & E2). split; intros X; apply (event_sub d) in X; auto. Qed.
  Lemma to_holds : forall i n x s, holds x (to_stmt i n s) -> holds x s.
  Proof.
    intros i n x s Hh. destruct s; cbn [to_stmt] in Hh; inversion Hh; subst; try (constructor; assumption). apply ho_index. now rewrite to_reads_l in *.
  Qed.
  Lemma to_stuck : forall i n x s, stuck x (to_stmt i n s) -> stuck x s.
  Proof. intros i n x s Hh. destruct s; cbn [to_stmt] in Hh; inversion Hh; subst; constructor; auto. now rewrite to_reads_l in *. Qed.
  Lemma done_here : forall d l, ok d l -> done_ok (stepl d l) l.
  Proof.
    intros d l K. destruct K as [K1 K2 K3 K4 K5 K6 K7 K8 K9 K10 K11 K12]. constructor; auto.
    - intros it' I. apply in_step in I. destruct I as (it & I & ->). rewrite pair_gen. destruct (K7 it I) as (R & Tc & Lo). split.
      + intros X. apply R. eapply reads_step; [| |exact X]; auto.
      + destruct (Nat.eq_dec (i_gen it) g) as [Eg|Ng]; [|rewrite (pair_else g _ _ _ it Ng); auto]. rewrite (pair_body g _ _ _ it Eg). intros [As|X].
        * apply (proj1 (ms_assigns _ _ _ _)) in As. apply (proj1 (assigns_to_iff _ _ _ _)) in As. destruct As as (y & As & E). unfold tv in E. destruct (Nat.eqb_spec y (l_i l)); congruence.
        * apply Lo. eapply step_loops. exact X.
    - intros it' I. apply in_step in I. destruct I as (it & I & ->). rewrite pair_gen. destruct (K8 it I) as (R & Tc). split; [|intros X; apply Tc; eapply touches_step; [|exact X]; auto].
      destruct (Nat.eq_dec (i_gen it) g) as [Eg|Ng]; [|rewrite (pair_else g _ _ _ it Ng); auto]. rewrite (pair_body g _ _ _ it Eg). intros (s & Is & X). apply step_inside in Is. destruct Is as (s0 & Is & ->).
      destruct (K11 it s0 I Eg Is) as [Nh Ns]. apply Nh. apply to_holds with (i := l_i l) (n := l_n l). apply (stmt_stays _ _ K4); [|exact X]. intros Y. apply Ns. eapply to_stuck. exact Y.
    - destruct K9 as (E1 & E2 & E3). split; intros X; apply event_step in X; auto.
  Qed.
  Lemma wired_step : forall d l m, apart l m -> ok d m -> wired d m -> wired (stepl d l) m.
  Proof.
    intros d l m A K [(it & I & Ec & Ep) Un]. split.
    - exists it. split; [|auto]. assert (i_gen it <> g) as Ng by (rewrite Ec; intros X; apply (pk_gc _ _ _ _ _ _ _ K); congruence). rewrite <- (pair_else g (l_i l) (l_o l) (l_n l) it Ng). now apply in_map.
    - intros it' I' R. apply in_step in I'. destruct I' as (it0 & I0 & ->). apply reads_step in R; [|apply not_eq_sym, (ap_oi _ _ A)|apply not_eq_sym, (ap_ni _ _ A)].
      assert (i_gen it0 <> g) as Ng. { intros X. apply (pk_gc _ _ _ _ _ _ _ K). rewrite <- X. now apply (pk_in _ _ _ _ _ _ _ K it0 I0). }
      rewrite (pair_else g _ _ _ it0 Ng). now apply Un.
  Qed.
End Links.

Section Run.
  Variables (G : tenv) (H : hierarchy) (new : var -> var) (g : nat).
  Notation body it := (body_of (i_proc it)).
  Notation ok := (ok G g).
  Notation stepl := (stepl g).
  Notation done_ok := (done_ok g).
  Lemma in_sinks : forall d x it s, In (it, s) (sinks_of d x) <-> In it d /\ inside s (body it) /\ reads_stmt x s.
  Proof.
    intros d x it s. unfold sinks_of, statements. rewrite in_flat_map. split.
    - intros (it0 & I & J). apply in_map_iff in J. destruct J as (s0 & E & J). injection E as -> ->. apply filter_In in J. destruct J as [J M]. apply mem_In in M. split; [exact I|]. split; [now apply body_stmts|now apply reads_sinks].
    - intros (I & J & R). exists it. split; [exact I|]. apply in_map_iff. exists s. split; [reflexivity|]. apply filter_In. split; [now apply body_stmts|]. apply mem_In. now apply reads_sinks.
  Qed.
  Lemma input_step : forall d l, ok d l -> wired d l -> l_n l = new (l_i l) -> pass_input new g d (l_i l) = Ok (stepl d l).
  Proof.
    intros d l K [(it & I & Ec & Ep) Un] En. unfold pass_input.
    assert (forall p, In p (sinks_of d (l_i l)) -> snd p = SAssign Blocking (LVar (l_o l)) (EVar (l_i l))) as Q.
    { intros [it0 s0] J. apply in_sinks in J. destruct J as (I0 & Is & R). assert (i_proc it0 = wire_of l) as E0 by (apply Un; [exact I0|exists s0; auto]). rewrite E0 in Is. cbn [wire_of body_of] in Is.
      apply body_stmts in Is. cbn in Is. destruct Is as [<-|[]]. reflexivity. }
    assert (In (it, SAssign Blocking (LVar (l_o l)) (EVar (l_i l))) (sinks_of d (l_i l))) as J.
    { apply in_sinks. split; [exact I|]. rewrite Ep. split; [apply in_here; now left|]. constructor. right. now left. }
    destruct (sinks_of d (l_i l)) as [|[it1 s1] r]; [destruct J|]. pose proof (Q _ (or_introl eq_refl)) as E1. cbn [snd] in E1. subst s1. cbn [left_of obind]. rewrite <- En.
    unfold move_sinks. match goal with |- (if ?c then _ else _) = _ => destruct c eqn:X end.
    - exfalso. apply throws_when in X. destruct X as (s & (it' & I' & Eg & Is) & St). apply in_map_iff in I'. destruct I' as (it0 & E & I0).
      destruct (Nat.eqb_spec (i_gen it0) g) as [Eg0|Ng].
      + subst it'. rewrite to_body in Is. apply to_inside in Is. destruct Is as (s0 & Is & ->). apply to_stuck in St. now apply (pk_moves _ _ _ _ _ _ _ K it0 s0 I0 Eg0 Is).
      + subst it'. contradiction.
    - f_equal. unfold Pass_proofs.stepl, pair_step. rewrite map_map. apply map_ext. intros it0. unfold pair_item, move_item. destruct (Nat.eqb_spec (i_gen it0) g) as [E|N].
      + cbn [to_item i_gen i_id i_proc]. rewrite E, Nat.eqb_refl. reflexivity.
      + destruct (Nat.eqb_spec (i_gen it0) g); [contradiction|reflexivity].
  Qed.
  Lemma inputs_steps : forall ls d, ForallOrdPairs apart ls -> Forall (ok d) ls -> Forall (wired d) ls -> Forall (fun l => l_n l = new (l_i l)) ls ->
    pass_inputs new g (map l_i ls) d = Ok (fold_left stepl ls d).
  Proof.
    induction ls as [|l r IH]; intros d A K W N; [reflexivity|]. cbn [map pass_inputs fold_left]. inversion A as [|? ? A1 A2]; inversion K as [|? ? K1 K2]; inversion W as [|? ? W1 W2]; inversion N as [|? ? N1 N2]; subst.
    rewrite (input_step d l K1 W1 N1). cbn [obind]. apply IH; auto.
    - rewrite Forall_forall in *. intros m I. apply ok_step; auto.
    - rewrite Forall_forall in *. intros m I. eapply wired_step; eauto.
  Qed.
  Lemma steps_ok : forall ls d m, Forall (fun l => apart l m) ls -> ok d m -> ok (fold_left stepl ls d) m.
  Proof. induction ls as [|l r IH]; intros d m A K; [exact K|]. inversion A; subst. apply IH; auto. now apply ok_step. Qed.
  Lemma steps_wired : forall ls d m, Forall (fun l => apart l m) ls -> ok d m -> wired d m -> wired (fold_left stepl ls d) m.
  Proof. induction ls as [|l r IH]; intros d m A K W; [exact W|]. inversion A; subst. apply IH; auto; [now apply ok_step|eapply wired_step; eauto]. Qed.
  Lemma steps_done : forall ls d, ForallOrdPairs apart ls -> Forall (ok d) ls -> Forall (done_ok (fold_left stepl ls d)) ls.
  Proof.
    assert (forall ls d m, Forall (fun l => apart l m) ls -> done_ok d m -> done_ok (fold_left stepl ls d) m) as P.
    { induction ls as [|l r IH]; intros d m A K; [exact K|]. inversion A; subst. apply IH; auto. now apply done_step. }
    induction ls as [|l r IH]; intros d A K; [constructor|]. inversion A as [|? ? A1 A2]; inversion K as [|? ? K1 K2]; subst. cbn [fold_left]. constructor.
    - apply P; [|now apply (done_here G)]. rewrite Forall_forall in *. intros m I. apply apart_sym. auto.
    - apply IH; auto. rewrite Forall_forall in *. intros m I. apply ok_step; auto.
  Qed.
  Definition gone (cs : list nat) (d : design) : design := filter (fun it => negb (mem (i_gen it) cs)) d.
  Lemma gone_step : forall cs l d, gone cs (stepl d l) = stepl (gone cs d) l.
  Proof.
    intros cs l d. unfold gone, Pass_proofs.stepl, pair_step. induction d as [|it r IH]; [reflexivity|]. cbn [map filter]. rewrite pair_gen. destruct (negb _); cbn [map]; now rewrite IH.
  Qed.
  Lemma gone_steps : forall cs ls d, gone cs (fold_left stepl ls d) = fold_left stepl ls (gone cs d).
  Proof. intros cs. induction ls as [|l r IH]; intros d; [reflexivity|]. cbn [fold_left]. now rewrite IH, gone_step. Qed.
  Lemma gone_gone : forall c cs d, gone cs (gone [c] d) = gone (c :: cs) d.
  Proof.
    intros c cs d. unfold gone. induction d as [|it r IH]; [reflexivity|]. cbn [filter].
    assert (mem (i_gen it) [c] = Nat.eqb (i_gen it) c) as -> by (unfold mem; cbn [existsb]; apply orb_false_r).
    assert (mem (i_gen it) (c :: cs) = Nat.eqb (i_gen it) c || mem (i_gen it) cs) as -> by reflexivity. destruct (Nat.eqb (i_gen it) c); cbn [orb negb]; [exact IH|]. cbn [filter]. now rewrite IH.
  Qed.
  Lemma children_steps : forall cs lss d, NoDup cs -> Forall2 (fun c ls => map l_i ls = filter (is_in H) (h_ports H c) /\ Forall (fun l => l_c l = c /\ l_n l = new (l_i l)) ls) cs lss ->
    ForallOrdPairs apart (concat lss) -> Forall (ok d) (concat lss) -> Forall (wired d) (concat lss) ->
    pass_children H new g cs d = Ok (gone cs (fold_left stepl (concat lss) d)).
  Proof.
    induction cs as [|c cs IH]; intros lss d Nd F A K W; inversion F as [|? ls ? lss0 [Ei Ec] F0]; subst.
    - cbn. f_equal. unfold gone. symmetry. induction d as [|it r IH]; [reflexivity|]. cbn [filter mem existsb negb]. f_equal. apply IH; constructor.
    - cbn [concat] in *. cbn [pass_children]. unfold pass_child. rewrite <- Ei. inversion Nd as [|? ? Nc Nd0]; subst.
      apply Forall_app in K, W. destruct K as [K1 K2], W as [W1 W2].
      assert (ForallOrdPairs apart ls /\ ForallOrdPairs apart (concat lss0) /\ forall l m, In l ls -> In m (concat lss0) -> apart l m) as (A1 & A2 & A3).
      { clear - A. induction ls as [|l r IH]; cbn [app] in A; [split; [constructor|split; [exact A|intros l m []]]|]. inversion A as [|? ? B1 B2]; subst. destruct (IH B2) as (C1 & C2 & C3). apply Forall_app in B1. destruct B1 as [B1 B3].
        split; [constructor; assumption|]. split; [exact C2|]. intros l0 m [<-|I] J; [|now apply C3]. rewrite Forall_forall in B3. now apply B3. }
      rewrite inputs_steps; auto; [|eapply Forall_impl; [|exact Ec]; intros ? [_ X]; exact X]. cbn [obind].
      assert (forall d0, filter (fun it => negb (Nat.eqb (i_gen it) c)) d0 = gone [c] d0) as E0.
      { intros d0. unfold gone. apply filter_ext. intros it. unfold mem. cbn [existsb]. now rewrite orb_false_r. }
      rewrite E0. rewrite (IH lss0); auto.
      + f_equal. rewrite fold_left_app, <- (gone_gone c cs), (gone_steps [c] (concat lss0)). reflexivity.
      + rewrite Forall_forall in *. intros m I. apply (ok_sub G g (fold_left stepl ls d)); [intros it J; unfold gone in J; apply filter_In in J; tauto|]. apply steps_ok; [|auto]. apply Forall_forall. intros l J. auto.
      + rewrite Forall_forall in *. intros m I. destruct (steps_wired ls d m) as [(it & J & E1 & E2) Un]; auto; [apply Forall_forall; intros l J; auto|]. split.
        * exists it. split; [|auto]. unfold gone. apply filter_In. split; [exact J|]. rewrite E1. unfold mem. cbn [existsb]. rewrite orb_false_r. destruct (Nat.eqb_spec (l_c m) c) as [X|]; [|reflexivity]. exfalso.
          apply Nc. rewrite <- X. clear - F0 I. induction F0 as [|c1 ls1 cs1 lss1 [_ E] _ IH]; [destruct I|]. cbn [concat] in I. apply in_app_or in I. destruct I as [I|I]; [left|right; auto]. rewrite Forall_forall in E. symmetry. now apply E.
        * intros it0 J0. unfold gone in J0. apply filter_In in J0. now apply Un.
  Qed.
End Run.

(* processes without events can be left out as long as they change nothing *)
Section Drop.
  Variables (G : tenv) (D : design) (keep : item -> bool).
  Hypothesis Ev : forall it, In it D -> keep it = false -> events_of (i_proc it) = [].
  Lemma drop_fired : forall r r', fired G (filter keep D) r r' = fired G D r r'.
  Proof.
    intros r r'. unfold fired. induction D as [|it l IH]; [reflexivity|]. cbn [filter]. destruct (keep it) eqn:E; cbn [filter].
    - rewrite IH; [reflexivity|]. intros it' I. apply Ev. now right.
    - rewrite (Ev it (or_introl eq_refl) E). cbn [existsb]. apply IH. intros it' I. apply Ev. now right.
  Qed.
  Lemma drop_clocked : forall x, clocked (filter keep D) x <-> clocked D x.
  Proof.
    intros x. split; intros (it & I & E & As); exists it; (split; [|auto]).
    - apply filter_In in I. tauto.
    - apply filter_In. split; [exact I|]. destruct (keep it) eqn:X; [reflexivity|]. exfalso. apply E. now apply Ev.
  Qed.
  Lemma drop_settled : forall r, (forall it, In it D -> keep it = false -> forall x, activate G (body_of (i_proc it)) r x = r x) -> settled G (filter keep D) r <-> settled G D r.
  Proof.
    intros r Q. split; intros S0 it I E.
    - destruct (keep it) eqn:X; [|now apply Q]. apply S0; [|exact E]. now apply filter_In.
    - apply filter_In in I. now apply S0.
  Qed.
  Lemma drop_out : forall h, history G D h -> history G (filter keep D) h.
  Proof.
    assert (forall r, settled G D r -> settled G (filter keep D) r) as S1 by (intros r S0 it I E; apply filter_In in I; now apply S0).
    intros h Hh. induction Hh as [r S0|r r' l Hh IH [S0 N]]; [apply h_first; auto|]. apply h_next; [exact IH|]. split; [auto|]. intros x C. rewrite drop_fired. apply N. now apply drop_clocked.
  Qed.
  Lemma drop_in : forall h, Forall (fun r => forall it, In it D -> keep it = false -> forall x, activate G (body_of (i_proc it)) r x = r x) h -> history G (filter keep D) h -> history G D h.
  Proof.
    intros h Q Hh. induction Hh as [r S0|r r' l Hh IH [S0 N]]; inversion Q as [|? ? Q1 Q2]; subst; [apply h_first; now apply drop_settled|]. apply h_next; [now apply IH|]. split; [now apply drop_settled|].
    intros x C. rewrite <- drop_fired. apply N. now apply drop_clocked.
  Qed.
End Drop.
Lemma history_settled : forall G d h, history G d h -> Forall (settled G d) h.
Proof. intros G d h Hh. induction Hh as [r S0|r r' l Hh IH [S0 N]]; constructor; auto. Qed.

Section Same.
  Variables (G : tenv) (g : nat) (d : design) (ls : list lnk) (cs : list nat).
  Hypothesis A : ForallOrdPairs apart ls.
  Hypothesis K : Forall (ok G g d) ls.
  Hypothesis W : Forall (wired d) ls.
  Hypothesis Wc : forall it, In it d -> In (i_gen it) cs -> exists l, In l ls /\ i_proc it = wire_of l.
  Hypothesis Lc : forall l, In l ls -> In (l_c l) cs.
  Hypothesis Gc : ~ In g cs.
  Notation D := (fold_left (stepl g) ls d).
  Lemma two : forall l m, In l ls -> In m ls -> l = m \/ apart l m.
  Proof. intros l m I J. destruct (ForallOrdPairs_In A l m I J) as [X|[X|X]]; auto. right. now apply apart_sym. Qed.
  Lemma okl : forall l, In l ls -> ok G g d l.
  Proof. now apply Forall_forall. Qed.
  Definition up (r : venv) : venv := fun x => match find (fun l => Nat.eqb (l_n l) x) ls with Some l => r (l_i l) | None => r x end.
  Definition down (r : venv) : venv := fun x => match find (fun l => Nat.eqb (l_i l) x || Nat.eqb (l_o l) x) ls with Some l => r (l_n l) | None => r x end.
  Definition is_new (x : var) : bool := existsb (fun l => Nat.eqb (l_n l) x) ls.
  Definition is_port (x : var) : bool := existsb (fun l => Nat.eqb (l_i l) x || Nat.eqb (l_o l) x) ls.
  Lemma find_none_ex : forall (f : lnk -> bool) l, existsb f l = false -> find f l = None.
  Proof. intros f. induction l as [|x r IH]; cbn; [reflexivity|]. destruct (f x); [discriminate|exact IH]. Qed.
  Lemma find_one : forall (f : lnk -> bool) l, In l ls -> f l = true -> (forall m, In m ls -> f m = true -> m = l) -> find f ls = Some l.
  Proof.
    intros f l I E U. clear A K W Wc Lc. induction ls as [|x r IH]; [destruct I|]. cbn. destruct (f x) eqn:X; [now rewrite (U x (or_introl eq_refl) X)|].
    destruct I as [->|I]; [congruence|]. apply IH; auto. intros m J. apply U. now right.
  Qed.
  Lemma up_off : forall r x, is_new x = false -> up r x = r x.
  Proof. intros r x N. unfold up. now rewrite (find_none_ex _ _ N). Qed.
  Lemma down_off : forall r x, is_port x = false -> down r x = r x.
  Proof. intros r x N. unfold down. now rewrite (find_none_ex _ _ N). Qed.
  Lemma new_in : forall x, is_new x = true <-> exists l, In l ls /\ l_n l = x.
  Proof. intros x. unfold is_new. rewrite existsb_exists. split; intros (l & I & E); exists l; (split; [exact I|]); [now apply Nat.eqb_eq|now apply Nat.eqb_eq]. Qed.
  Lemma port_in : forall x, is_port x = true <-> exists l, In l ls /\ (x = l_i l \/ x = l_o l).
  Proof.
    intros x. unfold is_port. rewrite existsb_exists. split; intros (l & I & E); exists l; (split; [exact I|]).
    - apply orb_prop in E. destruct E as [E|E]; apply Nat.eqb_eq in E; auto.
    - apply orb_true_iff. destruct E as [->| ->]; [left|right]; apply Nat.eqb_refl.
  Qed.
  Lemma up_n : forall r l, In l ls -> up r (l_n l) = r (l_i l).
  Proof.
    intros r l I. unfold up. rewrite (find_one _ l I); [reflexivity|apply Nat.eqb_refl|]. intros m J E. apply Nat.eqb_eq in E. destruct (two m l J I) as [X|X]; [exact X|]. exfalso. exact (ap_nn _ _ X E).
  Qed.
  Lemma new_off : forall l, In l ls -> is_new (l_i l) = false /\ is_new (l_o l) = false.
  Proof.
    intros l I. split; destruct (is_new _) eqn:E; try reflexivity; exfalso; apply new_in in E; destruct E as (m & J & E); destruct (two m l J I) as [->|X].
    - exact (pk_in_ _ _ _ _ _ _ _ (okl l I) (eq_sym E)).
    - exact (ap_ni _ _ X E).
    - exact (pk_on _ _ _ _ _ _ _ (okl l I) (eq_sym E)).
    - exact (ap_no _ _ X E).
  Qed.
  Lemma port_off : forall l, In l ls -> is_port (l_n l) = false.
  Proof.
    intros l I. destruct (is_port _) eqn:E; [|reflexivity]. exfalso. apply port_in in E. destruct E as (m & J & [E|E]); destruct (two m l J I) as [->|X].
    - exact (pk_in_ _ _ _ _ _ _ _ (okl l I) (eq_sym E)).
    - exact (ap_in _ _ X (eq_sym E)).
    - exact (pk_on _ _ _ _ _ _ _ (okl l I) (eq_sym E)).
    - exact (ap_on _ _ X (eq_sym E)).
  Qed.
  Lemma down_io : forall r l, In l ls -> down r (l_i l) = r (l_n l) /\ down r (l_o l) = r (l_n l).
  Proof.
    intros r l I. split; unfold down; (rewrite (find_one _ l I); [reflexivity| |]).
    - now rewrite Nat.eqb_refl.
    - intros m J E. apply orb_prop in E. destruct (two m l J I) as [X|X]; [exact X|]. exfalso. destruct E as [E|E]; apply Nat.eqb_eq in E; [exact (ap_ii _ _ X E)|exact (ap_oi _ _ X E)].
    - rewrite Nat.eqb_refl. apply orb_true_r.
    - intros m J E. apply orb_prop in E. destruct (two m l J I) as [X|X]; [exact X|]. exfalso. destruct E as [E|E]; apply Nat.eqb_eq in E; [exact (ap_io _ _ X E)|exact (ap_oo _ _ X E)].
  Qed.
  Lemma up_range : forall r, in_range G r -> in_range G (up r).
  Proof.
    intros r R x. destruct (is_new x) eqn:E; [|rewrite up_off by exact E; apply R]. apply new_in in E. destruct E as (l & I & <-). rewrite up_n by exact I.
    rewrite <- (pk_Gi _ _ _ _ _ _ _ (okl l I)). apply R.
  Qed.
  Lemma down_range : forall r, in_range G r -> in_range G (down r).
  Proof.
    intros r R x. destruct (is_port x) eqn:E; [|rewrite down_off by exact E; apply R]. apply port_in in E. destruct E as (l & I & [->| ->]); destruct (down_io r l I) as [E1 E2]; rewrite ?E1, ?E2.
    - rewrite (pk_Gi _ _ _ _ _ _ _ (okl l I)). apply R.
    - rewrite (pk_Go _ _ _ _ _ _ _ (okl l I)). apply R.
  Qed.
  Definition level (r : venv) : Prop := forall l, In l ls -> eqp (l_i l) (l_o l) (l_n l) r.
  Lemma steps_history : forall h, Forall level h -> history G d h <-> history G D h.
  Proof.
    unfold level. clear W Wc Lc. revert d A K. induction ls as [|l r IH]; intros d0 A0 K0 h Q; [reflexivity|]. inversion A0; inversion K0; subst. cbn [fold_left].
    rewrite (pair_history G d0 g (l_c l) (l_i l) (l_o l) (l_n l)); [|assumption|eapply Forall_impl; [|exact Q]; intros r0 Hr; apply Hr; now left].
    apply IH; auto; [|eapply Forall_impl; [|exact Q]; intros r0 Hr m I; apply Hr; now right]. rewrite Forall_forall in *. intros m I. apply ok_step; auto.
  Qed.
  Lemma wire_level : forall r l, In l ls -> in_range G r -> settled G d r -> r (l_o l) = r (l_i l).
  Proof.
    intros r l I R S0. assert (wired d l) as [(it & J & _ & Ep) _] by (rewrite Forall_forall in W; now apply W). pose proof (okl l I) as Kl.
    apply (proj1 (wire_eq G (l_i l) (l_o l) r R (eq_trans (pk_Gi _ _ _ _ _ _ _ Kl) (eq_sym (pk_Go _ _ _ _ _ _ _ Kl))))).
    pose proof (S0 it J) as X. rewrite Ep in X. exact (X eq_refl (l_o l)).
  Qed.
  Lemma D_gen : forall it, In it D -> i_gen it <> g -> In it d.
  Proof using.
    clear. revert d. induction ls as [|l r IH]; intros d0 it I N; [exact I|]. cbn [fold_left] in I. apply IH in I; [|exact N]. apply in_step in I. destruct I as (it0 & I & ->). rewrite pair_gen in N.
    now rewrite (pair_else g _ _ _ it0 N).
  Qed.
  Lemma D_wire : forall it, In it D -> In (i_gen it) cs -> exists l, In l ls /\ i_proc it = wire_of l.
  Proof. intros it I J. apply Wc; [|exact J]. apply D_gen; [exact I|]. intros X. now rewrite X in J. Qed.
  Lemma keep_ev : forall it, In it D -> negb (mem (i_gen it) cs) = false -> events_of (i_proc it) = [].
  Proof. intros it I E. apply negb_false_iff in E. apply mem_In in E. destruct (D_wire it I E) as (l & _ & ->). reflexivity. Qed.
  Lemma same_fwd : forall h, Forall (in_range G) h -> history G d h -> history G (gone cs D) (map up h).
  Proof.
    intros h R Hh. apply drop_out; [exact keep_ev|]. apply steps_history.
    - apply Forall_map. pose proof (history_settled _ _ _ Hh) as S0. clear Hh. rewrite Forall_forall in S0, R |- *. intros r I l J. destruct (new_off l J) as [N1 N2]. unfold eqp. rewrite up_n, !up_off by assumption. split; [reflexivity|].
      apply wire_level; auto.
    - apply (hide_history G d is_new); [| |apply up_off|exact Hh].
      + intros x it E I. apply new_in in E. destruct E as (l & J & <-). exact (pk_new _ _ _ _ _ _ _ (okl l J) it I).
      + intros x E. apply new_in in E. destruct E as (l & J & <-). apply (pk_event _ _ _ _ _ _ _ (okl l J)).
  Qed.
  Lemma same_bwd : forall h, Forall (in_range G) h -> history G (gone cs D) h -> history G d (map down h).
  Proof.
    intros h R Hh. assert (forall r l, In l ls -> eqp (l_i l) (l_o l) (l_n l) (down r)) as Lv.
    { intros r l I. destruct (down_io r l I) as [E1 E2]. unfold eqp. rewrite E1, E2, (down_off r (l_n l)) by now apply port_off. auto. }
    apply steps_history; [apply Forall_map, Forall_forall; intros r _ l I; now apply Lv|]. apply (drop_in G D (fun it => negb (mem (i_gen it) cs))); [exact keep_ev| |].
    - apply Forall_map. rewrite Forall_forall in R |- *. intros r Ir it I E. apply negb_false_iff in E. apply mem_In in E. destruct (D_wire it I E) as (l & J & ->). pose proof (okl l J) as Kl. intros x.
      cbn [wire_of body_of]. destruct (Nat.eq_dec x (l_o l)) as [->|N]; [|apply activate_off; intros X; apply N; exact (wire_touches (l_i l) (l_o l) x X)].
      apply wire_eq; [now apply down_range, R|exact (eq_trans (pk_Gi _ _ _ _ _ _ _ Kl) (eq_sym (pk_Go _ _ _ _ _ _ _ Kl)))|]. destruct (Lv r l J). congruence.
    - pose proof (steps_done G g ls d A K) as Dn. rewrite Forall_forall in Dn. apply (hide_history G _ is_port); [| |apply down_off|exact Hh].
      + intros x it E I. apply filter_In in I. destruct I as [I Ek]. apply negb_true_iff in Ek. apply mem_false in Ek. apply port_in in E. destruct E as (l & J & [->| ->]); destruct (Dn l J) as [N1 N2 N3 N4].
        * destruct (N2 it I) as [X Y]. split; [|exact Y]. intros Z0. apply Ek. rewrite (X Z0). now apply Lc.
        * destruct (N3 it I) as [X Y]. split; [exact X|]. intros Z0. apply Ek. rewrite (Y Z0). now apply Lc.
      + intros x E X. apply (event_sub D) in X; [|intros it I; apply filter_In in I; tauto]. apply port_in in E. destruct E as (l & J & [->| ->]); destruct (Dn l J) as [N1 N2 N3 [N4 N5]]; contradiction.
  Qed.
End Same.

(* the links of an instance *)
Section Derive.
  Variables (G : tenv) (H : hierarchy) (new : var -> var) (d : design).
  Hypothesis PA : ports_apart H new.
  Notation body it := (body_of (i_proc it)).
  Lemma wire_inside : forall o i s, inside s (body_of (PWire (LVar o) (EVar i))) -> s = SAssign Blocking (LVar o) (EVar i).
  Proof. intros o i s Is. cbn [body_of] in Is. apply body_stmts in Is. cbn in Is. destruct Is as [<-|[]]. reflexivity. Qed.
  Lemma wire_sink : forall it o i, In it d -> i_proc it = PWire (LVar o) (EVar i) -> In (it, SAssign Blocking (LVar o) (EVar i)) (sinks_of d i).
  Proof. intros it o i I E. apply in_sinks. split; [exact I|]. rewrite E. split; [apply in_here; now left|]. constructor. right. now left. Qed.
  Lemma in_sources : forall x it s, In (it, s) (sources_of d x) <-> In it d /\ inside s (body it) /\ assigns_to x s = true.
  Proof.
    intros x it s. unfold sources_of, statements. rewrite in_flat_map. split.
    - intros (it0 & I & J). apply in_map_iff in J. destruct J as (s0 & E & J). injection E as -> ->. apply filter_In in J. destruct J as [J M]. split; [exact I|]. split; [now apply body_stmts|exact M].
    - intros (I & J & R). exists it. split; [exact I|]. apply in_map_iff. exists s. split; [reflexivity|]. apply filter_In. split; [now apply body_stmts|exact R].
  Qed.
  Lemma wire_source : forall it o i, In it d -> i_proc it = PWire (LVar o) (EVar i) -> In (it, SAssign Blocking (LVar o) (EVar i)) (sources_of d o).
  Proof. intros it o i I E. apply in_sources. split; [exact I|]. rewrite E. split; [apply in_here; now left|]. cbn. apply Nat.eqb_refl. Qed.
  Lemma is_in_spec : forall c x, In x (filter (is_in H) (h_ports H c)) <-> input H c x.
  Proof. intros c x. rewrite filter_In. unfold input, is_in. destruct (h_kind H x); intuition congruence. Qed.
  Definition out_of (i : var) : var := match sinks_of d i with (_, SAssign _ (LVar o) _) :: _ => o | _ => O end.
  Definition link (c : nat) (i : var) : lnk := {| l_c := c; l_i := i; l_o := out_of i; l_n := new i |}.
  Definition links (c : nat) : list lnk := map (link c) (filter (is_in H) (h_ports H c)).
  Section Child.
    Variables (g c : nat).
    Hypothesis P : plain G H new d g c.
    Lemma reads_wire : forall i it, input H c i -> In it d -> reads i (body it) -> i_gen it = c /\ exists o, i_proc it = PWire (LVar o) (EVar i) /\ output H c o /\ G i = G o.
    Proof.
      intros i it Ii I R. pose proof (proj1 (pl_in _ _ _ _ _ _ P i it Ii I) R) as Eg. split; [exact Eg|]. destruct (pl_wires _ _ _ _ _ _ P it I Eg) as (i0 & o & Ep & _ & Oo & E). exists o.
      rewrite Ep in R. cbn [body_of] in R. apply wire_reads in R. subst i0. auto.
    Qed.
    Lemma touches_wire : forall o it, output H c o -> In it d -> touches o (body it) -> i_gen it = c /\ exists i, i_proc it = PWire (LVar o) (EVar i) /\ input H c i /\ G i = G o.
    Proof.
      intros o it Oo I R. pose proof (proj2 (pl_out _ _ _ _ _ _ P o it Oo I) R) as Eg. split; [exact Eg|]. destruct (pl_wires _ _ _ _ _ _ P it I Eg) as (i & o0 & Ep & Ii & _ & E). exists i.
      rewrite Ep in R. cbn [body_of] in R. apply wire_touches in R. subst o0. auto.
    Qed.
    Hypothesis B : is_pass H d c = true.
    Lemma pass_ports : forall p, In p (h_ports H c) -> port_ok H d p = true.
    Proof. intros p I. unfold is_pass in B. apply andb_prop in B. destruct B as [_ X]. rewrite forallb_forall in X. now apply X. Qed.
    Lemma one_sink : forall i, input H c i -> exists it, In it d /\ i_gen it = c /\ i_proc it = PWire (LVar (out_of i)) (EVar i) /\ output H c (out_of i) /\ G i = G (out_of i) /\
      forall it', In it' d -> reads i (body it') -> it' = it.
    Proof.
      intros i Ii. pose proof (pass_ports i (proj1 Ii)) as X. unfold port_ok in X. replace (is_in H i) with true in X by (unfold is_in; now rewrite (proj2 Ii)). apply Nat.eqb_eq in X. unfold out_of.
      destruct (sinks_of d i) as [|[it s] [|]] eqn:E; try discriminate X. assert (In (it, s) (sinks_of d i)) as J by (rewrite E; now left). apply in_sinks in J. destruct J as (I & Is & R).
      destruct (reads_wire i it Ii I) as (Eg & o & Ep & Oo & EG); [exists s; auto|]. pose proof Is as Is'. rewrite Ep in Is. apply wire_inside in Is. subst s. exists it. repeat (split; [assumption|]).
      intros it' I' (s' & Is2 & R'). assert (In (it', s') (sinks_of d i)) as J by (apply in_sinks; auto). rewrite E in J. destruct J as [J|[]]. congruence.
    Qed.
    Lemma one_source : forall o, output H c o -> exists it, In it d /\ forall it' i, In it' d -> i_proc it' = PWire (LVar o) (EVar i) -> it' = it.
    Proof.
      intros o Oo. pose proof (pass_ports o (proj1 Oo)) as X. unfold port_ok in X. replace (is_in H o) with false in X by (unfold is_in; destruct Oo as [_ Oo]; now destruct (h_kind H o)).
      destruct (sources_of d o) as [|[it s] [|]] eqn:E; try discriminate X; [|exfalso; clear - X; repeat (match type of X with context [match ?y with _ => _ end] => destruct y end; try discriminate X)]. exists it. assert (In (it, s) (sources_of d o)) as J by (rewrite E; now left). apply in_sources in J. split; [tauto|].
      intros it' i I' Ep. pose proof (wire_source it' o i I' Ep) as J'. rewrite E in J'. destruct J' as [J'|[]]. congruence.
    Qed.
    Lemma link_ok : forall i, input H c i -> ok G g d (link c i) /\ wired d (link c i).
    Proof.
      intros i Ii. destruct (one_sink i Ii) as (it & I & Eg & Ep & Oo & EG & Un). destruct PA as (PA1 & PA2 & PA3 & PA4). pose proof P as [P1 P2 P3 P4 P5 P6 P7 P8 P9]. split.
      - constructor; cbn [link l_c l_i l_o l_n].
        + exact P1.
        + intros X. destruct Ii as [_ Ii], Oo as [_ Oo]. congruence.
        + intros X. apply (PA4 c c i Ii). rewrite <- X. apply Ii.
        + intros X. apply (PA4 c c i Ii). rewrite <- X. apply Oo.
        + symmetry. now apply P8.
        + rewrite <- EG. symmetry. now apply P8.
        + intros it0 I0. now apply P3.
        + intros it0 I0. now apply P4.
        + split; [apply P5, Ii|]. split; [apply P5, Oo|]. now apply (P9 i it Ii).
        + intros it0 I0 R. apply (P6 i (out_of i) it0); auto. exists it. auto.
        + intros it0 s I0 E0 Is. now apply (P7 (out_of i) it0 s).
        + intros it0 I0. destruct (P9 i it0 Ii I0) as (X & Y & _). auto.
      - split; [exists it; auto|]. intros it0 I0 R. rewrite (Un it0 I0 R). exact Ep.
    Qed.
    Lemma item_link : forall it, In it d -> i_gen it = c -> exists i, input H c i /\ i_proc it = wire_of (link c i).
    Proof.
      intros it I E. destruct (pl_wires _ _ _ _ _ _ P it I E) as (i & o & Ep & Ii & _). exists i. split; [exact Ii|]. apply (proj2 (link_ok i Ii)); [exact I|]. rewrite Ep. exists (SAssign Blocking (LVar o) (EVar i)).
      split; [apply in_here; now left|constructor; right; now left].
    Qed.
    Lemma link_inj : forall i i', input H c i -> input H c i' -> out_of i = out_of i' -> i = i'.
    Proof.
      intros i i' Ii Ii' E. destruct (one_sink i Ii) as (it & I & _ & Ep & Oo & _). destruct (one_sink i' Ii') as (it' & I' & _ & Ep' & _). destruct (one_source _ Oo) as (it0 & _ & Un).
      rewrite <- E in Ep'. rewrite <- (Un it i I Ep) in Un. rewrite (Un it' i' I' Ep') in Ep'. congruence.
    Qed.
  End Child.
  Lemma links_apart : forall g c c' i i', plain G H new d g c -> plain G H new d g c' -> is_pass H d c = true -> is_pass H d c' = true -> input H c i -> input H c' i' -> i <> i' -> apart (link c i) (link c' i').
  Proof.
    intros g c c' i i' P P' B B' Ii Ii' N. destruct PA as (PA1 & PA2 & PA3 & PA4). destruct (one_sink g c P B i Ii) as (_ & _ & _ & _ & Oo & _). destruct (one_sink g c' P' B' i' Ii') as (_ & _ & _ & _ & Oo' & _).
    constructor; cbn [link l_i l_o l_n]; auto.
    - intros X. destruct Ii as [_ X1], Oo' as [_ X2]. congruence.
    - intros X. apply (PA4 c' c i' Ii'). rewrite <- X. apply Ii.
    - intros X. destruct Ii' as [_ X1], Oo as [_ X2]. congruence.
    - intros X. assert (c = c') as <- by (apply (PA1 c c' (out_of i)); [apply Oo|rewrite X; apply Oo']). apply N. eapply link_inj; eauto.
    - intros X. apply (PA4 c' c i' Ii'). rewrite <- X. apply Oo.
    - intros X. apply (PA4 c c' i Ii). rewrite X. apply Ii'.
    - intros X. apply (PA4 c c' i Ii). rewrite X. apply Oo'.
    - intros X. apply N. eapply PA3; eauto.
  Qed.
  (* all instances that are removed together *)
  Section All.
    Variables (g : nat) (cs : list nat).
    Hypothesis Nd : NoDup cs.
    Hypothesis Pl : forall c, In c cs -> plain G H new d g c /\ is_pass H d c = true.
    Notation ls := (concat (map links cs)).
    Lemma in_links : forall l, In l ls <-> exists c i, In c cs /\ input H c i /\ l = link c i.
    Proof.
      intros l. rewrite in_concat. split.
      - intros (x & I & J). apply in_map_iff in I. destruct I as (c & <- & I). apply in_map_iff in J. destruct J as (i & <- & J). apply is_in_spec in J. eauto.
      - intros (c & i & I & J & ->). exists (links c). split; [apply in_map; exact I|]. apply in_map. now apply is_in_spec.
    Qed.
    Lemma all_ok : Forall (ok G g d) ls /\ Forall (wired d) ls.
    Proof. split; apply Forall_forall; intros l I; apply in_links in I; destruct I as (c & i & I & J & ->); destruct (Pl c I) as [P B]; now apply (link_ok g c P B). Qed.
    Lemma all_apart : ForallOrdPairs apart ls.
    Proof.
      assert (forall c i, In c cs -> input H c i -> forall c' i', In c' cs -> input H c' i' -> i <> i' -> apart (link c i) (link c' i')) as Q.
      { intros c i I Ii c' i' I' Ii' N. destruct (Pl c I), (Pl c' I'). eapply links_apart; eauto. }
      clear Pl. induction cs as [|c r IH]; [constructor|]. cbn [map concat]. inversion Nd as [|? ? Nc Nd0]; subst.
      assert (forall is, NoDup is -> (forall i, In i is -> input H c i) -> ForallOrdPairs apart (map (link c) is ++ concat (map links r))) as X.
      { induction is as [|i is IHi]; intros Ni Ii; cbn [map app].
        - apply IH; auto. intros; apply Q; auto; now right.
        - inversion Ni; subst. constructor; [|apply IHi; auto; intros; apply Ii; now right]. apply Forall_forall. intros m J. apply in_app_or in J. destruct J as [J|J].
          + apply in_map_iff in J. destruct J as (i' & <- & J). apply Q; [now left|apply Ii; now left|now left|apply Ii; now right|]. intros ->. contradiction.
          + apply in_concat in J. destruct J as (x & J1 & J2). apply in_map_iff in J1. destruct J1 as (c' & <- & J1). apply in_map_iff in J2. destruct J2 as (i' & <- & J2). apply is_in_spec in J2.
            apply Q; [now left|apply Ii; now left|now right|exact J2|]. intros <-. apply Nc. destruct PA as (PA1 & _). rewrite (PA1 c c' i); [exact J1|apply Ii; now left|apply J2]. }
      apply X; [apply NoDup_filter, PA|intros i I; now apply is_in_spec].
    Qed.
    Lemma all_run : pass_children H new g cs d = Ok (gone cs (fold_left (stepl g) ls d)).
    Proof.
      destruct all_ok as [K W]. apply (children_steps G); auto; [|apply all_apart]. clear. induction cs as [|c r IH]; cbn [map]; constructor; [|exact IH]. split.
      - unfold links. rewrite map_map. cbn [link l_i]. apply map_id.
      - apply Forall_forall. intros l I. apply in_map_iff in I. destruct I as (i & <- & _). split; reflexivity.
    Qed.
    Lemma all_items : forall it, In it d -> In (i_gen it) cs -> exists l, In l ls /\ i_proc it = wire_of l.
    Proof.
      intros it I J. destruct (Pl _ J) as [P B]. destruct (item_link g _ P B it I eq_refl) as (i & Ii & E). exists (link (i_gen it) i). split; [|exact E]. apply in_links. eauto.
    Qed.
    Lemma all_c : forall l, In l ls -> In (l_c l) cs.
    Proof. intros l I. apply in_links in I. destruct I as (c & i & I & _ & ->). exact I. Qed.
    Lemma all_g : ~ In g cs.
    Proof. intros I. destruct (Pl g I) as [P _]. now apply (pl_other _ _ _ _ _ _ P). Qed.
    Lemma link_through : forall c i o, In c cs -> through d c i o -> input H c i /\ link c i = {| l_c := c; l_i := i; l_o := o; l_n := new i |}.
    Proof.
      intros c i o I (it & J & Eg & Ep). destruct (Pl c I) as [P B]. destruct (pl_wires _ _ _ _ _ _ P it J Eg) as (i0 & o0 & Ep0 & Ii & _). rewrite Ep in Ep0. injection Ep0 as <- <-. split; [exact Ii|].
      pose proof (proj2 (proj2 (link_ok g c P B i Ii)) it J) as X. unfold wire_of in X. cbn [link l_o l_i] in X. rewrite Ep in X. unfold link. f_equal.
      assert (PWire (LVar o) (EVar i) = PWire (LVar (out_of i)) (EVar i)) as E; [|congruence]. apply X. exists (SAssign Blocking (LVar o) (EVar i)). split; [apply in_here; now left|constructor; right; now left].
    Qed.
    Notation d' := (gone cs (fold_left (stepl g) ls d)).
    Lemma port_is : forall x, is_port ls x = true -> exists c, In c cs /\ In x (h_ports H c).
    Proof.
      intros x X. apply port_in in X. destruct X as (l & I & E). apply in_links in I. destruct I as (c & i & I & Ii & ->). exists c. split; [exact I|]. destruct (Pl c I) as [P B].
      destruct (one_sink g c P B i Ii) as (_ & _ & _ & _ & Oo & _). cbn [link l_i l_o] in E. destruct E as [->| ->]; [apply Ii|apply Oo].
    Qed.
    Lemma new_is : forall x, is_new ls x = true -> exists c i, In c cs /\ input H c i /\ x = new i.
    Proof. intros x X. apply new_in in X. destruct X as (l & I & <-). apply in_links in I. destruct I as (c & i & I & Ii & ->). exists c, i. auto. Qed.
    Lemma up_carried : forall r, in_range G r -> settled G d r -> carried H new (fun c => In c cs) d r (up ls r).
    Proof.
      intros r R S0. destruct all_ok as [K W]. split.
      - intros x N. apply up_off. destruct (is_new ls x) eqn:E; [|reflexivity]. exfalso. apply new_is in E. destruct E as (c & i & I & Ii & ->). now apply (proj2 (N c I) i Ii).
      - intros c i o I Th. destruct (link_through c i o I Th) as [Ii E]. assert (In (link c i) ls) as J by (apply in_links; eauto). split.
        + pose proof (up_n ls all_apart r _ J) as X. exact X.
        + pose proof (wire_level G g d ls K W r _ J R S0) as X. rewrite E in X. exact X.
    Qed.
    Lemma down_carried : forall r, carried H new (fun c => In c cs) d (down ls r) r.
    Proof.
      intros r. destruct all_ok as [K W]. split.
      - intros x N. symmetry. apply down_off. destruct (is_port ls x) eqn:E; [|reflexivity]. exfalso. apply port_is in E. destruct E as (c & I & J). now apply (proj1 (N c I)).
      - intros c i o I Th. destruct (link_through c i o I Th) as [Ii E]. assert (In (link c i) ls) as J by (apply in_links; eauto). destruct (down_io ls all_apart r _ J) as [E1 E2]. rewrite E in E1, E2. cbn [l_i l_o l_n] in E1, E2.
        rewrite E1, E2. auto.
    Qed.
    Lemma all_fwd : forall h, Forall (in_range G) h -> history G d h -> exists h', Forall (in_range G) h' /\ history G d' h' /\ Forall2 (carried H new (fun c => In c cs) d) h h'.
    Proof.
      intros h R Hh. destruct all_ok as [K W]. exists (map (up ls) h). split; [|split].
      - apply Forall_map. eapply Forall_impl; [|exact R]. intros r. apply (up_range G g d ls all_apart K).
      - apply (same_fwd G g d ls cs all_apart K W all_items all_g h R Hh).
      - pose proof (history_settled _ _ _ Hh) as S0. clear Hh. induction h as [|r h IH]; [constructor|]. inversion R; inversion S0; subst. constructor; [now apply up_carried|auto].
    Qed.
    Lemma all_bwd : forall h, Forall (in_range G) h -> history G d' h -> exists h0, Forall (in_range G) h0 /\ history G d h0 /\ Forall2 (carried H new (fun c => In c cs) d) h0 h.
    Proof.
      intros h R Hh. destruct all_ok as [K W]. exists (map (down ls) h). split; [|split].
      - apply Forall_map. eapply Forall_impl; [|exact R]. intros r. apply (down_range G g d ls all_apart K).
      - apply (same_bwd G g d ls cs all_apart K all_items all_c all_g h R Hh).
      - clear R Hh. induction h as [|r h IH]; constructor; [apply down_carried|exact IH].
    Qed.
  End All.
End Derive.
