(* Lemmas for Param_props.v *)
From Coq Require Import Relations.
From Verif Require Import Base IR IRSem_spec Eval_model Sim_model Const_model Param_model Param_spec.
Local Open Scope Z_scope.

Lemma sim_eval_agree : forall pow G m m' e, (forall x, In x (evars e) -> m x = m' x) -> sim_eval pow G m e = sim_eval pow G m' e.
Proof.
  intros pow G m m' e. induction e; intros H; cbn [sim_eval evars] in *;
    repeat match goal with IH : (forall x, In x (evars ?a) -> _) -> _ |- _ => rewrite IH by (intros; apply H; rewrite ?in_app_iff; auto); clear IH end; try reflexivity.
  rewrite H; [reflexivity|now left].
Qed.
Lemma upd1_same : forall A (f : nat -> A) x a, upd1 f x a x = a.
Proof. intros. unfold upd1. now rewrite Nat.eqb_refl. Qed.
Lemma upd1_other : forall A (f : nat -> A) x y a, y <> x -> upd1 f x a y = f y.
Proof. intros. unfold upd1. destruct (Nat.eqb_spec y x); congruence. Qed.
Lemma in_add_nat : forall x y l, In y (add_nat x l) <-> y = x \/ In y l.
Proof. intros. unfold add_nat. destruct (in_dec Nat.eq_dec x l); cbn [In]; [intuition congruence|intuition]. Qed.
Lemma in_add_entry : forall x y l, In y (add_entry x l) <-> y = x \/ In y l.
Proof. intros. unfold add_entry. destruct (in_dec entry_eq_dec x l); cbn [In]; [intuition congruence|intuition]. Qed.
Lemma set_nth_same : forall l i v, (i < List.length l)%nat -> nth_error (set_nth_z l i v) i = Some v.
Proof.
  induction l as [|a l IH]; intros [|i] v H; cbn [List.length] in H; try lia; [reflexivity|]. unfold set_nth_z in *. cbn. apply IH. lia.
Qed.
Lemma set_nth_other : forall l i j v, i <> j -> nth_error (set_nth_z l i v) j = nth_error l j.
Proof.
  induction l as [|a l IH]; intros [|i] [|j] v H; unfold set_nth_z in *; cbn; try reflexivity; try lia. apply IH. lia.
Qed.
Lemma set_nth_length : forall l i v, List.length (set_nth_z l i v) = List.length l.
Proof. induction l as [|a l IH]; intros [|i] v; unfold set_nth_z in *; cbn; try reflexivity. now rewrite IH. Qed.
Lemma u32_u64 : forall z, u32 (u64 z) = u32 z.
Proof. intros z. unfold u32, u64. rewrite <- (Znumtheory.Zmod_div_mod (2 ^ 32) (2 ^ 64) z); [reflexivity|lia|lia|]. exists (2 ^ 32). reflexivity. Qed.

Section Proofs.
  Variable pow : Z -> Z -> outcome Z.
  Variable G : tenv.
  Variable slices : xid -> list (list (Z * Z)).
  Notation seval := (static_eval pow G).
  Notation setv := (set_value pow G slices).

  Lemma seval_agree : forall f g e, (forall p, In p (evars e) -> f p = g p) -> seval f e = seval g e.
  Proof. intros f g e H. unfold static_eval. now rewrite (sim_eval_agree pow G (fun p => Some (u64 (f p))) (fun p => Some (u64 (g p)))) by (intros x I; now rewrite H). Qed.
  Lemma seval_var : forall f p d, seval f (EVar p) = Ok d -> d = u64 (f p).
  Proof. intros f p d. unfold static_eval. cbn [sim_eval obind]. destruct (to_i64 (u64 (f p)) <=? 0); [discriminate|]. now injection 1. Qed.

  Definition same (a b : pstate) : Prop :=
    (forall p, wvars b p = wvars a p /\ svars b p = svars a p /\ links b p = links a p /\ parent b p = parent a p)
    /\ (forall x, wparam b x = wparam a x) /\ (forall x i, sparam b x i = sparam a x i).
  Lemma same_refl : forall a, same a a.
  Proof. intros a. repeat split. Qed.
  Lemma same_trans : forall a b c, same a b -> same b c -> same a c.
  Proof.
    intros a b c (A1 & A2 & A3) (B1 & B2 & B3). split; [|split].
    - intros p. destruct (A1 p) as (? & ? & ? & ?), (B1 p) as (? & ? & ? & ?). repeat split; congruence.
    - intros x. now rewrite B2.
    - intros x i. now rewrite B3.
  Qed.
  (* the entries of a parameter are the dimensions that mention it *)
  Definition reg (st : pstate) : Prop := forall p x i e, In (x, i, e) (svars st p) <-> sparam st x i = Some e /\ In p (evars e).
  Definition sized (st : pstate) (x : xid) (i : nat) (e : expr) : Prop := exists d, seval (value st) e = Ok d /\ nth_error (sizes st x) i = Some (u32 d).
  Definition all_sized (st : pstate) : Prop := forall x i e, sparam st x i = Some e -> sized st x i e.
  Lemma same_reg : forall a b, same a b -> reg a -> reg b.
  Proof. intros a b (A1 & A2 & A3) R p x i e. destruct (A1 p) as (_ & -> & _). rewrite A3. apply R. Qed.

  Lemma size_step : forall st x i e st', reg st -> sparam st x i = Some e -> set_size_param pow G slices st x i (Some e) = Ok st' ->
    same st st' /\ value st' = value st /\ vwidth st' = vwidth st /\ sized st' x i e
    /\ (forall y j, (y, j) <> (x, i) -> nth_error (sizes st' y) j = nth_error (sizes st y) j).
  Proof.
    intros st x i e st' R P H. unfold set_size_param in H. destruct (List.length (sizes st x) <=? i)%nat eqn:L; [discriminate H|]. apply Nat.leb_gt in L.
    destruct (seval (value st) e) as [d| |] eqn:E; cbn [obind] in H; try discriminate H.
    destruct (existsb (too_small i d) (slices x)); [discriminate H|]. apply Ok_inj in H as <-.
    split; [|split; [|split; [|split]]]; try reflexivity.
    - split; [|split]; cbn.
      + intros p. repeat split. unfold on_params. destruct (in_dec Nat.eq_dec p (evars e)) as [I|I]; [|reflexivity].
        unfold add_entry. destruct (in_dec entry_eq_dec (x, i, e) (svars st p)) as [J|J]; [reflexivity|]. exfalso. apply J. now apply R.
      + reflexivity.
      + intros y j. unfold upd1. destruct (Nat.eqb_spec y x) as [->|N]; [|reflexivity]. destruct (Nat.eqb_spec j i) as [->|N]; congruence.
    - exists d. cbn. split; [exact E|]. rewrite upd1_same. now apply set_nth_same.
    - intros y j N. cbn. unfold upd1. destruct (Nat.eqb_spec y x) as [->|M]; [|reflexivity]. apply set_nth_other. congruence.
  Qed.
  Lemma refresh_spec : forall l st st', reg st -> (forall x i e, In (x, i, e) l -> sparam st x i = Some e) -> refresh pow G slices l st = Ok st' ->
    same st st' /\ value st' = value st /\ vwidth st' = vwidth st
    /\ (forall x i e, sparam st x i = Some e -> In (x, i, e) l \/ sized st x i e -> sized st' x i e).
  Proof.
    induction l as [|((x, i), e) l IH]; intros st st' R P H; cbn [refresh] in H.
    - apply Ok_inj in H as <-. split; [apply same_refl|]. repeat split. intros x i e _ [[]|A]. exact A.
    - destruct (set_size_param pow G slices st x i (Some e)) as [st1| |] eqn:E; cbn [obind] in H; try discriminate H.
      apply size_step in E as (S1 & V1 & W1 & Z1 & O1); [|exact R|apply P; now left].
      apply IH in H as (S2 & V2 & W2 & Z2); [|now apply (same_reg st)|intros y j f I; destruct S1 as (_ & _ & ->); apply P; now right].
      split; [now apply (same_trans _ st1)|]. split; [congruence|]. split; [congruence|].
      intros y j f Q C. apply Z2; [destruct S1 as (_ & _ & ->); exact Q|].
      destruct (Nat.eq_dec y x) as [->|N1].
      { destruct (Nat.eq_dec j i) as [->|N2].
        - right. rewrite (P x i e) in Q by now left. injection Q as <-. exact Z1.
        - destruct C as [[C|C]|(d & C1 & C2)]; [congruence|now left|]. right. exists d. rewrite V1. split; [exact C1|]. rewrite O1 by congruence. exact C2. }
      destruct C as [[C|C]|(d & C1 & C2)]; [congruence|now left|]. right. exists d. rewrite V1. split; [exact C1|]. rewrite O1 by congruence. exact C2.
  Qed.

  Definition chain (fuel : nat) (v : Z) : list param -> pstate -> outcome pstate :=
    fix chain (l : list param) (st : pstate) : outcome pstate :=
      match l with
      | [] => Ok st
      | q :: l => olet st := setv fuel q v st in chain l st
      end.
  Definition started (p : param) (v : Z) (st : pstate) : pstate :=
    let st1 := with_value st p v in with_vwidth st1 (fold_left (fun f x => upd1 f x (u32 v)) (wvars st1 p) (vwidth st1)).
  Lemma setv_inv : forall fuel p v st st', setv (S fuel) p v st = Ok st' ->
    exists st3, refresh pow G slices (svars st p) (started p v st) = Ok st3 /\ chain fuel v (links st3 p) st3 = Ok st'
      /\ is_legal v (d_width (G p)) (d_signed (G p)) = Ok Legal /\ (wvars st p <> [] -> 0 < v).
  Proof.
    intros fuel p v st st' H. cbn [set_value] in H. destruct ((v <=? 0) && _) eqn:B; [discriminate H|].
    destruct (is_legal v (d_width (G p)) (d_signed (G p))) as [[| |]| |] eqn:K; cbn [obind] in H; try discriminate H.
    change (obind (refresh pow G slices (svars st p) (started p v st)) (fun st3 => chain fuel v (links st3 p) st3) = Ok st') in H.
    destruct (refresh pow G slices (svars st p) (started p v st)) as [st3| |] eqn:E; cbn [obind] in H; try discriminate H.
    exists st3. repeat split; auto. intros N. apply andb_false_iff in B as [B|B]; [apply Z.leb_gt in B; exact B|]. destruct (wvars st p); [now elim N|discriminate B].
  Qed.

  Lemma fold_width : forall l f (v : Z) x, fold_left (fun f x => upd1 f x v) l f x = if in_dec Nat.eq_dec x l then v else f x.
  Proof.
    induction l as [|a l IH]; intros f v x; [reflexivity|]. cbn [fold_left]. rewrite IH.
    destruct (in_dec Nat.eq_dec x l) as [I|I], (in_dec Nat.eq_dec x (a :: l)) as [J|J]; try reflexivity.
    - elim J. now right.
    - destruct J as [->|J]; [apply upd1_same|now elim I].
    - apply upd1_other. intros ->. apply J. now left.
  Qed.

  (* widths that are a parameter *)
  Definition wreg (st : pstate) : Prop := forall p x, In x (wvars st p) <-> exists e, wparam st x = Some e /\ In p (evars e).
  Definition widths (st : pstate) : Prop := forall x p, wparam st x = Some (EVar p) -> vwidth st x = u32 (value st p).

  Lemma follows_same : forall a b p q, same a b -> follows a p q <-> follows b p q.
  Proof.
    intros a b p q (A & _). assert (forall x y, In y (links a x) <-> In y (links b x)) as E by (intros x y; destruct (A x) as (_ & _ & -> & _); reflexivity).
    unfold follows. split; intros H; induction H as [x y H| |x y z _ IH1 _ IH2]; try apply rt_refl; try (apply rt_step; now apply E); now apply (rt_trans _ _ _ y).
  Qed.
  Lemma follows_first : forall st p q, follows st p q -> q = p \/ exists a, In a (links st p) /\ follows st a q.
  Proof.
    intros st p q H. apply clos_rt_rt1n in H. destruct H as [|y z H1 H2]; [now left|]. right. exists y. split; [exact H1|now apply clos_rt1n_rt].
  Qed.
  Lemma follows_last : forall st p q, follows st p q -> q = p \/ exists a, follows st p a /\ In q (links st a).
  Proof.
    intros st p q H. apply clos_rt_rtn1 in H. destruct H as [|y z H1 H2]; [now left|]. right. exists y. split; [now apply clos_rtn1_rt|exact H1].
  Qed.

  Record sound (st : pstate) : Prop := { s_reg : reg st; s_sized : all_sized st; s_wreg : wreg st; s_widths : widths st }.
  Definition reached (st st' : pstate) (v : Z) (R : param -> Prop) : Prop :=
    same st st' /\ sound st' /\ (forall q, R q -> value st' q = v) /\ (forall q, ~ R q -> value st' q = value st q) /\ (forall q, value st' q = v \/ value st' q = value st q).

  Lemma set_value_spec : forall fuel p v st st', sound st -> setv fuel p v st = Ok st' -> reached st st' v (follows st p).
  Proof.
    induction fuel as [|fuel IH]; intros p v st st' [R Zs Wr Ws] H; [discriminate H|].
    apply setv_inv in H as (st3 & H1 & H2 & _).
    assert (same st (started p v st)) as S0 by (repeat split; reflexivity).
    apply refresh_spec in H1 as (S1 & V1 & W1 & Z1); [|now apply (same_reg st)|intros x i e I; now apply R in I as [I _]].
    assert (same st st3) as S3 by now apply (same_trans _ (started p v st)).
    assert (forall q, value st3 q = if Nat.eqb q p then v else value st q) as V3 by (intros q; rewrite V1; reflexivity).
    assert (sound st3) as N3.
    { constructor.
      - now apply (same_reg st).
      - intros x i e Q. assert (sparam st x i = Some e) as Q0 by (destruct S3 as (_ & _ & E); now rewrite <- E).
        apply Z1; [exact Q0|]. destruct (in_dec Nat.eq_dec p (evars e)) as [I|I]; [left; apply R; auto|]. right.
        destruct (Zs x i e Q0) as (d & D1 & D2). exists d. split; [|exact D2]. rewrite <- D1. apply seval_agree.
        intros q Iq. cbn. apply upd1_other. intros E. subst. contradiction.
      - intros q x. destruct S3 as (E1 & E2 & _). destruct (E1 q) as (-> & _). setoid_rewrite E2. apply Wr.
      - intros x q Q. destruct S3 as (E1 & E2 & _). rewrite E2 in Q. rewrite W1, V3. cbn. rewrite fold_width. destruct (Nat.eqb_spec q p) as [->|N].
        + destruct (in_dec Nat.eq_dec x (wvars st p)) as [I|I]; [reflexivity|]. elim I. apply Wr. exists (EVar p). split; [exact Q|now left].
        + destruct (in_dec Nat.eq_dec x (wvars st p)) as [I|I]; [|now apply Ws].
          apply Wr in I as (e & E & I). rewrite Q in E. injection E as <-. destruct I as [I|[]]. congruence. }
    assert (forall l s s', same st s -> sound s -> chain fuel v l s = Ok s' -> reached s s' v (fun q => exists a, In a l /\ follows st a q)) as C.
    { induction l as [|a l IHl]; intros s s' Sx Nx H; cbn [chain] in H.
      - apply Ok_inj in H as <-. split; [apply same_refl|split; [exact Nx|split; [intros q (a & [] & _)|split; auto]]].
      - destruct (setv fuel a v s) as [s1| |] eqn:E; cbn [obind] in H; try discriminate H.
        apply IH in E as (A1 & A2 & A3 & A4 & A5); [|exact Nx]. apply IHl in H as (B1 & B2 & B3 & B4 & B5); [|now apply (same_trans _ s)|exact A2].
        split; [now apply (same_trans _ s1)|]. split; [exact B2|]. split; [|split].
        + intros q (b & [<-|Ib] & F); [|apply B3; eauto]. assert (value s1 q = v) as E by (apply A3; now apply (follows_same st)).
          destruct (B5 q) as [-> | ->]; auto.
        + intros q Nq. rewrite B4 by (intros (b & Ib & F); apply Nq; exists b; split; [now right|exact F]). apply A4. intros F. apply Nq. exists a. split; [now left|]. now apply (follows_same st s).
        + intros q. destruct (B5 q) as [-> | ->]; auto. }
    apply C in H2 as (D1 & D2 & D3 & D4 & D5); [|exact S3|exact N3].
    assert (links st3 p = links st p) as Lk by (destruct S3 as (E1 & _); now destruct (E1 p) as (_ & _ & -> & _)).
    rewrite Lk in *. split; [now apply (same_trans _ st3)|]. split; [exact D2|]. split; [|split].
    - intros q F. apply follows_first in F as [->|(a & I & F)]; [|apply D3; eauto].
      destruct (D5 p) as [-> | ->]; [reflexivity|]. rewrite V3. now rewrite Nat.eqb_refl.
    - intros q N. rewrite D4.
      + rewrite V3. destruct (Nat.eqb_spec q p) as [->|]; [elim N; apply rt_refl|reflexivity].
      + intros (a & I & F). apply N. apply (rt_trans _ _ _ a); [now apply rt_step|exact F].
    - intros q. destruct (D5 q) as [-> | ->]; [now left|]. rewrite V3. destruct (Nat.eqb q p); auto.
  Qed.

  (* the whole invariant of a disciplined history *)
  Definition tree (st : pstate) : Prop := forall p q, In q (links st p) <-> parent st q = Some p.
  Definition equal_chain (st : pstate) : Prop := forall p q, In q (links st p) -> value st q = value st p.
  Record inv (st : pstate) : Prop := { i_sound : sound st; i_tree : tree st; i_equal : equal_chain st }.
  Lemma inv_fresh : forall st, fresh_state st -> inv st.
  Proof.
    intros st (A & B & C). constructor; [constructor| |].
    - intros p x i e. destruct (A p) as (_ & -> & _). rewrite C. split; [intros []|]. intros [E _]. discriminate E.
    - intros x i e E. rewrite C in E. discriminate E.
    - intros p x. destruct (A p) as (-> & _). split; [intros []|]. intros (e & E & _). rewrite B in E. discriminate E.
    - intros x p E. rewrite B in E. discriminate E.
    - intros p q. destruct (A p) as (_ & _ & -> & _), (A q) as (_ & _ & _ & ->). split; [intros []|discriminate].
    - intros p q I. destruct (A p) as (_ & _ & E & _). rewrite E in I. destruct I.
  Qed.
  Lemma follows_up : forall st p a q, tree st -> follows st p q -> In q (links st a) -> q = p \/ follows st p a.
  Proof.
    intros st p a q T F I. apply follows_last in F as [F|(b & F & J)]; [now left|]. right. apply T in I, J. rewrite I in J. injection J as ->. exact F.
  Qed.
  Lemma inv_set_value : forall fuel p v st st', sound st -> tree st -> (forall a b, In b (links st a) -> b <> p -> value st b = value st a) ->
    (forall a, In p (links st a) -> value st a = v) -> setv fuel p v st = Ok st' -> inv st'.
  Proof.
    intros fuel p v st st' So T Q Pv H. apply set_value_spec in H as (S1 & S2 & S3 & S4 & S5); [|exact So]. pose proof S1 as (E1 & _).
    constructor; [exact S2| |].
    - intros a b. destruct (E1 a) as (_ & _ & -> & _), (E1 b) as (_ & _ & _ & ->). apply T.
    - intros a b I. destruct (E1 a) as (_ & _ & E & _). rewrite E in I. clear E.
      destruct (Z.eq_dec (value st' a) v) as [Ea|Na].
      + destruct (Z.eq_dec (value st' b) v) as [Eb|Nb]; [congruence|].
        (* b kept its value, so it is not p *)
        assert (b <> p) as Nbp by (intros ->; apply Nb; apply S3; apply rt_refl).
        destruct (S5 b) as [B|B]; [congruence|]. rewrite B, (Q a b I Nbp).
        destruct (S5 a) as [A|A]; [|congruence].
        (* a may have got v by being reached, then b was reached as well *)
        exfalso. apply Nb. rewrite B, (Q a b I Nbp).
        destruct (Z.eq_dec (value st a) v) as [Eo|No]; [exact Eo|]. exfalso.
        apply Nb. apply S3. assert (~ ~ follows st p a) as NN by (intros Nf; apply S4 in Nf; congruence).
        exfalso. apply NN. intros Fa. apply Nb. apply S3. apply (rt_trans _ _ _ a); [exact Fa|now apply rt_step].
      + assert (~ follows st p a) as Nf by (intros F; apply Na; now apply S3).
        assert (value st' a = value st a) as Va by now apply S4.
        destruct (Nat.eq_dec b p) as [->|Nbp]; [elim Na; rewrite Va; now apply Pv|].
        assert (value st' b = value st b) as Vb.
        { apply S4. intros F. destruct (follows_up st p a b T F I); contradiction. }
        rewrite Va, Vb. now apply Q.
  Qed.
  Lemma inv_step : forall fuel a st st', inv st -> disciplined st a -> act pow G slices fuel a st = Ok st' -> inv st'.
  Proof.
    intros fuel a st st' [So T Q] D H. destruct a as [p v|q p|x e|x i e]; cbn [act disciplined] in *.
    - apply (inv_set_value fuel p v st); auto. intros a I. apply T in I. congruence.
    - destruct D as [D1 D2]. unfold set_from in H. cbn zeta in H. set (s := with_link _ _ _) in H.
      assert (forall a b, In b (links s a) <-> In b (links st a) \/ (a = p /\ b = q)) as Lk.
      { intros a b. cbn. unfold upd1. destruct (Nat.eqb_spec a p) as [->|]; [rewrite in_add_nat; tauto|intuition]. }
      refine (inv_set_value fuel q _ s st' _ _ _ _ H).
      + destruct So as [R Zs Wr Ws]. constructor; assumption.
      + intros a b. rewrite Lk. change (parent s b) with (upd1 (parent st) q (Some p) b). unfold upd1. destruct (Nat.eqb_spec b q) as [->|N].
        * rewrite (T a q), D1. split; [intros [E|[-> _]]; [discriminate E|reflexivity]|]. injection 1 as ->. auto.
        * rewrite (T a b). tauto.
      + intros a b I N. apply Lk in I as [I|[_ ->]]; [now apply Q|contradiction].
      + intros a I. apply Lk in I as [I|[-> _]]; [apply T in I; congruence|reflexivity].
    - destruct So as [R Zs Wr Ws]. destruct e as [e|]; cbn [set_width_param] in H.
      + destruct (seval (value st) e) as [d| |] eqn:E; cbn [obind] in H; try discriminate H. apply Ok_inj in H as <-.
        constructor; [constructor|exact T|exact Q]; try assumption.
        * intros p y. cbn. unfold on_params. split.
          { intros I. destruct (in_dec Nat.eq_dec p (evars e)) as [J|J].
            - apply in_add_nat in I as [->|I]; [exists e; rewrite upd1_same; auto|]. apply Wr in I as (f & F & I). exists f. rewrite upd1_other by congruence. auto.
            - apply Wr in I as (f & F & I). exists f. rewrite upd1_other by congruence. auto. }
          { intros (f & F & I). unfold upd1 in F. destruct (Nat.eqb_spec y x) as [->|N].
            - injection F as <-. destruct (in_dec Nat.eq_dec p (evars e)); [|contradiction]. apply in_add_nat. now left.
            - assert (In y (wvars st p)) as J by (apply Wr; eauto). destruct (in_dec Nat.eq_dec p (evars e)); [apply in_add_nat; now right|exact J]. }
        * intros y p F. cbn in *. unfold upd1 in *. destruct (Nat.eqb_spec y x) as [->|N]; [|now apply Ws].
          injection F as ->. apply seval_var in E as ->. apply u32_u64.
      + rewrite D in H. apply Ok_inj in H as <-. assert (forall y, upd1 (wparam st) x None y = wparam st y) as U by (intros y; unfold upd1; destruct (Nat.eqb_spec y x) as [->|]; auto).
        constructor; [constructor|exact T|exact Q]; try assumption.
        * intros p y. cbn. rewrite U. apply Wr.
        * intros y p F. cbn in *. rewrite U in F. now apply Ws.
    - destruct So as [R Zs Wr Ws]. unfold set_size_param in H. destruct (List.length (sizes st x) <=? i)%nat eqn:L; [discriminate H|]. apply Nat.leb_gt in L. destruct e as [e|].
      + destruct D as [D|D]; [discriminate D|]. destruct (seval (value st) e) as [d| |] eqn:E; cbn [obind] in H; try discriminate H.
        destruct (existsb (too_small i d) (slices x)); [discriminate H|]. apply Ok_inj in H as <-.
        assert (forall y j, upd1 (sparam st) x (upd1 (sparam st x) i (Some e)) y j = if Nat.eqb y x && Nat.eqb j i then Some e else sparam st y j) as U.
        { intros y j. unfold upd1. destruct (Nat.eqb_spec y x) as [->|]; [|reflexivity]. now destruct (Nat.eqb j i). }
        constructor; [constructor|exact T|exact Q]; try assumption.
        * intros p y j f. cbn. rewrite U. unfold on_params. split.
          { intros I. assert ((y, j, f) = (x, i, e) /\ In p (evars e) \/ In (y, j, f) (svars st p)) as [[K Ip]|I'].
            { destruct (in_dec Nat.eq_dec p (evars e)) as [J|J]; [apply in_add_entry in I as [I|I]|]; auto. }
            - injection K as -> -> ->. rewrite !Nat.eqb_refl. auto.
            - apply R in I' as [K1 K2]. destruct (Nat.eqb_spec y x) as [->|]; destruct (Nat.eqb_spec j i) as [->|]; cbn [andb]; auto. congruence. }
          { intros [K Ip]. destruct (Nat.eqb_spec y x) as [->|]; destruct (Nat.eqb_spec j i) as [->|]; cbn [andb] in K.
            1: injection K as <-; destruct (in_dec Nat.eq_dec p (evars e)); [|contradiction]; apply in_add_entry; now left.
            all: destruct (in_dec Nat.eq_dec p (evars e)); [apply in_add_entry; right|]; now apply R. }
        * intros y j f K. cbn [sparam with_size] in K. rewrite U in K. destruct (Nat.eqb_spec y x) as [->|Nx]; [destruct (Nat.eqb_spec j i) as [->|Nj]|]; cbn [andb] in K.
          { injection K as <-. exists d. split; [exact E|]. cbn. rewrite upd1_same. now apply set_nth_same. }
          { destruct (Zs _ _ _ K) as (d' & K1 & K2). exists d'. split; [exact K1|]. cbn. rewrite upd1_same, set_nth_other by congruence. exact K2. }
          { destruct (Zs _ _ _ K) as (d' & K1 & K2). exists d'. split; [exact K1|]. cbn. rewrite upd1_other by assumption. exact K2. }
      + destruct (sparam st x i) as [e|] eqn:E; apply Ok_inj in H as <-; [|constructor; [constructor|exact T|exact Q]; assumption].
        assert (forall y j, upd1 (sparam st) x (upd1 (sparam st x) i None) y j = if Nat.eqb y x && Nat.eqb j i then None else sparam st y j) as U.
        { intros y j. unfold upd1. destruct (Nat.eqb_spec y x) as [->|]; [|reflexivity]. now destruct (Nat.eqb j i). }
        constructor; [constructor|exact T|exact Q]; try assumption.
        * intros p y j f. cbn. rewrite U. unfold on_params. split.
          { intros I. assert (In (y, j, f) (svars st p) /\ (y, j, f) <> (x, i, e)) as [I' N].
            { destruct (in_dec Nat.eq_dec p (evars e)) as [J|J]; [now apply in_remove in I|]. split; [exact I|]. intros K. injection K as -> -> ->. apply R in I as [_ I]. contradiction. }
            apply R in I' as [K1 K2]. destruct (Nat.eqb_spec y x) as [->|]; destruct (Nat.eqb_spec j i) as [->|]; cbn [andb]; auto. congruence. }
          { intros [K Ip]. assert ((y, j) <> (x, i)) as N by (intros N; injection N as -> ->; rewrite !Nat.eqb_refl in K; discriminate K).
            assert (sparam st y j = Some f) as K' by (destruct (Nat.eqb_spec y x) as [->|]; destruct (Nat.eqb_spec j i) as [->|]; cbn [andb] in K; congruence).
            assert (In (y, j, f) (svars st p)) as I by (apply R; auto). destruct (in_dec Nat.eq_dec p (evars e)); [|exact I]. apply in_in_remove; [congruence|exact I]. }
        * intros y j f K. cbn [sparam with_size] in K. rewrite U in K. apply Zs. destruct (Nat.eqb y x && Nat.eqb j i); [discriminate K|exact K].
  Qed.
  Lemma history_inv : forall st, history pow G slices st -> inv st.
  Proof. intros st H. induction H as [st F|st fuel a st' _ IH D E]; [now apply inv_fresh|now apply (inv_step fuel a st)]. Qed.
End Proofs.
