From Coq Require Import Relations.
From Verif Require Import Base SV_spec IR IRSem_spec IR_lemmas IfCase_proofs IR_frame Flow_spec Flow_proofs Design_spec Design_proofs Dce_spec Dce_model Dce_proofs
  Fan_spec Fan_model Retarget_proofs.
Local Open Scope Z_scope.

(* ---- statements with other targets ---- *)
Section To.
  Variables (a b : var).
  Notation ts := (to_stmt a b).
  Definition tv (x : var) : var := if Nat.eqb x a then b else x.
  Lemma to_var : forall l, lhs_var (to_lhs a b l) = tv (lhs_var l).
  Proof. intros []; reflexivity. Qed.
  Lemma to_reads_l : forall l, lhs_reads (to_lhs a b l) = lhs_reads l.
  Proof. intros []; reflexivity. Qed.
  Lemma to_inside : forall s l, inside s (map ts l) -> exists s0, inside s0 l /\ s = ts s0.
  Proof.
    intros s l H. remember (map ts l) as m eqn:E. revert l E. induction H as [m I|m c t f I _ IH|m c t f I _ IH|m e cs d k bd I J _ IH|m e cs bd I _ IH|m i u v st bd I _ IH|m bd I _ IH]; intros l ->.
    - apply in_map_iff in I. destruct I as (s0 & <- & I). exists s0. split; [now apply in_here|reflexivity].
    - apply in_map_iff in I. destruct I as (s0 & E & I). destruct s0; try discriminate. cbn in E. injection E as -> <- <-.
      destruct (IH _ eq_refl) as (s1 & I1 & ->). exists s1. split; [|reflexivity]. eapply in_then; eauto.
    - apply in_map_iff in I. destruct I as (s0 & E & I). destruct s0; try discriminate. cbn in E. injection E as -> <- <-.
      destruct (IH _ eq_refl) as (s1 & I1 & ->). exists s1. split; [|reflexivity]. eapply in_else; eauto.
    - apply in_map_iff in I. destruct I as (s0 & E & I). destruct s0 as [| |e0 cs0 d0| | | | |]; try discriminate. cbn in E. injection E as -> <- <-.
      apply in_map_iff in J. destruct J as ([k0 b0] & E & J). cbn in E. injection E as <- <-.
      destruct (IH _ eq_refl) as (s1 & I1 & ->). exists s1. split; [|reflexivity]. eapply in_case; eauto.
    - apply in_map_iff in I. destruct I as (s0 & E & I). destruct s0 as [| |e0 cs0 d0| | | | |]; try discriminate. cbn in E. destruct d0 as [b0|]; [|discriminate].
      injection E as -> <- <-. destruct (IH _ eq_refl) as (s1 & I1 & ->). exists s1. split; [|reflexivity]. eapply in_default; eauto.
    - apply in_map_iff in I. destruct I as (s0 & E & I). destruct s0; try discriminate. cbn in E. injection E as -> -> -> -> <-.
      destruct (IH _ eq_refl) as (s1 & I1 & ->). exists s1. split; [|reflexivity]. eapply in_for; eauto.
    - apply in_map_iff in I. destruct I as (s0 & E & I). destruct s0; try discriminate. cbn in E. injection E as <-.
      destruct (IH _ eq_refl) as (s1 & I1 & ->). exists s1. split; [|reflexivity]. eapply in_block; eauto.
  Qed.
  Lemma inside_to : forall s l, inside s l -> inside (ts s) (map ts l).
  Proof.
    intros s l H. induction H as [l I|l c t f I _ IH|l c t f I _ IH|l e cs d k bd I J _ IH|l e cs bd I _ IH|l i u v st bd I _ IH|l bd I _ IH];
      apply (in_map ts) in I.
    - now apply in_here.
    - eapply in_then; [exact I|exact IH].
    - eapply in_else; [exact I|exact IH].
    - eapply (in_case _ _ e _ _ k (map ts bd)); [exact I| |exact IH]. apply in_map_iff. exists (k, bd). auto.
    - eapply in_default; [exact I|exact IH].
    - eapply in_for; [exact I|exact IH].
    - eapply in_block; [exact I|exact IH].
  Qed.
  Lemma reads_ts : forall x s, reads_stmt x (ts s) <-> reads_stmt x s.
  Proof.
    intros x s. destruct s as [k l e| | | | | | |]; cbn [to_stmt]; split; intros H; inversion H as [? ? ? H0| | |]; subst; constructor; auto.
    - rewrite to_reads_l in H0. exact H0.
    - rewrite to_reads_l. exact H0.
  Qed.
  Lemma reads_to : forall x l, reads x (map ts l) <-> reads x l.
  Proof.
    intros x l. split.
    - intros (s & I & R). apply to_inside in I. destruct I as (s0 & I & ->). exists s0. split; [exact I|]. now apply reads_ts.
    - intros (s & I & R). exists (ts s). split; [now apply inside_to|]. now apply reads_ts.
  Qed.
  Lemma assigns_to_iff : forall x l, assigns x (map ts l) <-> exists y, assigns y l /\ x = tv y.
  Proof.
    intros x l. split.
    - intros (k & lh & e & I & E). apply to_inside in I. destruct I as (s0 & I & E0). destruct s0 as [k0 l0 e0| | | | | | |]; try discriminate.
      cbn in E0. injection E0 as -> -> ->. exists (lhs_var l0). split; [exists k0, l0, e0; auto|]. rewrite <- E. apply to_var.
    - intros (y & (k & lh & e & I & E) & ->). exists k, (to_lhs a b lh), e. split; [exact (inside_to _ _ I)|]. rewrite to_var. now rewrite E.
  Qed.
  Lemma loops_to : forall x l, loops_over x (map ts l) <-> loops_over x l.
  Proof.
    intros x l. split.
    - intros (u & v & st & bd & I). apply to_inside in I. destruct I as (s0 & I & E0). destruct s0; try discriminate. cbn in E0. injection E0 as <- <- <- <- _.
      do 4 eexists. exact I.
    - intros (u & v & st & bd & I). exists u, v, st, (map ts bd). exact (inside_to _ _ I).
  Qed.
  Lemma to_same : forall l, ~ assigns a l -> map ts l = l.
  Proof.
    assert (forall s, ~ assigns a [s] -> ts s = s) as A.
    { assert (forall l, Forall (fun s => ~ assigns a [s] -> ts s = s) l -> ~ assigns a l -> map ts l = l) as B.
      { induction 1 as [|s r E _ IH]; intros N; [reflexivity|]. cbn [map].
        rewrite E, IH; [reflexivity| |]; intros (k & l & e & I & V); apply N; exists k, l, e; split; auto; [now apply ins_tl|now apply ins_hd]. }
      induction s as [k l e|c t f Ht Hf|e cs d Hcs Hd|i u v sp body Hb|body Hb|e| |k] using stmt_ind'; intros N; try reflexivity; cbn [to_stmt].
      - assert (lhs_var l <> a) as V by (intros V; apply N; exists k, l, e; split; [apply inside_self|exact V]).
        f_equal. destruct l; cbn in *; destruct (Nat.eqb_spec x a); congruence.
      - rewrite !B; auto; intros (k & l & e & I & V); apply N; exists k, l, e; split; auto; [now apply ins_else|now apply ins_then].
      - f_equal.
        + assert (forall k bd, In (k, bd) cs -> ~ assigns a bd) as N1 by (intros k bd J (k1 & l & e1 & I & V); apply N; exists k1, l, e1; split; auto; eapply ins_case; eauto).
          clear N. induction Hcs as [|[k bd] r Hb _ IH]; [reflexivity|]. cbn [map fst snd]. rewrite (B bd Hb) by (apply (N1 k); now left). f_equal. apply IH.
          intros k1 b1 J. apply (N1 k1). now right.
        + destruct d as [bd|]; [|reflexivity]. f_equal. apply B; [now apply Hd|]. intros (k & l & e1 & I & V). apply N. exists k, l, e1. split; auto. now apply ins_def.
      - f_equal. apply B; auto. intros (k & l & e & I & V). apply N. exists k, l, e. split; auto. now apply ins_for.
      - f_equal. apply B; auto. intros (k & l & e & I & V). apply N. exists k, l, e. split; auto. now apply ins_block. }
    induction l as [|s r IH]; intros N; [reflexivity|]. cbn [map].
    rewrite A, IH; [reflexivity| |]; intros (k & l & e & I & V); apply N; exists k, l, e; split; auto; [now apply ins_tl|now apply ins_hd].
  Qed.
  Lemma to_body : forall it, body_of (i_proc (to_item a b it)) = map ts (body_of (i_proc it)).
  Proof. intros it. cbn. destruct (i_proc it); reflexivity. Qed.
  Lemma to_events : forall it, events_of (i_proc (to_item a b it)) = events_of (i_proc it).
  Proof. intros it. cbn. destruct (i_proc it); reflexivity. Qed.
  Lemma to_item_same : forall it, ~ assigns a (body_of (i_proc it)) -> to_item a b it = it.
  Proof.
    intros [i g p] N. unfold to_item. cbn in *. f_equal. destruct p as [l e|l|evs l]; cbn in *; [|now rewrite to_same|now rewrite to_same].
    assert (map ts [SAssign Blocking l e] = [SAssign Blocking l e]) as E by now apply to_same. cbn in E. injection E as ->. reflexivity.
  Qed.
  Lemma to_wire : forall it x y, i_proc (to_item a b it) = PWire (LVar y) (EVar x) -> exists y0, i_proc it = PWire (LVar y0) (EVar x) /\ y = tv y0.
  Proof.
    intros it x y H. cbn in H. destruct (i_proc it) as [l e|l|evs l]; try discriminate. cbn in H. injection H as E ->. destruct l; try discriminate. cbn in E. injection E as <-. eauto.
  Qed.
End To.

Lemma put_whole : forall w o v, 0 <= w -> 0 <= o < 2 ^ w -> put_bits o 0 w v = v mod 2 ^ w.
Proof.
  intros w o v Hw Ho. unfold put_bits. rewrite !Z.shiftl_0_r. rewrite Z.ldiff_ones_r by lia. rewrite Z.shiftr_div_pow2 by lia. rewrite Z.div_small by lia.
  rewrite Z.shiftl_0_l. apply Z.lor_0_l.
Qed.
Lemma wire_reads : forall x y z, reads z [SAssign Blocking (LVar y) (EVar x)] -> z = x.
Proof. intros x y z (s & I & R). apply inside_subs in I. cbn in I. destruct I as [<-|[]]. inversion R as [? ? ? H| | |]; subst. cbn in H. intuition. Qed.
Lemma wire_touches : forall x y z, touches z [SAssign Blocking (LVar y) (EVar x)] -> z = y.
Proof.
  intros x y z [(k & l & e & I & E)|(u & v & st & bd & I)]; apply inside_subs in I; cbn in I; destruct I as [I|[]]; [|discriminate].
  injection I as <- <- <-. now symmetry.
Qed.
Lemma wire_here : forall x y, reads x [SAssign Blocking (LVar y) (EVar x)] /\ assigns y [SAssign Blocking (LVar y) (EVar x)].
Proof.
  intros x y. split; [eexists; split; [apply inside_self|]; constructor; right; now left|].
  do 3 eexists. split; [apply inside_self|reflexivity].
Qed.
Lemma wire_activate : forall G x y r z, activate G [SAssign Blocking (LVar y) (EVar x)] r z = if Nat.eqb z y then put_bits (r y) 0 (d_width (G y)) (ev G r (EVar x)) else r z.
Proof. reflexivity. Qed.
Lemma width_pos : forall G r x, in_range G r -> 0 <= d_width (G x).
Proof. intros G r x R. specialize (R x). destruct (Z_lt_le_dec (d_width (G x)) 0); [|assumption]. rewrite Z.pow_neg_r in R by lia. lia. Qed.
Lemma wire_eq : forall G x y r, in_range G r -> G x = G y -> activate G [SAssign Blocking (LVar y) (EVar x)] r y = r y <-> r y = r x.
Proof.
  intros G x y r R E. rewrite wire_activate, Nat.eqb_refl. pose proof (width_pos G r y R) as W. rewrite put_whole by (try exact W; apply R).
  assert (ev G r (EVar x) mod 2 ^ d_width (G y) = r x) as ->; [|split; congruence].
  cbn [ev]. rewrite E. unfold enc. rewrite !Z.mod_small; try reflexivity; rewrite <- E; [|rewrite Z.mod_small]; apply R.
Qed.

(* ---- chains ---- *)
Section Path.
  Variables (M : modules) (d : design).
  Inductive path : var -> list (var * item) -> var -> Prop :=
  | path_nil x : path x [] x
  | path_cons x it y l z : readers d x = [it] -> i_proc it = PWire (LVar y) (EVar x) -> m_owner M y = m_owner M x -> path y l z -> path x ((x, it) :: l) z.
  Lemma readers_in : forall x it, In it (readers d x) <-> In it d /\ reads x (body_of (i_proc it)).
  Proof.
    intros x it. unfold readers. rewrite in_flat_map. split.
    - intros (i0 & I & J). apply in_map_iff in J. destruct J as (s & <- & J). apply filter_In in J. destruct J as [J R].
      apply collect_in in J. destruct J as (s0 & Is & [->|[]]). split; [exact I|]. exists s. split; [exact Is|]. apply reads_sinks. now apply mem_In.
    - intros (I & s & Is & R). exists it. split; [exact I|]. apply in_map_iff. exists s. split; [reflexivity|]. apply filter_In.
      split; [apply collect_in; exists s; split; [exact Is|now left]|]. apply mem_In. now apply reads_sinks.
  Qed.
  Lemma reader_one : forall x it, readers d x = [it] -> In it d /\ reads x (body_of (i_proc it)) /\ forall it', In it' d -> reads x (body_of (i_proc it')) -> it' = it.
  Proof.
    intros x it H. assert (In it (readers d x)) as I by (rewrite H; now left). apply readers_in in I as [I R]. split; [exact I|]. split; [exact R|].
    intros it' I' R'. assert (In it' (readers d x)) as J by now apply readers_in. rewrite H in J. destruct J as [->|[]]. reflexivity.
  Qed.
  Lemma hop_link : forall x it y, readers d x = [it] -> i_proc it = PWire (LVar y) (EVar x) -> m_owner M y = m_owner M x -> link M d x y.
  Proof. intros x it y R E O. destruct (reader_one x it R) as (I & _ & S0). exists it. auto. Qed.
  Lemma link_hop : NoDup (map i_id d) -> forall x y, link M d x y -> exists it, readers d x = [it] /\ i_proc it = PWire (LVar y) (EVar x) /\ m_owner M y = m_owner M x.
  Proof.
    intros N x y (it & I & E & O & S0). exists it. split; [|auto].
    assert (forall l, incl l d -> NoDup (map i_id l) -> In it l ->
      flat_map (fun it => map (fun _ => it) (filter (fun s => mem x (stmt_sinks s)) (collect_body (fun s => [s]) (body_of (i_proc it))))) l = [it] ) as K.
    { assert (forall l, incl l d -> ~ In it l ->
        flat_map (fun it => map (fun _ => it) (filter (fun s => mem x (stmt_sinks s)) (collect_body (fun s => [s]) (body_of (i_proc it))))) l = []) as K0.
      { intros l L Nl. apply incl_Forall_in_iff in L. induction l as [|i l IH]; [reflexivity|]. cbn [flat_map]. inversion L as [|? ? Li Ll]; subst.
        rewrite IH by (auto; intros J; apply Nl; now right). rewrite app_nil_r.
        destruct (filter _ _) as [|s m] eqn:F; [reflexivity|]. exfalso. apply Nl. left. apply S0; [exact Li|].
        assert (In s (s :: m)) as Is by now left. rewrite <- F in Is. apply filter_In in Is as [Is R]. apply collect_in in Is. destruct Is as (s0 & Is & [->|[]]).
        exists s. split; [exact Is|]. apply reads_sinks. now apply mem_In. }
      induction l as [|i l IH]; intros L Nd Il; [destruct Il|]. cbn [flat_map]. inversion Nd as [|? ? Ni Nl]; subst.
      destruct Il as [->|Il].
      - rewrite (K0 l); [|intros z Z0; apply L; now right|intros J; apply Ni; now apply in_map]. rewrite app_nil_r. rewrite E. cbn. unfold mem. cbn. rewrite Nat.eqb_refl. reflexivity.
      - rewrite IH; auto; [|intros z Z0; apply L; now right].
        assert (filter (fun s => mem x (stmt_sinks s)) (collect_body (fun s => [s]) (body_of (i_proc i))) = []) as ->; [|reflexivity].
        destruct (filter _ _) as [|s m] eqn:F; [reflexivity|]. exfalso.
        assert (In s (s :: m)) as Is by now left. rewrite <- F in Is. apply filter_In in Is as [Is R]. apply collect_in in Is. destruct Is as (s0 & Is & [->|[]]).
        assert (i = it) as -> by (apply S0; [apply L; now left|]; exists s; split; [exact Is|]; apply reads_sinks; now apply mem_In).
        apply Ni. now apply in_map. }
    apply K; auto. intros z Z0; exact Z0.
  Qed.
  Lemma chain_path : forall n x c, chain M d n x = Ok c -> c = [] \/
    exists l z o, c = map (fun p => (fst p, Some (snd p))) l ++ [(z, o)] /\ path x l z.
  Proof.
    induction n as [|n IH]; intros x c H; [discriminate|]. cbn [chain] in H.
    destruct (readers d x) as [|it [|it2 m]] eqn:R.
    - apply Ok_inj in H as <-. right. exists [], x, None. split; [reflexivity|constructor].
    - destruct (i_proc it) as [[y| |] [x'| | | | | | |]|l|evs l] eqn:E; try (apply Ok_inj in H as <-; now left).
      destruct (Nat.eqb_spec (m_owner M y) (m_owner M x)) as [O|]; [|apply Ok_inj in H as <-; now left].
      destruct (chain M d n y) as [c'| |] eqn:C; try discriminate. cbn [obind] in H. apply Ok_inj in H as <-. right.
      assert (x' = x) as ->. { destruct (reader_one x it R) as (_ & Rd & _). rewrite E in Rd. symmetry. exact (wire_reads _ _ _ Rd). }
      destruct (IH y c' C) as [->|(l & z & o & -> & P)].
      + exists [], x, (Some it). split; [reflexivity|constructor].
      + exists ((x, it) :: l), z, o. split; [reflexivity|]. econstructor; eauto.
    - apply Ok_inj in H as <-. right. exists [], x, None. split; [reflexivity|constructor].
  Qed.
  Lemma chain_S : forall n x, chain M d (S n) x =
    match readers d x with
    | [it] => match i_proc it with
              | PWire (LVar y) (EVar _) => if Nat.eqb (m_owner M y) (m_owner M x) then olet l := chain M d n y in Ok ((x, Some it) :: l) else Ok []
              | _ => Ok []
              end
    | _ => Ok [(x, None)]
    end.
  Proof. reflexivity. Qed.
  Lemma chain_more : forall n x c, chain M d n x = Ok c -> chain M d (S n) x = Ok c.
  Proof.
    induction n as [|n IH]; intros x c H; [discriminate|]. rewrite chain_S in H. rewrite chain_S.
    destruct (readers d x) as [|it [|it2 m]]; try exact H. destruct (i_proc it) as [[y| |] [x'| | | | | | |]|l|evs l]; try exact H.
    destruct (Nat.eqb _ _); try exact H. destruct (chain M d n y) as [c'| |] eqn:C; try discriminate. now rewrite (IH y c' C).
  Qed.
  Lemma chain_le : forall n m x c, (n <= m)%nat -> chain M d n x = Ok c -> chain M d m x = Ok c.
  Proof. intros n m x c L H. induction L; [exact H|now apply chain_more]. Qed.
  Lemma chain_det : forall n m x c c', chain M d n x = Ok c -> chain M d m x = Ok c' -> c = c'.
  Proof.
    intros n m x c c' H H'. destruct (Nat.le_ge_cases n m) as [L|L].
    - apply (chain_le n m) in H; auto. rewrite H in H'. now apply Ok_inj in H'.
    - apply (chain_le m n) in H'; auto. rewrite H in H'. now apply Ok_inj in H'.
  Qed.
  Definition pvars (l : list (var * item)) (z : var) : list var := map fst l ++ [z].
  Lemma path_head : forall x l z, path x l z -> exists t, pvars l z = x :: t.
  Proof. intros x l z P. destruct P; [exists []|eexists]; reflexivity. Qed.
  Lemma path_nodup : forall x l z, path x l z -> forall n c, chain M d n x = Ok c -> NoDup (pvars l z) /\
    Forall (fun v => exists m c', chain M d m v = Ok c' /\ (length c' <= length c)%nat) (pvars l z).
  Proof.
    induction 1 as [x|x it y l z R E O P IH]; intros n c H.
    - split; [repeat constructor; intros []|]. constructor; [|constructor]. exists n, c. auto.
    - pose proof H as H0. destruct n as [|n]; [discriminate|]. cbn [chain] in H. rewrite R, E, O, Nat.eqb_refl in H.
      destruct (chain M d n y) as [c'| |] eqn:C; try discriminate. cbn [obind] in H. apply Ok_inj in H as <-.
      destruct (IH n c' C) as [N F]. unfold pvars in *. cbn [map app fst] in *. split.
      + constructor; [|exact N]. intros I. rewrite Forall_forall in F. destruct (F x I) as (m & c2 & C2 & L).
        pose proof (chain_det _ _ _ _ _ C2 H0) as X. subst c2. cbn in L. lia.
      + constructor; [exists (S n), ((x, Some it) :: c'); auto|]. eapply Forall_impl; [|exact F]. intros v (m & c2 & C2 & L). exists m, c2. split; [exact C2|]. cbn. lia.
  Qed.
  Lemma path_links : forall x l z, path x l z -> l <> [] -> clos_trans _ (link M d) x z.
  Proof.
    induction 1 as [x|x it y l z R E O P IH]; intros N; [congruence|]. pose proof (hop_link x it y R E O) as L.
    destruct l as [|p l]; [inversion P; subst; now apply t_step|]. eapply t_trans; [apply t_step; exact L|]. apply IH. discriminate.
  Qed.
  (* the wires of a path *)
  Lemma path_wires : forall x l z v it, path x l z -> In (v, it) l -> exists y, readers d v = [it] /\ i_proc it = PWire (LVar y) (EVar v) /\ In y (tl (pvars l z)) /\ link M d v y.
  Proof.
    intros x l z v it P. induction P as [x|x i y l z R E O P IH]; intros I; [destruct I|].
    destruct (path_head _ _ _ P) as (t & Ht). cbn [pvars map app tl fst]. fold (pvars l z).
    destruct I as [X|I].
    - injection X as -> ->. exists y. split; [exact R|]. split; [exact E|]. split; [rewrite Ht; now left|]. eapply hop_link; eauto.
    - destruct (IH I) as (y0 & A & B & C & D). exists y0. split; [exact A|]. split; [exact B|]. split; [|exact D]. rewrite Ht in *. cbn in C. now right.
  Qed.
  Lemma path_into : forall x l z w, path x l z -> In w (tl (pvars l z)) -> exists v it, In (v, it) l /\ i_proc it = PWire (LVar w) (EVar v) /\ In it d.
  Proof.
    intros x l z w P. induction P as [x|x i y l z R E O P IH]; intros I; [destruct I|].
    destruct (path_head _ _ _ P) as (t & Ht). cbn [pvars map app tl fst] in I. fold (pvars l z) in I. rewrite Ht in I.
    destruct I as [<-|I].
    - exists x, i. split; [now left|]. split; [exact E|]. apply (reader_one x i R).
    - rewrite Ht in IH. cbn in IH. destruct (IH I) as (v & it & A & B & C). exists v, it. split; [now right|auto].
  Qed.
  Lemma path_owner : forall x l z, path x l z -> Forall (fun v => m_owner M v = m_owner M x) (pvars l z).
  Proof.
    induction 1 as [x|x i y l z R E O P IH]; unfold pvars; cbn [map app fst]; constructor; auto. eapply Forall_impl; [|exact IH]. intros v Ev. cbn in Ev. congruence.
  Qed.
End Path.

(* ---- one chain ---- *)
Lemma writes_at : forall ws r s x, r x = s x -> fold_left do_write ws r x = fold_left do_write ws s x.
Proof.
  induction ws as [|u ws IH]; intros r s x E; cbn [fold_left]; [exact E|]. apply IH. unfold do_write, upd. destruct (Nat.eqb_spec x (w_var u)) as [->|]; congruence.
Qed.
Lemma activate_off : forall G l r x, ~ touches x l -> activate G l r x = r x.
Proof.
  intros G l r x N. pose proof (seen_run G (Nat.eqb x) l r) as F.
  assert (forall y, touches y l -> Nat.eqb x y = false) as N1 by (intros y Ty; destruct (Nat.eqb_spec x y) as [->|]; [contradiction|reflexivity]).
  specialize (F N1). unfold activate, commit.
  assert (forall ws s, Forall (fun u => Nat.eqb x (w_var u) = false) ws -> fold_left do_write ws s x = s x) as W.
  { induction ws as [|u ws IH]; intros s H; cbn [fold_left]; [reflexivity|]. inversion H as [|? ? Hu Hw]; subst. rewrite IH by assumption. unfold do_write, upd. now rewrite Hu. }
  rewrite W by exact F. apply (run_frame G x l). intros [(k & lh & e & I & _ & V)|B]; apply N; [left; exists k, lh, e; auto|now right].
Qed.

Section Step.
  Variables (G : tenv) (M : modules) (d : design) (a b : var) (l : list (var * item)) (keep : item -> bool).
  Hypothesis FG : fan_good G M d.
  Hypothesis P : path M d a l b.
  Hypothesis L2 : (2 <= length l)%nat.
  Hypothesis ND : NoDup (pvars l b).
  Hypothesis HK : forall it, In it d -> (keep it = false <-> In it (map snd l)).
  Let d' := map (to_item a b) (filter keep d).
  Definition hid (x : var) : bool := mem x (map fst l).

  Lemma hid_in : forall x, hid x = true <-> exists it, In (x, it) l.
  Proof. intros x. unfold hid. rewrite mem_In, in_map_iff. split; [intros ([v it] & <- & I)|intros (it & I)]; eauto. exists (x, it). auto. Qed.
  Lemma hid_a : hid a = true.
  Proof using P L2. clear d' ND HK FG keep. apply hid_in. inversion P; subst; [cbn in L2; lia|]. exists it. now left. Qed.
  Lemma hid_b : hid b = false.
  Proof.
    destruct (hid b) eqn:E; [|reflexivity]. exfalso. unfold hid in E. apply mem_In in E. unfold pvars in ND.
    apply NoDup_remove_2 in ND. rewrite app_nil_r in ND. contradiction.
  Qed.
  Lemma ab : a <> b.
  Proof. intros E. pose proof hid_a as A. rewrite E, hid_b in A. discriminate. Qed.
  Lemma two : exists v1 v2, link M d a v1 /\ link M d v1 v2.
  Proof using P L2. clear d' ND HK FG keep.
    inversion P as [|x it y m z R E O P2]; subst; [cbn in L2; lia|]. inversion P2 as [|x1 it1 y1 m1 z1 R1 E1 O1 P3]; subst; [cbn in L2; lia|].
    exists y, y1. split; eapply hop_link; eauto.
  Qed.
  Lemma last_link : forall x m z, path M d x m z -> m <> [] -> exists v, link M d v z.
  Proof.
    induction 1 as [x|x it y m z R E O P0 IH]; intros N; [congruence|]. destruct m as [|p m]; [inversion P0; subst; exists x; eapply hop_link; eauto|]. apply IH. discriminate.
  Qed.
  Lemma hid_local : forall v, hid v = true -> m_kind M v = KVar /\ ~ d_event v d.
  Proof using FG P L2. clear d' ND HK keep.
    assert (forall x m z, path M d x m z -> (2 <= length m)%nat -> forall v, In v (map fst m) -> m_kind M v = KVar /\ ~ d_event v d) as K.
    { induction 1 as [x|x it y m z R E O P0 IH]; intros Hl v I; [destruct I|].
      inversion P0 as [|x1 it1 y1 m1 z1 R1 E1 O1 P1]; subst; [cbn in Hl; lia|].
      assert (link M d x y /\ link M d y y1) as [A B] by (split; eapply hop_link; eauto).
      destruct (fg_ports _ _ _ FG _ _ _ A B) as [Kx Ky]. destruct (fg_events _ _ _ FG _ _ _ A B) as [Ex Ey].
      destruct I as [<-|I]; [auto|]. destruct m1 as [|p1 m1].
      - destruct I as [<-|[]]. auto.
      - apply IH; [cbn; lia|exact I]. }
    intros v I. unfold hid in I. apply mem_In in I. eapply K; eauto.
  Qed.
  Lemma types : forall v, In v (pvars l b) -> G v = G b.
  Proof.
    clear L2 ND HK. revert P. generalize a, l. intros x m Pm. induction Pm as [x|x it y m z R E O Pm IH]; intros v I.
    - destruct I as [<-|[]]. reflexivity.
    - destruct I as [<-|I]; [|auto]. cbn. destruct (path_head _ _ _ _ _ Pm) as (t & Ht).
      rewrite (fg_types _ _ _ FG it x y); [apply IH; rewrite Ht; now left|apply (reader_one d x it R)|exact E].
  Qed.
  Lemma hid_type : forall v, hid v = true -> G v = G b.
  Proof. intros v I. apply types. unfold pvars. apply in_or_app. left. now apply mem_In. Qed.
  Lemma owners : forall v, In v (pvars l b) -> m_owner M v = m_owner M a.
  Proof. intros v I. pose proof (path_owner _ _ _ _ _ P) as F. rewrite Forall_forall in F. auto. Qed.
  Lemma tl_in : forall w, In w (pvars l b) -> w = a \/ In w (tl (pvars l b)).
  Proof. intros w I. destruct (path_head _ _ _ _ _ P) as (t & Ht). rewrite Ht in *. destruct I; cbn; auto. Qed.
  Lemma a_not_tl : ~ In a (tl (pvars l b)).
  Proof. destruct (path_head _ _ _ _ _ P) as (t & Ht). rewrite Ht in *. cbn. inversion ND; subst. assumption. Qed.

  (* what is kept *)
  Lemma kept_reads : forall it v, In it d -> keep it = true -> hid v = true -> ~ reads v (body_of (i_proc it)).
  Proof.
    intros it v I Ke Hv Rd. apply hid_in in Hv. destruct Hv as (i0 & Iv). destruct (path_wires _ _ _ _ _ v i0 P Iv) as (y & R & _).
    destruct (reader_one d v i0 R) as (_ & _ & U). specialize (U it I Rd). subst it.
    assert (keep i0 = false) as X by (apply HK; [exact I|]; apply (in_map snd) in Iv; exact Iv). congruence.
  Qed.
  Lemma kept_touches : forall it w, In it d -> keep it = true -> In w (tl (pvars l b)) -> ~ touches w (body_of (i_proc it)).
  Proof.
    intros it w I Ke Hw T. destruct (path_into _ _ _ _ _ w P Hw) as (v & i0 & Iv & E & I0).
    assert (it = i0) as -> by (eapply (fg_single _ _ _ FG i0 it); eauto).
    assert (keep i0 = false) as X by (apply HK; [exact I|]; apply (in_map snd) in Iv; exact Iv). congruence.
  Qed.
  Lemma b_tl : In b (tl (pvars l b)).
  Proof. destruct (tl_in b) as [E|I]; [unfold pvars; apply in_or_app; right; now left|symmetry in E; now apply ab in E|exact I]. Qed.
  Lemma hid_tl : forall v, hid v = true -> v <> a -> In v (tl (pvars l b)).
  Proof. intros v H N. destruct (tl_in v) as [E|I]; [|contradiction|exact I]. unfold pvars. apply in_or_app. left. now apply mem_In. Qed.
  Lemma kept_loops : forall it, In it d -> ~ loops_over a (body_of (i_proc it)).
  Proof. intros it I. destruct two as (v1 & v2 & A & _). eapply (fg_loops _ _ _ FG); eauto. Qed.
  Lemma kept_fit : forall it, In it d -> keep it = true -> forall s, inside s (body_of (i_proc it)) -> fit a b (reads b (body_of (i_proc it))) s.
  Proof.
    intros it I Ke s Is.
    assert (forall vs, (forall x, In x vs -> reads x (body_of (i_proc it))) -> may_read a b (reads b (body_of (i_proc it))) vs) as MR.
    { intros vs H x Hx. split; [|intros ->; auto]. intros ->. apply (kept_reads it a I Ke hid_a). auto. }
    assert (forall x, reads_stmt x s -> reads x (body_of (i_proc it))) as RS by (intros x Hx; exists s; auto).
    destruct s as [k lh e|c t f|e cs dd|i u v st bd|bd|e| |k]; cbn; auto.
    - split; [apply MR; intros x Hx; apply RS; constructor; auto|]. split; [apply MR; intros x Hx; apply RS; constructor; auto|].
      split.
      + intros Eb. apply (kept_touches it b I Ke b_tl). left. do 3 eexists. eauto.
      + intros Lt Ea. eapply (fg_order _ _ _ FG a b it k lh e); eauto. eapply path_links; eauto. intros ->. cbn in L2. lia.
    - apply MR. intros x Hx. apply RS. now constructor.
    - apply MR. intros x Hx. apply RS. now constructor.
    - split; intros ->; [apply (kept_loops it I); do 4 eexists; eauto|].
      apply (kept_touches it b I Ke b_tl). right. do 4 eexists. eauto.
    - apply MR. intros x Hx. apply RS. now constructor.
  Qed.
  Lemma G_ab : G a = G b.
  Proof. apply hid_type, hid_a. Qed.
  Lemma keep_ff : forall it, In it d -> events_of (i_proc it) <> [] -> keep it = true.
  Proof.
    intros it I E. destruct (keep it) eqn:K; [reflexivity|]. exfalso. apply HK in K; auto. apply in_map_iff in K. destruct K as ([v i0] & X & Iv). cbn in X. subst i0.
    destruct (path_wires _ _ _ _ _ v it P Iv) as (y & _ & E0 & _). rewrite E0 in E. now apply E.
  Qed.
  Lemma in_d' : forall it', In it' d' <-> exists it, In it d /\ keep it = true /\ it' = to_item a b it.
  Proof.
    intros it'. unfold d'. rewrite in_map_iff. split.
    - intros (it & <- & I). apply filter_In in I as [I K]. eauto.
    - intros (it & I & K & ->). exists it. split; [reflexivity|]. now apply filter_In.
  Qed.
  Lemma fired_eq : forall r1 r2 s1 s2, (forall x, hid x = false -> r1 x = s1 x) -> (forall x, hid x = false -> r2 x = s2 x) ->
    fired G d' s1 s2 = map (to_item a b) (fired G d r1 r2).
  Proof.
    intros r1 r2 s1 s2 A1 A2. unfold fired, d'.
    assert (forall m, incl m d -> filter (fun it => existsb (edge G s1 s2) (events_of (i_proc it))) (map (to_item a b) (filter keep m)) =
      map (to_item a b) (filter (fun it => existsb (edge G r1 r2) (events_of (i_proc it))) m)) as K.
    { induction m as [|it m IH]; intros Im; [reflexivity|]. cbn [filter].
      assert (incl m d) as Im2 by (intros z Z0; apply Im; now right). specialize (IH Im2). assert (In it d) as I by (apply Im; now left).
      assert (existsb (edge G s1 s2) (events_of (i_proc it)) = existsb (edge G r1 r2) (events_of (i_proc it))) as Ee.
      { assert (forall evs, incl evs (events_of (i_proc it)) -> existsb (edge G s1 s2) evs = existsb (edge G r1 r2) evs) as Q0.
        { induction evs as [|e evs IHe]; intros Ie; [reflexivity|]. cbn [existsb]. rewrite IHe by (intros z Z0; apply Ie; now right). f_equal.
          unfold edge. assert (hid (snd e) = false) as Hh.
          { destruct (hid (snd e)) eqn:Hh; [|reflexivity]. exfalso. apply hid_local in Hh as [_ Hh]. apply Hh. exists it, e. split; [exact I|]. split; [apply Ie; now left|reflexivity]. }
          cbn [ev]. rewrite (A1 _ Hh), (A2 _ Hh). reflexivity. }
        apply Q0. intros z Z0; exact Z0. }
      destruct (keep it) eqn:Ke.
      - cbn [map filter]. rewrite to_events, Ee. destruct (existsb (edge G r1 r2) (events_of (i_proc it))); cbn [map]; now rewrite IH.
      - assert (events_of (i_proc it) = []) as En.
        { destruct (events_of (i_proc it)) as [|e0 es] eqn:En; [reflexivity|]. rewrite (keep_ff it I) in Ke; [discriminate|]. rewrite En. discriminate. }
        rewrite IH. rewrite En. reflexivity. }
    apply K. intros z Z0; exact Z0.
  Qed.
  Lemma to_untouched : forall it x, In it d -> keep it = true -> hid x = true -> ~ touches x (body_of (i_proc (to_item a b it))).
  Proof.
    intros it x I Ke Hx. rewrite to_body. intros [T|T].
    - apply (proj1 (assigns_to_iff a b _ _)) in T. destruct T as (y & A & E). unfold tv in E. destruct (Nat.eqb_spec y a) as [->|N].
      + subst x. rewrite hid_b in Hx. discriminate.
      + subst y. apply (kept_touches it x I Ke); [now apply hid_tl|now left].
    - apply (proj1 (loops_to a b x _)) in T. destruct (Nat.eq_dec x a) as [->|N]; [exact (kept_loops it I T)|]. apply (kept_touches it x I Ke); [now apply hid_tl|now right].
  Qed.
  Lemma queued_eq : forall r its, r a = r b -> (forall it, In it its -> In it d /\ keep it = true) ->
    flat_map (fun it => queued G it r) (map (to_item a b) its) = map (to_write a b) (flat_map (fun it => queued G it r) its) /\ Forall (fun u => w_var u <> b) (flat_map (fun it => queued G it r) its).
  Proof.
    intros r its E. induction its as [|it its IH]; intros H; [split; [reflexivity|constructor]|]. cbn [map flat_map].
    destruct (H it) as [I Ke]; [now left|]. destruct IH as [I1 I2]; [intros; apply H; now right|].
    destruct (to_queued G a b (r b) (reads b (body_of (i_proc it))) ab G_ab it r E eq_refl (kept_fit it I Ke)) as [Q1 Q2].
    rewrite Q1, I1, map_app. split; [reflexivity|]. apply Forall_app. auto.
  Qed.
  Lemma fired_kept : forall r1 r2 it, In it (fired G d r1 r2) -> In it d /\ keep it = true.
  Proof.
    intros r1 r2 it I. apply filter_In in I as [I E]. split; [exact I|]. apply keep_ff; [exact I|]. intros X. rewrite X in E. discriminate.
  Qed.

  (* from d to d' *)
  Lemma constant : forall r, in_range G r -> settled G d r -> forall v, In v (pvars l b) -> r v = r b.
  Proof.
    intros r R S0. clear L2 ND HK. revert P. generalize a, l. intros x m Pm. induction Pm as [x|x it y m z Rd E O Pm IH]; intros v I.
    - destruct I as [<-|[]]. reflexivity.
    - destruct I as [<-|I]; [|auto]. cbn. destruct (path_head _ _ _ _ _ Pm) as (t & Ht). destruct (reader_one d x it Rd) as (Id & _).
      rewrite <- (IH y) by (rewrite Ht; now left). symmetry. apply (wire_eq G x y r R); [eapply (fg_types _ _ _ FG); eauto|].
      specialize (S0 it Id). rewrite E in S0. apply S0. reflexivity.
  Qed.
  Lemma a_in : In a (pvars l b).
  Proof. destruct (path_head _ _ _ _ _ P) as (t & ->). now left. Qed.
  Lemma settled_fwd : forall r, in_range G r -> settled G d r -> settled G d' r.
  Proof.
    intros r R S0 it' I' E x. apply in_d' in I'. destruct I' as (it & I & Ke & ->). rewrite to_events in E. rewrite to_body.
    pose proof (constant r R S0 a a_in) as Eab.
    destruct (to_activate G a b (r b) (reads b (body_of (i_proc it))) ab G_ab (body_of (i_proc it)) r Eab eq_refl (kept_fit it I Ke)) as (A1 & A2 & A3 & A4).
    destruct (Nat.eq_dec x a) as [->|Na]; [now rewrite A4|]. destruct (Nat.eq_dec x b) as [->|Nb].
    - rewrite A2, (S0 it I E). exact Eab.
    - rewrite A1 by assumption. apply (S0 it I E).
  Qed.
  Lemma clocked_to : forall x, clocked d' x <-> exists y, clocked d y /\ x = tv a b y.
  Proof.
    intros x. split.
    - intros (it' & I' & E & A). apply in_d' in I'. destruct I' as (it & I & Ke & ->). rewrite to_events in E. rewrite to_body in A. apply (proj1 (assigns_to_iff a b _ _)) in A.
      destruct A as (y & A & X). exists y. split; [exists it; auto|exact X].
    - intros (y & (it & I & E & A) & X). exists (to_item a b it). split; [apply in_d'; exists it; split; [exact I|]; split; [now apply keep_ff|reflexivity]|].
      rewrite to_events, to_body. split; [exact E|]. apply assigns_to_iff. eauto.
  Qed.
  Lemma clocked_off : forall y, clocked d y -> y <> b /\ (hid y = true -> y = a).
  Proof.
    intros y (it & I & E & A). pose proof (keep_ff it I E) as Ke. split.
    - intros ->. apply (kept_touches it b I Ke b_tl). now left.
    - intros H. destruct (Nat.eq_dec y a) as [|N]; [assumption|]. exfalso. apply (kept_touches it y I Ke); [now apply hid_tl|now left].
  Qed.
  Lemma next_fwd : forall r1 r2, in_range G r1 -> settled G d r1 -> in_range G r2 -> next G d r1 r2 -> next G d' r1 r2.
  Proof.
    intros r1 r2 R1 S1 R2 [S2 C]. split; [now apply settled_fwd|]. intros x Cx. apply clocked_to in Cx. destruct Cx as (y & Cy & ->).
    rewrite (fired_eq r1 r2 r1 r2) by reflexivity. pose proof (constant r1 R1 S1 a a_in) as E1. pose proof (constant r2 R2 S2 a a_in) as E2.
    destruct (queued_eq r1 (fired G d r1 r2) E1 (fired_kept r1 r2)) as [Q1 Q2]. rewrite Q1.
    destruct (writes_to a b ab (flat_map (fun it => queued G it r1) (fired G d r1 r2)) r1 r1 (fun _ _ _ => eq_refl) (eq_sym E1) Q2) as (W1 & W2 & _).
    destruct (clocked_off y Cy) as [Nb _]. unfold tv. destruct (Nat.eqb_spec y a) as [->|Na].
    - rewrite W2, <- E2. now apply C.
    - rewrite W1 by assumption. now apply C.
  Qed.
  Lemma history_fwd : forall h, Forall (in_range G) h -> history G d h -> history G d' h.
  Proof.
    intros h F H. induction H as [r S0|r r' m H IH N].
    - inversion F; subst. apply h_first. now apply settled_fwd.
    - inversion F as [|? ? F1 F2]; subst. apply h_next; [now apply IH|]. inversion F2; subst. apply next_fwd; auto. inversion H; subst; [assumption|]. match goal with X : next _ _ _ r |- _ => exact (proj1 X) end.
  Qed.

  (* from d' to d *)
  Definition lift (r : venv) : venv := fun x => if hid x then r b else r x.
  Lemma lift_off : forall r x, hid x = false -> lift r x = r x.
  Proof. intros r x H. unfold lift. now rewrite H. Qed.
  Lemma lift_on : forall r x, In x (pvars l b) -> lift r x = r b.
  Proof.
    intros r x I. unfold lift. destruct (hid x) eqn:E; [reflexivity|]. unfold pvars in I. apply in_app_or in I. destruct I as [I|[<-|[]]]; [|reflexivity].
    apply mem_In in I. unfold hid in E. congruence.
  Qed.
  Lemma lift_range : forall r, in_range G r -> in_range G (lift r).
  Proof. intros r R x. unfold lift. destruct (hid x) eqn:E; [|apply R]. rewrite (hid_type x E). apply R. Qed.
  Lemma settled_bwd : forall r, in_range G r -> settled G d' r -> settled G d (lift r).
  Proof.
    intros r R S0 it I E x.
    assert (lift r a = lift r b) as Eab by (rewrite (lift_on r a a_in); symmetry; apply lift_on; unfold pvars; apply in_or_app; right; now left).
    destruct (keep it) eqn:Ke.
    - destruct (to_activate G a b (lift r b) (reads b (body_of (i_proc it))) ab G_ab (body_of (i_proc it)) (lift r) Eab eq_refl (kept_fit it I Ke)) as (A1 & A2 & A3 & A4).
      assert (forall x, hid x = false -> activate G (map (to_stmt a b) (body_of (i_proc it))) (lift r) x = lift r x) as U.
      { intros y Hy. rewrite (unread_activate G hid _ (lift r) r); auto.
        - rewrite lift_off by exact Hy. rewrite <- to_body. apply S0; [apply in_d'; eauto|now rewrite to_events].
        - intros z [Rd|T]; destruct (hid z) eqn:Hz; auto; exfalso.
          + apply (proj1 (reads_to a b _ _)) in Rd. exact (kept_reads it z I Ke Hz Rd).
          + rewrite <- to_body in T. exact (to_untouched it z I Ke Hz T).
        - intros z Hz. now apply lift_off. }
      destruct (hid x) eqn:Hx.
      + destruct (Nat.eq_dec x a) as [->|Na].
        * rewrite <- A2, U by apply hid_b. now symmetry.
        * apply activate_off. apply (kept_touches it x I Ke). now apply hid_tl.
      + destruct (Nat.eq_dec x b) as [->|Nb]; [exact A3|]. rewrite <- A1; [now apply U| |exact Nb]. intros ->. rewrite hid_a in Hx. discriminate.
    - apply HK in Ke; auto. apply in_map_iff in Ke. destruct Ke as ([v i0] & X & Iv). cbn in X. subst i0.
      destruct (path_wires _ _ _ _ _ v it P Iv) as (y & _ & Ew & Iy & _). rewrite Ew. cbn [body_of].
      destruct (Nat.eq_dec x y) as [->|N]; [|rewrite wire_activate; destruct (Nat.eqb_spec x y); [contradiction|reflexivity]].
      apply wire_eq; [now apply lift_range|eapply (fg_types _ _ _ FG); eauto|]. rewrite !lift_on; [reflexivity| |].
      + unfold pvars. apply in_or_app. left. apply in_map_iff. exists (v, it). auto.
      + destruct (path_head _ _ _ _ _ P) as (t & Ht). rewrite Ht in *. now right.
  Qed.
  Lemma next_bwd : forall r1 r2, in_range G r1 -> in_range G r2 -> next G d' r1 r2 -> next G d (lift r1) (lift r2).
  Proof.
    intros r1 r2 R1 R2 [S2 C]. split; [now apply settled_bwd|]. intros y Cy.
    assert (b_in : In b (pvars l b)) by (unfold pvars; apply in_or_app; right; now left).
    assert (forall r, lift r a = lift r b) as Eab by (intros r; rewrite !lift_on; auto using a_in).
    rewrite (fired_eq (lift r1) (lift r2) r1 r2) in C by (intros; now apply lift_off).
    destruct (queued_eq (lift r1) (fired G d (lift r1) (lift r2)) (Eab r1) (fired_kept _ _)) as [Q1 Q2].
    assert (flat_map (fun it => queued G it r1) (map (to_item a b) (fired G d (lift r1) (lift r2))) =
            flat_map (fun it => queued G it (lift r1)) (map (to_item a b) (fired G d (lift r1) (lift r2)))) as Q3.
    { assert (forall its, (forall it, In it its -> In it d /\ keep it = true) -> flat_map (fun it => queued G it r1) (map (to_item a b) its) =
            flat_map (fun it => queued G it (lift r1)) (map (to_item a b) its)) as K.
      { induction its as [|it its IH]; intros H; [reflexivity|]. cbn [map flat_map]. rewrite IH by (intros; apply H; now right). f_equal.
        destruct (H it) as [I Ke]; [now left|]. unfold queued. symmetry. apply (unread_run G hid).
        - intros z [Rd|T]; destruct (hid z) eqn:Hz; auto; exfalso.
          + rewrite to_body in Rd. apply (proj1 (reads_to a b _ _)) in Rd. exact (kept_reads it z I Ke Hz Rd).
          + exact (to_untouched it z I Ke Hz T).
        - intros z Hz. now apply lift_off. }
      apply K. apply fired_kept. }
    rewrite Q3, Q1 in C.
    destruct (writes_to a b ab (flat_map (fun it => queued G it (lift r1)) (fired G d (lift r1) (lift r2))) (lift r1) (lift r1) (fun _ _ _ => eq_refl) (eq_sym (Eab r1)) Q2) as (W1 & W2 & _).
    destruct (clocked_off y Cy) as [Nb Hy]. destruct (Nat.eq_dec y a) as [->|Na].
    - rewrite (lift_on r2 a a_in). rewrite (C b) by (apply clocked_to; exists a; split; [exact Cy|unfold tv; now rewrite Nat.eqb_refl]).
      rewrite <- W2. apply writes_at. symmetry. now apply lift_on.
    - assert (hid y = false) as Hh by (destruct (hid y); [exfalso; now apply Na, Hy|reflexivity]). rewrite lift_off by exact Hh.
      rewrite (C y) by (apply clocked_to; exists y; split; [exact Cy|unfold tv; destruct (Nat.eqb_spec y a); congruence]).
      rewrite <- W1 by assumption. apply writes_at. symmetry. now apply lift_off.
  Qed.
  Lemma history_bwd : forall h, Forall (in_range G) h -> history G d' h -> history G d (map lift h).
  Proof.
    intros h F H. induction H as [r S0|r r' m H IH N].
    - inversion F; subst. apply h_first. now apply settled_bwd.
    - inversion F as [|? ? F1 F2]; subst. cbn [map]. apply h_next; [exact (IH F2)|]. inversion F2; subst. now apply next_bwd.
  Qed.

  (* d' is as good as d *)
  Lemma d'_reads : forall x, d_reads x d' -> d_reads x d.
  Proof. intros x (it' & I' & R). apply in_d' in I'. destruct I' as (it & I & _ & ->). rewrite to_body in R. apply (proj1 (reads_to a b _ _)) in R. exists it. auto. Qed.
  Lemma d'_hid : forall x, hid x = true -> ~ d_reads x d'.
  Proof. intros x H (it' & I' & R). apply in_d' in I'. destruct I' as (it & I & Ke & ->). rewrite to_body in R. apply (proj1 (reads_to a b _ _)) in R. exact (kept_reads it x I Ke H R). Qed.
  Lemma d'_event : forall x, d_event x d' -> d_event x d.
  Proof. intros x (it' & e & I' & Ie & E). apply in_d' in I'. destruct I' as (it & I & _ & ->). rewrite to_events in Ie. exists it, e. auto. Qed.
  Lemma link_back : forall x y, link M d' x y -> link M d x y \/ (link M d x a /\ y = b).
  Proof.
    intros x y (it' & I' & E & O & U). apply in_d' in I'. destruct I' as (it & I & Ke & ->). apply to_wire in E. destruct E as (y0 & E & Ey).
    assert (hid x = false) as Hx.
    { destruct (hid x) eqn:Hx; [|reflexivity]. exfalso. apply (kept_reads it x I Ke Hx). rewrite E. apply (wire_here x y0). }
    assert (forall it0, In it0 d -> reads x (body_of (i_proc it0)) -> it0 = it) as U0.
    { intros it0 I0 R0. destruct (keep it0) eqn:K0.
      - assert (to_item a b it0 = to_item a b it) as X by (apply U; [apply in_d'; eauto|]; rewrite to_body; now apply (proj2 (reads_to a b _ _))).
        apply (f_equal i_id) in X. cbn in X. pose proof (fg_ids _ _ _ FG) as N. clear - I I0 X N. induction d as [|q r IH]; [destruct I|].
        cbn in N. inversion N as [|? ? N1 N2]; subst. destruct I as [->|I], I0 as [->|I0]; auto.
        + exfalso. apply N1. rewrite <- X. now apply in_map.
        + exfalso. apply N1. rewrite X. now apply in_map.
      - apply HK in K0; auto. apply in_map_iff in K0. destruct K0 as ([v i0] & X & Iv). cbn in X. subst i0.
        destruct (path_wires _ _ _ _ _ v it0 P Iv) as (y1 & _ & E1 & _). rewrite E1 in R0. apply wire_reads in R0. subst v.
        assert (hid x = true) as X by (apply hid_in; eauto). congruence. }
    unfold tv in Ey. destruct (Nat.eqb_spec y0 a) as [->|Na].
    - subst y. right. split; [|reflexivity]. exists it. split; [exact I|]. split; [exact E|]. split; [|exact U0]. rewrite O. apply owners. unfold pvars. apply in_or_app. right. now left.
    - subst y0. left. exists it. auto.
  Qed.
  Lemma links_back : forall x y, clos_trans _ (link M d') x y -> clos_trans _ (link M d) x y.
  Proof.
    induction 1 as [x y H|x y z _ IH1 _ IH2]; [|eapply t_trans; eauto]. apply link_back in H. destruct H as [H|[H ->]]; [now apply t_step|].
    eapply t_trans; [apply t_step; exact H|]. eapply path_links; eauto. intros ->. cbn in L2. lia.
  Qed.
  Lemma double_back : forall x y z, link M d' x y -> link M d' y z ->
    (exists u, link M d x u /\ exists w, link M d u w) /\ (exists u w, (link M d y u /\ link M d u w) \/ (link M d u y /\ link M d y w)).
  Proof.
    intros x y z A B. destruct two as (v1 & v2 & T1 & T2). apply link_back in A. apply link_back in B. destruct A as [A|[A ->]], B as [B|[B ->]].
    - split; [exists y; split; [exact A|]; exists z; exact B|]. exists x, z. right. auto.
    - split; [exists y; split; [exact A|]; exists a; exact B|]. exists x, a. right. auto.
    - split; [exists a; split; [exact A|]; exists v1; exact T1|]. destruct (last_link _ _ _ P) as (v & Lv); [intros ->; cbn in L2; lia|]. exists v, z. right. auto.
    - split; [exists a; split; [exact A|]; exists v1; exact T1|]. exists a, v1. left. auto.
  Qed.
  Lemma step_good : fan_good G M d'.
  Proof.
    constructor.
    - unfold d'. rewrite map_map. cbn. pose proof (fg_ids _ _ _ FG) as N. clear - N. induction d as [|it r IH]; [constructor|]. cbn in *. inversion N as [|? ? N1 N2]; subst.
      destruct (keep it); [|auto]. cbn. constructor; [|auto]. intros I. apply N1. apply in_map_iff in I. destruct I as (q & <- & I). apply in_map. now apply filter_In in I.
    - intros it' x y I' E. apply in_d' in I'. destruct I' as (it & I & Ke & ->). apply to_wire in E. destruct E as (y0 & E & ->).
      rewrite (fg_types _ _ _ FG it x y0 I E). unfold tv. destruct (Nat.eqb_spec y0 a) as [->|]; [apply G_ab|reflexivity].
    - intros it1 it2 x y I1 E I2 T. apply in_d' in I1. destruct I1 as (i1 & I1 & K1 & ->). apply in_d' in I2. destruct I2 as (i2 & I2 & K2 & ->).
      apply to_wire in E. destruct E as (y0 & E & ->). f_equal. eapply (fg_single _ _ _ FG i1 i2); eauto. rewrite to_body in T.
      assert (touches y0 (body_of (i_proc i1))) as T1 by (rewrite E; left; apply (wire_here x y0)).
      destruct T as [T|T].
      + apply (proj1 (assigns_to_iff a b _ _)) in T. destruct T as (y1 & T & X). unfold tv in X.
        destruct (Nat.eqb_spec y0 a) as [->|N0], (Nat.eqb_spec y1 a) as [->|N1].
        * now left.
        * subst y1. exfalso. apply (kept_touches i2 b I2 K2 b_tl). now left.
        * subst y0. exfalso. exact (kept_touches i1 b I1 K1 b_tl T1).
        * subst y1. now left.
      + apply (proj1 (loops_to a b _ _)) in T. unfold tv in T. destruct (Nat.eqb_spec y0 a) as [->|N0]; [|now right].
        exfalso. apply (kept_touches i2 b I2 K2 b_tl). now right.
    - intros it' x I' Kx H. apply in_d' in I'. destruct I' as (it & I & Ke & ->). rewrite to_body in H. cbn [i_gen to_item]. destruct H as [H|[H|H]].
      + apply (proj1 (reads_to a b _ _)) in H. apply (fg_scope _ _ _ FG it x I Kx). now left.
      + apply (proj1 (assigns_to_iff a b _ _)) in H. destruct H as (y & A & E). unfold tv in E. destruct (Nat.eqb_spec y a) as [->|N].
        * subst x. rewrite (owners b) by (unfold pvars; apply in_or_app; right; now left). apply (fg_scope _ _ _ FG it a I); [apply hid_local, hid_a|]. right. now left.
        * subst y. apply (fg_scope _ _ _ FG it x I Kx). right. now left.
      + apply (proj1 (loops_to a b x _)) in H. apply (fg_scope _ _ _ FG it x I Kx). right. now right.
    - intros x y z A B. destruct (double_back x y z A B) as [(u & L1 & w & L3) (u2 & w2 & H)]. split; [apply (fg_ports _ _ _ FG x u w); auto|].
      destruct H as [[H1 H2]|[H1 H2]]; [apply (fg_ports _ _ _ FG y u2 w2)|apply (fg_ports _ _ _ FG u2 y w2)]; auto.
    - intros x y z A B. destruct (double_back x y z A B) as [(u & L1 & w & L3) (u2 & w2 & H)].
      split; intros Ev; apply d'_event in Ev; revert Ev; [apply (fg_events _ _ _ FG x u w); auto|].
      destruct H as [[H1 H2]|[H1 H2]]; [apply (fg_events _ _ _ FG y u2 w2)|apply (fg_events _ _ _ FG u2 y w2)]; auto.
    - intros x y it' A I' Lo. apply in_d' in I'. destruct I' as (it & I & Ke & ->). rewrite to_body in Lo. apply (proj1 (loops_to a b x _)) in Lo.
      apply link_back in A. destruct A as [A|[A _]]; exact (fg_loops _ _ _ FG _ _ it A I Lo).
    - intros x z it' k lh e A I' R Is E. apply in_d' in I'. destruct I' as (it & I & Ke & ->). rewrite to_body in *. apply (proj1 (reads_to a b _ _)) in R. apply to_inside in Is.
      destruct Is as (s0 & Is & X). destruct s0 as [k0 l0 e0| | | | | | |]; try discriminate. cbn in X. injection X as -> -> ->. apply links_back in A.
      rewrite to_var in E. unfold tv in E. destruct (Nat.eqb_spec (lhs_var l0) a) as [Ea|N].
      + subst x. eapply (fg_order _ _ _ FG a z it k0 l0 e0); eauto. eapply t_trans; [|exact A]. eapply path_links; eauto. intros ->. cbn in L2. lia.
      + eapply (fg_order _ _ _ FG x z it k0 l0 e0); eauto.
  Qed.
  Lemma hid_bypassed : forall x, hid x = true -> bypassed M d d' x.
  Proof.
    intros x H. split; [now apply hid_local|]. split; [|now apply d'_hid]. apply hid_in in H. destruct H as (it & I). destruct (path_wires _ _ _ _ _ x it P I) as (y & R & _).
    destruct (reader_one d x it R) as (Id & Rd & _). exists it. auto.
  Qed.
End Step.

(* ---- the pass ---- *)
Section Pass.
  Variables (G : tenv) (M : modules).
  Lemma removelast_map : forall A (l : list A) z, removelast (l ++ [z]) = l.
  Proof. intros A l z. apply removelast_last. Qed.
  Lemma links_eq : forall l z o, links (map (fun p : var * item => (fst p, Some (snd p))) l ++ [(z, o)]) = map (fun p => i_id (snd p)) l.
  Proof. intros l z o. unfold links. rewrite removelast_last. induction l as [|p l IH]; [reflexivity|]. cbn. now rewrite IH. Qed.
  Lemma same_id : forall (d : design) i j, NoDup (map i_id d) -> In i d -> In j d -> i_id i = i_id j -> i = j.
  Proof.
    intros d i j N I J X. induction d as [|q r IH]; [destruct I|]. cbn in N. inversion N as [|? ? N1 N2]; subst. destruct I as [->|I], J as [->|J]; auto.
    - exfalso. apply N1. rewrite X. now apply in_map.
    - exfalso. apply N1. rewrite <- X. now apply in_map.
  Qed.
  Lemma fan_var_step : forall g d x d', fan_good G M d -> m_owner M x = g -> fan_var M g d x = Ok d' ->
    (d' = d /\ exists c, chain M d (S (length d)) x = Ok c /\ (length c <= 2)%nat) \/
    exists l b keep, path M d x l b /\ (2 <= length l)%nat /\ NoDup (pvars l b) /\ (forall it, In it d -> (keep it = false <-> In it (map snd l))) /\
      d' = map (to_item x b) (filter keep d).
  Proof.
    intros g d x d' FG Og H. unfold fan_var in H. destruct (chain M d (S (length d)) x) as [c| |] eqn:C; try discriminate. cbn [obind] in H.
    destruct (Nat.leb_spec (length c) 2) as [Lc|Lc]; [apply Ok_inj in H as <-; left; eauto|]. right.
    destruct (chain_path M d _ _ _ C) as [->|(l & b & o & -> & P)]; [cbn in Lc; lia|].
    destruct (path_nodup M d _ _ _ P _ _ C) as [ND _]. rewrite app_length, map_length in Lc. cbn in Lc.
    assert (2 <= length l)%nat as L2 by lia.
    set (keep := fun it => negb (Nat.eqb (i_gen it) g && mem (i_id it) (map (fun p : var * item => i_id (snd p)) l))).
    exists l, b, keep. split; [exact P|]. split; [exact L2|]. split; [exact ND|].
    assert (forall v it, In (v, it) l -> In it d /\ i_gen it = g) as IG.
    { intros v it I. destruct (path_wires M d _ _ _ v it P I) as (y & R & E & _). destruct (reader_one d v it R) as (Id & Rd & _). split; [exact Id|].
      rewrite (fg_scope _ _ _ FG it v Id); [|apply (hid_local G M d x b l FG P L2 v); apply hid_in; eauto|now left].
      rewrite <- Og. apply (owners M d x b l P). unfold pvars. apply in_or_app. left. apply in_map_iff. exists (v, it). auto. }
    assert (HK : forall it, In it d -> (keep it = false <-> In it (map snd l))).
    { intros it I. unfold keep. rewrite negb_false_iff, andb_true_iff, Nat.eqb_eq, mem_In. split.
      - intros [_ J]. apply in_map_iff in J. destruct J as ([v i0] & E & J). cbn in E. destruct (IG v i0 J) as [I0 _].
        rewrite (same_id d it i0 (fg_ids _ _ _ FG) I I0 (eq_sym E)). apply in_map_iff. exists (v, i0). auto.
      - intros J. apply in_map_iff in J. destruct J as ([v i0] & E & J). cbn in E. subst i0. split; [apply (IG v it J)|]. apply in_map_iff. exists (v, it). auto. }
    split; [exact HK|].
    assert (is_port M x = false) as NP.
    { unfold is_port. destruct (hid_local G M d x b l FG P L2 x) as [K _]; [|now rewrite K]. apply (hid_a M d x b l P L2). }
    rewrite NP in H. cbn [andb] in H. apply Ok_inj in H as <-. rewrite links_eq, last_last. cbn [fst]. fold keep.
    apply map_ext_in. intros it I. apply filter_In in I as [I Ke]. destruct (Nat.eqb_spec (i_gen it) g) as [|N]; [reflexivity|].
    symmetry. apply to_item_same. intros A. apply N. rewrite (fg_scope _ _ _ FG it x I); [exact Og| |right; now left].
    apply (hid_local G M d x b l FG P L2 x). apply (hid_a M d x b l P L2).
  Qed.

  (* three in a row *)
  Definition row (d : design) (x : var) : Prop := exists y z w, link M d x y /\ link M d y z /\ link M d z w.
  Record same (d d' : design) : Prop := {
    sm_good : fan_good G M d';
    sm_fwd : forall h, Forall (in_range G) h -> history G d h -> history G d' h;
    sm_bwd : forall h', Forall (in_range G) h' -> history G d' h' ->
      exists h, Forall (in_range G) h /\ history G d h /\ Forall2 (agree (fun x => ~ bypassed M d d' x)) h h';
    sm_reads : forall x, d_reads x d' -> d_reads x d;
    sm_row : forall x, row d' x -> row d x;
    sm_links : forall x y, clos_trans _ (link M d') x y -> clos_trans _ (link M d) x y }.
  Lemma same_refl : forall d, fan_good G M d -> same d d.
  Proof.
    intros d FG. constructor; auto. intros h F H. exists h. split; [exact F|]. split; [exact H|]. clear. induction h; constructor; auto. intros x _. reflexivity.
  Qed.
  Lemma same_trans : forall a b c, same a b -> same b c -> same a c.
  Proof.
    intros a b c A B. constructor.
    - apply (sm_good _ _ B).
    - intros h F H. apply (sm_fwd _ _ B); auto. now apply (sm_fwd _ _ A).
    - intros h2 F2 H2. destruct (sm_bwd _ _ B h2 F2 H2) as (h1 & F1 & H1 & A1). destruct (sm_bwd _ _ A h1 F1 H1) as (h0 & F0 & H0 & A0).
      exists h0. split; [exact F0|]. split; [exact H0|]. clear - A B A0 A1. revert h2 A1. induction A0 as [|r0 r1 t0 t1 E0 _ IH]; intros h2 A1; inversion A1 as [|? r2 ? t2 E1 A1']; subst; constructor; auto.
      intros x N. rewrite E0, E1; [reflexivity| |].
      + intros (K & R & Nr). apply N. split; [exact K|]. split; [now apply (sm_reads _ _ A)|exact Nr].
      + intros (K & R & Nr). apply N. split; [exact K|]. split; [exact R|]. intros R2. apply Nr. now apply (sm_reads _ _ B).
    - intros x H. apply (sm_reads _ _ A), (sm_reads _ _ B), H.
    - intros x H. apply (sm_row _ _ A), (sm_row _ _ B), H.
    - intros x y H. apply (sm_links _ _ A), (sm_links _ _ B), H.
  Qed.
  Lemma row_chain : forall d x n c, NoDup (map i_id d) -> row d x -> chain M d n x = Ok c -> (3 <= length c)%nat.
  Proof.
    intros d x n c N (y & z & w & A & B & C) H.
    destruct (link_hop M d N _ _ A) as (i1 & R1 & E1 & O1). destruct (link_hop M d N _ _ B) as (i2 & R2 & E2 & O2). destruct (link_hop M d N _ _ C) as (i3 & R3 & E3 & O3).
    destruct n as [|n]; [discriminate|]. rewrite chain_S, R1, E1, O1, Nat.eqb_refl in H. destruct (chain M d n y) as [c1| |] eqn:H1; try discriminate.
    destruct n as [|n]; [discriminate|]. rewrite chain_S, R2, E2, O2, Nat.eqb_refl in H1. destruct (chain M d n z) as [c2| |] eqn:H2; try discriminate.
    destruct n as [|n]; [discriminate|]. rewrite chain_S, R3, E3, O3, Nat.eqb_refl in H2. destruct (chain M d n w) as [c3| |] eqn:H3; try discriminate.
    cbn [obind] in *. apply Ok_inj in H2 as <-. apply Ok_inj in H1 as <-. apply Ok_inj in H as <-. cbn. lia.
  Qed.
  Lemma link_reads : forall d x y, link M d x y -> d_reads x d.
  Proof. intros d x y (it & I & E & _). exists it. split; [exact I|]. rewrite E. apply (wire_here x y). Qed.
  Lemma fan_var_same : forall g d x d', fan_good G M d -> m_owner M x = g -> fan_var M g d x = Ok d' -> same d d' /\ ~ row d' x.
  Proof.
    intros g d x d' FG Og H. destruct (fan_var_step g d x d' FG Og H) as [[-> (c & C & Lc)]|(l & b & keep & P & L2 & ND & HK & ->)].
    - split; [now apply same_refl|]. intros R. pose proof (row_chain d x _ c (fg_ids _ _ _ FG) R C). lia.
    - split.
      + constructor.
        * eapply step_good; eauto.
        * intros h F Hh. eapply history_fwd; eauto.
        * intros h' F Hh. exists (map (lift b l) h'). split; [apply Forall_map; eapply Forall_impl; [|exact F]; intros r Hr; eapply lift_range; eauto|].
          split; [eapply history_bwd; eauto|]. clear Hh F. induction h' as [|r t IH]; constructor; [|exact IH].
          intros v N. apply lift_off. destruct (hid l v) eqn:Hv; [|reflexivity]. exfalso. apply N. eapply hid_bypassed; eauto.
        * intros v R. eapply d'_reads; eauto.
        * intros v (y & z & w & A & B & C). destruct (two M d x b l P L2) as (v1 & v2 & T1 & T2).
          eapply link_back in A; eauto. destruct A as [A|[A ->]]; [|exists x, v1, v2; auto]. eapply link_back in B; eauto. destruct B as [B|[B ->]]; [|exists y, x, v1; auto].
          eapply link_back in C; eauto. destruct C as [C|[C ->]]; [exists y, z, w; auto|exists y, z, x; auto].
        * intros u v. eapply links_back; eauto.
      + intros (y & z & w & A & _). apply link_reads in A. revert A. eapply d'_hid; eauto. eapply hid_a; eauto.
  Qed.
  Lemma fan_vars_same : forall g l d d', fan_good G M d -> (forall x, In x l -> m_owner M x = g) -> fan_vars M g l d = Ok d' -> same d d' /\ (forall x, In x l -> ~ row d' x).
  Proof.
    induction l as [|x l IH]; intros d d' FG O H; cbn [fan_vars] in H.
    - apply Ok_inj in H as <-. split; [now apply same_refl|]. intros x [].
    - destruct (fan_var M g d x) as [d1| |] eqn:E; try discriminate. cbn [obind] in H.
      destruct (fan_var_same g d x d1 FG (O x (or_introl eq_refl)) E) as [S1 N1].
      destruct (IH d1 d' (sm_good _ _ S1)) as [S2 N2]; [intros y Iy; apply O; now right|exact H|]. split; [eapply same_trans; eauto|].
      intros y [<-|Iy]; [|now apply N2]. intros R. apply N1. now apply (sm_row _ _ S2).
  Qed.
  Lemma fan_gens_same : well_named M -> forall gs d d', fan_good G M d -> fan_gens M gs d = Ok d' ->
    same d d' /\ (forall g x, In g gs -> In x (m_names M g) -> ~ row d' x).
  Proof.
    intros W. induction gs as [|g gs IH]; intros d d' FG H; cbn [fan_gens] in H.
    - apply Ok_inj in H as <-. split; [now apply same_refl|]. intros g x [].
    - destruct (fan_vars M g (m_names M g) d) as [d1| |] eqn:E; try discriminate. cbn [obind] in H.
      destruct (fan_vars_same g _ d d1 FG (W g) E) as [S1 N1]. destruct (IH d1 d' (sm_good _ _ S1) H) as [S2 N2].
      split; [eapply same_trans; eauto|]. intros g0 y [<-|Ig] Iy; [|now apply (N2 g0)]. intros R. apply (N1 y Iy). now apply (sm_row _ _ S2).
  Qed.

  (* it ends unless the wires form a circle *)
  Lemma chain_long : forall d n x, chain M d n x <> Throw -> chain M d n x = UB -> exists l z, path M d x l z /\ length l = n.
  Proof.
    intros d. induction n as [|n IH]; intros x NT H; [exists [], x; split; [constructor|reflexivity]|]. rewrite chain_S in H, NT.
    destruct (readers d x) as [|it [|it2 m]] eqn:R; try discriminate.
    destruct (i_proc it) as [[y| |] [x'| | | | | | |]|l|evs l] eqn:E; try discriminate.
    destruct (Nat.eqb_spec (m_owner M y) (m_owner M x)) as [O|]; [|discriminate].
    destruct (chain M d n y) as [c'| |] eqn:C; try discriminate.
    destruct (IH y) as (l & z & P & Hl); [rewrite C; discriminate|exact C|].
    assert (x' = x) as ->. { destruct (reader_one d x it R) as (_ & Rd & _). rewrite E in Rd. symmetry. exact (wire_reads _ _ _ Rd). }
    exists ((x, it) :: l), z. split; [econstructor; eauto|]. cbn. now rewrite Hl.
  Qed.
  Lemma chain_no_throw : forall d n x, chain M d n x <> Throw.
  Proof.
    intros d. induction n as [|n IH]; intros x; [discriminate|]. rewrite chain_S. destruct (readers d x) as [|it [|it2 r]]; try discriminate.
    destruct (i_proc it) as [[y| |] [x'| | | | | | |]|l|evs l]; try discriminate. destruct (Nat.eqb _ _); [|discriminate].
    specialize (IH y). destruct (chain M d n y) as [c| |]; cbn; try discriminate. now apply IH.
  Qed.
  Lemma path_split : forall d x l z, path M d x l z -> forall v, In v (map fst l) -> exists l1 l2, path M d x l1 v /\ path M d v l2 z /\ l = l1 ++ l2 /\ l2 <> [].
  Proof.
    intros d. induction 1 as [x|x it y l z R E O P IH]; intros v I; [destruct I|]. destruct I as [<-|I].
    - exists [], ((x, it) :: l). split; [constructor|]. split; [econstructor; eauto|]. split; [reflexivity|discriminate].
    - destruct (IH v I) as (l1 & l2 & P1 & P2 & -> & N). exists ((x, it) :: l1), l2. split; [econstructor; eauto|]. auto.
  Qed.
  Lemma path_items : forall d x l z, path M d x l z -> (forall v, ~ clos_trans _ (link M d) v v) -> NoDup (map snd l) /\ incl (map snd l) d.
  Proof.
    intros d x l z P A. assert (NoDup (map fst l)) as N.
    { induction P as [x|x it y l z R E O P IH]; [constructor|]. cbn. constructor; [|exact IH]. intros I.
      destruct (path_split d _ _ _ P x I) as (l1 & l2 & P1 & _). apply (A x).
      destruct l1 as [|p l1].
      - inversion P1; subst. apply t_step. eapply hop_link; eauto.
      - eapply t_trans; [apply t_step; eapply hop_link; eauto|]. eapply path_links; [exact P1|discriminate]. }
    assert (forall v it, In (v, it) l -> exists y, readers d v = [it] /\ i_proc it = PWire (LVar y) (EVar v)) as W.
    { intros v it I. destruct (path_wires M d _ _ _ v it P I) as (y & B & C & _). eauto. }
    clear P. split.
    - induction l as [|[v it] l IH]; [constructor|]. cbn in *. inversion N as [|? ? N1 N2]; subst. constructor; [|apply IH; auto].
      intros I. apply in_map_iff in I. destruct I as ([v2 it2] & E2 & I). cbn in E2. subst it2. apply N1.
      destruct (W v it (or_introl eq_refl)) as (y & _ & E1). destruct (W v2 it (or_intror I)) as (y2 & _ & E3). rewrite E1 in E3. injection E3 as _ <-.
      apply in_map_iff. exists (v, it). auto.
    - intros it I. apply in_map_iff in I. destruct I as ([v i0] & E & I). cbn in E. subst i0. destruct (W v it I) as (y & R & _). apply (reader_one d v it R).
  Qed.
  Lemma fan_var_ends : forall g d x, (forall v, ~ clos_trans _ (link M d) v v) -> exists d', fan_var M g d x = Ok d'.
  Proof.
    intros g d x A. unfold fan_var. destruct (chain M d (S (length d)) x) as [c| |] eqn:C.
    - cbn [obind]. destruct (_ <=? _)%nat; eauto.
    - exfalso. exact (chain_no_throw _ _ _ C).
    - exfalso. destruct (chain_long d _ _ (chain_no_throw d _ x) C) as (l & z & P & Hl). destruct (path_items d _ _ _ P A) as [N I].
      pose proof (NoDup_incl_length N I) as Le. rewrite map_length in Le. lia.
  Qed.
  Lemma fan_gens_ends : well_named M -> forall gs d, fan_good G M d -> (forall v, ~ clos_trans _ (link M d) v v) -> exists d', fan_gens M gs d = Ok d'.
  Proof.
    intros W.
    assert (forall g l d, (forall x, In x l -> m_owner M x = g) -> fan_good G M d -> (forall v, ~ clos_trans _ (link M d) v v) -> exists d', fan_vars M g l d = Ok d') as V.
    { induction l as [|x l IH]; intros d O FG A; [exists d; reflexivity|]. cbn [fan_vars]. destruct (fan_var_ends g d x A) as (d1 & E1). rewrite E1. cbn [obind].
      destruct (fan_var_same g d x d1 FG (O x (or_introl eq_refl)) E1) as [S1 _]. apply IH; [intros y Iy; apply O; now right|apply (sm_good _ _ S1)|].
      intros v C. apply (A v). now apply (sm_links _ _ S1). }
    induction gs as [|g gs IH]; intros d FG A; [exists d; reflexivity|]. cbn [fan_gens]. destruct (V g (m_names M g) d (W g) FG A) as (d1 & E1). rewrite E1. cbn [obind].
    destruct (fan_vars_same g _ d d1 FG (W g) E1) as [S1 _]. apply IH; [apply (sm_good _ _ S1)|]. intros v C. apply (A v). now apply (sm_links _ _ S1).
  Qed.
  (* a circle *)
  Lemma circle_ub : forall d x, NoDup (map i_id d) -> clos_trans _ (link M d) x x -> forall n, chain M d n x = UB.
  Proof.
    intros d x N C.
    assert (forall n u v, clos_trans_1n _ (link M d) u v -> v = x -> chain M d n u = UB) as K.
    { induction n as [|n IH]; intros u v H E; [reflexivity|]. rewrite chain_S.
      assert (exists y, link M d u y /\ (y = x \/ clos_trans_1n _ (link M d) y x)) as (y & Lk & Hy).
      { destruct H as [y Lk|y z Lk H]; exists y; split; auto. right. now subst. }
      destruct (link_hop M d N _ _ Lk) as (it & R & Ew & O). rewrite R, Ew, O, Nat.eqb_refl.
      assert (chain M d n y = UB) as ->; [|reflexivity]. destruct Hy as [->|Hy]; [|exact (IH y x Hy eq_refl)].
      apply (IH x x); [|reflexivity]. now apply clos_trans_t1n. }
    intros n. apply (K n x x); [now apply clos_trans_t1n|reflexivity].
  Qed.
End Pass.
