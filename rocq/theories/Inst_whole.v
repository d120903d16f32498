From Verif Require Import Base SV_spec IR IRSem_spec IR_lemmas IfCase_proofs IR_frame Flow_spec Flow_proofs Design_spec Design_proofs Dce_spec Dce_model Dce_proofs
  Fan_spec Fan_model Retarget_proofs Fan_proofs Tie_model Tie_proofs Tie_props Move_spec Move_model Move_proofs Move_props Pass_spec Pass_proofs Inline_spec Inline_model Inline_proofs
  Graph_proofs Decl_proofs Inst_spec Inst_model Inst_proofs Inst_steps Inst_run Inst_inv.
Local Open Scope Z_scope.

Section Whole.
  Variables (G : tenv) (H : hierarchy) (new : var -> var) (cs : list nat) (d0 : design).
  Hypothesis LG : legal G H new cs d0.
  Variable st : pstate2.
  Hypothesis V : inv G H new cs d0 [] st.
  Notation D := (p_design st).
  Let GD : good H d0 := lg_good _ _ _ _ _ LG.

  (* what the connection of one port says *)
  Definition right_link (g : nat) (p : var) (k : option (nat * link)) : Prop :=
    match k with
    | None => h_kind H p = KOut /\ ~ used d0 g p
    | Some (n, k) => link_port k = p /\ (exists it, In it D /\ i_id it = n /\ i_gen it = g /\ i_proc it = link_proc k) /\
        match k with
        | LinkIn _ e => h_kind H p = KIn /\ connectable e /\ in_gen H g e = true /\ forall it, In it D -> assigns p (body it) -> i_id it = n
        | LinkOut _ l => h_kind H p = KOut /\ used d0 g p /\ exists x, l = LVar x /\ h_owner H x = g
        end
    end.
  Lemma attach_ok : forall c g p, In c cs -> h_parent H c = Some g -> In p (h_ports H c) -> exists k, attach H new g p st = Ok k /\ right_link g p k.
  Proof using LG V.
    intros c g p Ic P Ip. assert (In (c, p) (ports_in H cs)) as I by (apply in_ports; auto). destruct (g_ports _ _ GD _ _ Ip) as [Oc Kp]. destruct (acyclic H d0 c g GD (proj2 (lg_once _ _ _ _ _ LG) c Ic) P) as [Ncg Nup].
    unfold attach. destruct (h_kind H p) eqn:K; [contradiction| |].
    - destruct (iv_done_in _ _ _ _ _ _ _ V c g p I (fun X => X) P K) as (it & e & Es & J & Eg & Ep & C & Ge). unfold attach_in. rewrite Es. cbn [filter snd existsb]. rewrite Ge. cbn.
      eexists. split; [reflexivity|]. cbn. split; [reflexivity|]. split; [exists it; auto|]. split; [exact K|]. split; [exact C|]. split; [exact Ge|].
      intros it' I' (k & l & e' & In' & El). assert (In (it', SAssign k l e') (sources_of D p)) as X by (apply in_statements; split; [exact I'|]; split; [exact In'|]; cbn; now apply Nat.eqb_eq).
      rewrite Es in X. destruct X as [X|[]]. injection X as -> _ _ _. reflexivity.
    - unfold attach_out. destruct (iv_done_out _ _ _ _ _ _ _ V c g p I (fun X => X) P K) as [(M & U & it & F & J & Eg & Ep)|S0].
      + rewrite F. cbn [filter snd lhs_var]. destruct (lg_made _ _ _ _ _ LG c g p Ic (conj P Ip)) as (_ & _ & Ow). rewrite Ow, Nat.eqb_refl. eexists. split; [reflexivity|]. cbn.
        split; [reflexivity|]. split; [exists it; auto|]. split; [exact K|]. split; [exact U|]. eauto.
      + set (own := fun k : item * stmt => match snd k with SAssign _ l _ => Nat.eqb (h_owner H (lhs_var l)) g | _ => false end).
        assert (~ In p (p_moved st)) as Nm by (destruct S0 as [S0|S0]; apply S0).
        assert (filter own (filter (recorded new p st) (sinks_of D p)) = filter own (filter (in_generator g) (sinks_of D p))) as E.
        { assert (forall k, In k (sinks_of D p) -> own k = true -> in_generator g k = true) as Lo.
          { intros (it, s) J Ow. apply in_statements in J. destruct J as (J1 & J2 & J3). apply Nat.eqb_eq. cbn [fst]. apply mem_In, reads_sinks in J3. assert (reads p (body it)) as R by (exists s; auto).
            destruct (iv_scope _ _ _ _ _ _ _ V it p J1 (or_introl R)) as [X|[X _]]; [|congruence]. rewrite Oc in X. unfold own in Ow. cbn [snd] in Ow. destruct s as [k l e| | | | | | |]; try discriminate. apply Nat.eqb_eq in Ow.
            assert (touches (lhs_var l) (body it)) as T by (left; exists k, l, e; auto). destruct (iv_scope _ _ _ _ _ _ _ V it _ J1 (or_intror T)) as [Y|[Y _]]; [congruence|]. exfalso. apply Nup. congruence. }
          assert (filter (recorded new p st) (sinks_of D p) = sinks_of D p) as ->.
          { assert (forall l : list (item * stmt), filter (recorded new p st) l = l) as X; [|apply X]. intros l. induction l as [|k r IH]; [reflexivity|]. cbn [filter]. unfold recorded at 1.
            rewrite (proj2 (mem_false p (p_moved st)) Nm). now rewrite IH. }
          revert Lo. generalize (sinks_of D p). intros l Lo. induction l as [|k r IH]; [reflexivity|]. cbn [filter]. specialize (IH (fun k I => Lo k (or_intror I))). destruct (own k) eqn:O.
          - rewrite (Lo k (or_introl eq_refl) O). cbn [filter]. rewrite O. now rewrite IH.
          - destruct (in_generator g k); [|exact IH]. cbn [filter]. now rewrite O. }
        rewrite E. destruct S0 as [(_ & U & F)|(_ & U & it & x & F & J & Eg & Ep & Ox)]; rewrite F.
        * eexists. split; [reflexivity|]. cbn. auto.
        * unfold own. cbn [filter snd lhs_var]. rewrite Ox, Nat.eqb_refl. eexists. split; [reflexivity|]. cbn. split; [reflexivity|]. split; [exists it; auto|]. split; [exact K|]. split; [exact U|]. eauto.
  Qed.
  (* the connections of one instance *)
  Definition right_links (c g : nat) (ps : list var) (ks : list (nat * link)) : Prop :=
    NoDup (map link_port (map snd ks)) /\ (forall k, In k ks -> In (link_port (snd k)) ps /\ right_link g (link_port (snd k)) (Some k)) /\
    forall p, In p ps -> (exists k, In k ks /\ link_port (snd k) = p) \/ (h_kind H p = KOut /\ ~ used d0 g p).
  Lemma attach_all_ok : forall c g ps, In c cs -> h_parent H c = Some g -> NoDup ps -> (forall p, In p ps -> In p (h_ports H c)) -> exists ks, attach_all H new g ps st = Ok ks /\ right_links c g ps ks.
  Proof using LG V.
    intros c g ps Ic P. induction ps as [|p r IH]; intros N S0.
    - eexists. split; [reflexivity|]. split; [apply NoDup_nil|]. split; intros ? [].
    - inversion N as [|? ? N1 N2]; subst. destruct (IH N2 (fun q I => S0 q (or_intror I))) as (ks & E & A & B & C). destruct (attach_ok c g p Ic P (S0 p (or_introl eq_refl))) as (k & E1 & K). cbn [attach_all]. rewrite E1. cbn [obind]. rewrite E. cbn [obind].
      destruct k as [(n, k)|]; eexists; (split; [reflexivity|]).
      + destruct K as (K1 & K2). split; [|split].
        * cbn [map snd]. constructor; [|exact A]. rewrite K1. intros J. apply N1. apply in_map_iff in J. destruct J as (k' & E' & J). apply in_map_iff in J. destruct J as (k'' & <- & J). rewrite <- E'. apply (B k'' J).
        * intros q [<-|J]; [|destruct (B q J) as [B1 B2]; split; [now right|exact B2]]. cbn [snd]. rewrite K1. split; [now left|]. split; [exact K1|exact K2].
        * intros q [<-|J]; [left; exists (n, k); split; [now left|exact K1]|]. destruct (C q J) as [(k' & J1 & J2)|X]; [left; exists k'; split; [now right|exact J2]|now right].
      + split; [exact A|]. split; [intros q J; destruct (B q J) as [B1 B2]; split; [now right|exact B2]|]. intros q [<-|J]; [right; exact K|now apply C].
  Qed.
  Definition placed (l : list nat) : list (nat * nat) := flat_map (fun c => match h_parent H c with Some g => [(c, g)] | None => [] end) l.
  Lemma all_instances : forall l, (forall c, In c l -> In c cs) -> exists t, instantiate_all H new l st = Ok t /\ map (fun i => (in_child i, in_parent i)) (snd t) = placed l /\
    (forall i, In i (snd t) -> In (in_child i) l /\ h_parent H (in_child i) = Some (in_parent i) /\ exists ks, in_links i = map snd ks /\ right_links (in_child i) (in_parent i) (h_ports H (in_child i)) ks /\ forall k, In k ks -> In (fst k) (fst t)) /\
    (forall n, In n (fst t) -> exists i k, In i (snd t) /\ In k (in_links i) /\ right_link (in_parent i) (link_port k) (Some (n, k))).
  Proof using LG V.
    induction l as [|c r IH]; intros S0.
    - eexists. split; [reflexivity|]. split; [reflexivity|]. split; intros ? [].
    - destruct (IH (fun c I => S0 c (or_intror I))) as (t & E & A & B & C). cbn [instantiate_all placed flat_map]. destruct (h_parent H c) as [g|] eqn:P.
      + destruct (attach_all_ok c g (h_ports H c) (S0 c (or_introl eq_refl)) P (lg_ports _ _ _ _ _ LG c) (fun p I => I)) as (ks & E1 & K). rewrite E1. cbn [obind]. rewrite E. cbn [obind]. eexists. split; [reflexivity|]. cbn [fst snd map in_child in_parent].
        split; [now rewrite A|]. split.
        * intros i [<-|J]; cbn [in_child in_parent in_links].
          -- split; [now left|]. split; [exact P|]. exists ks. split; [reflexivity|]. split; [exact K|]. intros k J. apply in_or_app. left. now apply in_map.
          -- destruct (B i J) as (B1 & B2 & ks' & B3 & B4 & B5). split; [now right|]. split; [exact B2|]. exists ks'. split; [exact B3|]. split; [exact B4|]. intros k Jk. apply in_or_app. right. now apply B5.
        * intros n J. apply in_app_or in J. destruct J as [J|J].
          -- apply in_map_iff in J. destruct J as ((n', k) & <- & J). eexists. exists k. split; [now left|]. cbn [in_links in_parent fst]. split; [apply in_map_iff; exists (n', k); auto|]. exact (proj2 (proj1 (proj2 K) (n', k) J)).
          -- destruct (C n J) as (i & k & C1 & C2 & C3). exists i, k. split; [now right|]. auto.
      + eexists. split; [exact E|]. split; [exact A|]. split; [|exact C]. intros i J. destruct (B i J) as [B1 B2]. split; [now right|exact B2].
  Qed.
  Definition link_items (is : list instance) : design := flat_map (fun i => map (link_item (in_parent i)) (in_links i)) is.
  Lemma link_event : forall g k, events_of (i_proc (link_item g k)) = [].
  Proof using. intros g [p e|p l]; reflexivity. Qed.
  Lemma ids_same : forall it it', In it D -> In it' D -> i_id it = i_id it' -> it = it'.
  Proof using V.
    pose proof (iv_ids _ _ _ _ _ _ _ V) as N. intros it it'. revert N. generalize D. intros d N. induction d as [|a r IH]; [intros []|]. cbn in N. inversion N as [|? ? N1 N2]; subst.
    intros [<-|I] [<-|J] E; auto; exfalso; apply N1; [rewrite E|rewrite <- E]; now apply in_map.
  Qed.
  Lemma instantiated : exists d' is, instantiate H new cs st = Ok (d', is) /\ map (fun i => (in_child i, in_parent i)) is = placed cs /\
    (forall i, In i is -> exists ks, in_links i = map snd ks /\ right_links (in_child i) (in_parent i) (h_ports H (in_child i)) ks /\ forall it, In it d' -> ~ In (i_id it) (map fst ks)) /\
    (forall it, In it d' -> In it D) /\ extends G (made H new cs) d0 (elaborated d' is).
  Proof using LG V.
    destruct (all_instances cs (fun c I => I)) as ((ids, is) & E & A & B & C). cbn [fst snd] in *. unfold instantiate. rewrite E. cbn [obind fst snd].
    set (d' := filter (fun it => negb (mem (i_id it) ids)) D). exists d', is. split; [reflexivity|]. split; [exact A|].
    split; [|split; [intros it J; apply filter_In in J; apply J|]].
    - intros i J. destruct (B i J) as (_ & _ & ks & B3 & B4 & B5). exists ks. split; [exact B3|]. split; [exact B4|]. intros it I X. apply filter_In in I. destruct I as [_ I]. apply negb_true_iff, mem_false in I. apply I.
      apply in_map_iff in X. destruct X as (k & E1 & X). rewrite <- E1. now apply B5.
    - apply (extends_same _ _ _ _ _ (iv_ext _ _ _ _ _ _ _ V)). apply same_history.
      + intros q _. unfold elaborated. fold (link_items is). rewrite map_app, in_app_iff. split.
        * intros J. apply in_map_iff in J. destruct J as (it & <- & J). destruct (mem (i_id it) ids) eqn:M.
          -- right. apply mem_In in M. destruct (C _ M) as (i & k & C1 & C2 & _ & (it' & J' & E1 & _ & E2) & _). rewrite (ids_same it it' J J' (eq_sym E1)), E2.
             apply in_map_iff. exists (link_item (in_parent i) k). split; [reflexivity|]. apply in_flat_map. exists i. split; [exact C1|]. now apply in_map.
          -- left. apply in_map, filter_In. now rewrite M.
        * intros [J|J].
          -- apply in_map_iff in J. destruct J as (it & <- & J). apply filter_In in J. now apply in_map.
          -- apply in_map_iff in J. destruct J as (x & <- & J). apply in_flat_map in J. destruct J as (i & J1 & J2). apply in_map_iff in J2. destruct J2 as (k & <- & J2). destruct (B i J1) as (_ & _ & ks & B3 & (_ & B4 & _) & _).
             rewrite B3 in J2. apply in_map_iff in J2. destruct J2 as ((n, k') & <- & J2). destruct (B4 _ J2) as (_ & _ & (it & I1 & _ & _ & I2) & _). cbn [snd link_item i_proc] in *. rewrite <- I2. now apply in_map.
      + unfold elaborated. fold (link_items is). rewrite filter_app, map_app. assert (filter on_clock (link_items is) = []) as ->.
        { apply no_elements. intros x J. apply filter_In in J. destruct J as [J O]. apply in_flat_map in J. destruct J as (i & _ & J). apply in_map_iff in J. destruct J as (k & <- & _). unfold on_clock in O. rewrite link_event in O. discriminate. }
        cbn [map]. rewrite app_nil_r. f_equal. unfold d'. assert (forall it, In it D -> on_clock it = true -> mem (i_id it) ids = false) as K.
        { intros it J O. destruct (mem (i_id it) ids) eqn:M; [|reflexivity]. apply mem_In in M. destruct (C _ M) as (i & k & _ & _ & _ & (it' & J' & E1 & _ & E2) & _). rewrite (ids_same it it' J J' (eq_sym E1)) in O.
          unfold on_clock in O. rewrite E2 in O. destruct k; discriminate. }
        revert K. generalize D. intros l K. induction l as [|it r IH]; [reflexivity|]. cbn [filter]. specialize (IH (fun it I => K it (or_intror I))). destruct (on_clock it) eqn:O.
        * rewrite (K it (or_introl eq_refl) O). cbn [negb filter]. rewrite O. now rewrite IH.
        * destruct (negb (mem (i_id it) ids)); [cbn [filter]; now rewrite O|exact IH].
  Qed.
End Whole.
