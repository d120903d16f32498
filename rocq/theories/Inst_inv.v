From Verif Require Import Base SV_spec IR IRSem_spec IR_lemmas IfCase_proofs IR_frame Flow_spec Flow_proofs Design_spec Design_proofs Dce_spec Dce_model Dce_proofs
  Fan_spec Fan_model Retarget_proofs Fan_proofs Tie_model Tie_proofs Tie_props Move_spec Move_model Move_proofs Move_props Pass_spec Pass_proofs Inline_spec Inline_model Inline_proofs
  Graph_proofs Decl_proofs Inst_spec Inst_model Inst_proofs Inst_steps Inst_run.
Local Open Scope Z_scope.

Lemma acyclic : forall H d c g, good H d -> In c (h_gens H) -> h_parent H c = Some g -> c <> g /\ h_parent H g <> Some c.
Proof.
  intros H d c g GD I P. apply in_split in I. destruct I as (l1 & l2 & E). pose proof (g_order _ _ GD l1 c l2 g E P) as J. pose proof (g_nodup _ _ GD) as N. rewrite E in N.
  apply nodup_app in N. destruct N as (_ & N & _). inversion N as [|? ? N1 N2]; subst. split; [intros ->; contradiction|]. intros P'.
  apply in_split in J. destruct J as (l3 & l4 & ->). assert (In c l4) as K.
  { apply (g_order _ _ GD (l1 ++ c :: l3) g l4 c); [|exact P']. rewrite <- app_assoc. exact E. }
  apply N1. apply in_or_app. right. now right.
Qed.
Lemma inside_one : forall s k l e, inside s [SAssign k l e] -> s = SAssign k l e.
Proof. intros s k l e I. inversion I as [? J|? ? ? ? J|? ? ? ? J|? ? ? ? ? ? J|? ? ? ? J|? ? ? ? ? ? J|? ? J]; subst; destruct J as [J|[]]; congruence. Qed.

Section Run.
  Variables (G : tenv) (H : hierarchy) (new : var -> var) (cs : list nat) (d0 : design).
  Hypothesis LG : legal G H new cs d0.
  Definition made (x : var) : Prop := exists c g p, In c cs /\ port_of H g c p /\ x = new p.
  Let GD : good H d0 := lg_good _ _ _ _ _ LG.

  Lemma in_ports : forall c p, In (c, p) (ports_in H cs) <-> In c cs /\ In p (h_ports H c).
  Proof using.
    intros c p. unfold ports_in. rewrite in_flat_map. split.
    - intros (c0 & I & J). apply in_map_iff in J. destruct J as (p0 & E & J). injection E as <- <-. auto.
    - intros [I J]. exists c. split; [exact I|]. now apply in_map.
  Qed.
  Lemma ports_nodup : NoDup (map snd (ports_in H cs)).
  Proof using LG.
    assert (forall l, NoDup l -> NoDup (map snd (ports_in H l))) as X; [|apply X; apply (lg_once _ _ _ _ _ LG)].
    intros l N. unfold ports_in. induction l as [|c r IH]; [constructor|]. inversion N as [|? ? N1 N2]; subst. cbn [flat_map]. rewrite map_app, map_map. cbn [snd]. rewrite map_id.
    apply nodup_app2; [apply (lg_ports _ _ _ _ _ LG)| |].
    - now apply IH.
    - intros x I J. apply in_map_iff in J. destruct J as ((c', x') & <- & J). cbn [snd] in *. apply in_flat_map in J. destruct J as (c0 & J1 & J2). apply in_map_iff in J2. destruct J2 as (p & E & J2). injection E as -> ->.
      apply (g_ports _ _ GD) in I, J2. destruct I as [I _], J2 as [J2 _]. congruence.
  Qed.

  Record inv (L : list (nat * var)) (st : pstate2) : Prop := {
    iv_ids : NoDup (map i_id (p_design st));
    iv_scope : forall it x, In it (p_design st) -> reads x (body it) \/ touches x (body it) -> h_owner H x = i_gen it \/ (h_parent H (h_owner H x) = Some (i_gen it) /\ h_kind H x <> KVar);
    iv_in : forall c g p, In (c, p) L -> h_parent H c = Some g -> h_kind H p = KIn ->
      forall it, In it (p_design st) -> (touches p (body it) -> i_gen it = g /\ ~ reads p (body it)) /\ ~ loops_over p (body it);
    iv_out : forall c g p, In (c, p) L -> h_parent H c = Some g -> h_kind H p = KOut ->
      forall it, In it (p_design st) -> i_gen it = g -> ~ touches p (body it) /\ forall s, inside s (body it) -> ~ stuck p s;
    iv_new : forall c g p, In (c, p) L -> h_parent H c = Some g ->
      forall it, In it (p_design st) -> ~ reads (new p) (body it) /\ ~ touches (new p) (body it) /\ ~ In (new p) (map snd (events_of (i_proc it)));
    iv_used : forall c g p, In (c, p) L -> h_parent H c = Some g -> used (p_design st) g p <-> used d0 g p;
    iv_moved : forall c p, In (c, p) L -> ~ In p (p_moved st);
    iv_left : forall x, In x L -> In x (ports_in H cs);
    iv_done_in : forall c g p, In (c, p) (ports_in H cs) -> ~ In (c, p) L -> h_parent H c = Some g -> h_kind H p = KIn -> joined_in H (p_design st) g p;
    iv_done_out : forall c g p, In (c, p) (ports_in H cs) -> ~ In (c, p) L -> h_parent H c = Some g -> h_kind H p = KOut -> joined_out H new d0 st g p;
    iv_ext : extends G made d0 (p_design st) }.

  Lemma first : inv (ports_in H cs) {| p_design := d0; p_moved := [] |}.
  Proof using LG.
    constructor; cbn [p_design p_moved].
    - apply (g_ids _ _ GD).
    - intros it x I R. destruct (g_scope _ _ GD it x I) as [E|(E & _ & E2)]; [destruct R as [R|R]; auto|now left|]. right. split; [exact E|]. apply (g_ports _ _ GD) in E2. tauto.
    - intros c g p I P K it J. apply in_ports in I. destruct I as [I1 I2]. destruct (lg_in _ _ _ _ _ LG c g p it I1 (conj P I2) K J) as [A B]. split; [|exact B]. intros T. split; [|now apply A].
      assert (assigns p (body it)) as As by (destruct T as [T|T]; [exact T|contradiction]). pose proof (g_inputs _ _ GD it p J As K) as N.
      destruct (g_scope _ _ GD it p J) as [E|(E & _)]; [auto|contradiction|]. destruct (g_ports _ _ GD _ _ I2) as [O _]. rewrite O in E. congruence.
    - intros c g p I P K it J Eg. apply in_ports in I. destruct I as [I1 I2]. split; [|intros s; now apply (lg_moves _ _ _ _ _ LG c g p it s I1 (conj P I2))].
      intros T. apply (lg_out _ _ _ _ _ LG c g p it I1 (conj P I2) K J) in T. destruct (acyclic H d0 c g GD (proj2 (lg_once _ _ _ _ _ LG) c I1) P) as [N _]. congruence.
    - intros c g p I P it J. apply in_ports in I. destruct I as [I1 I2]. exact (lg_new _ _ _ _ _ LG c g p it I1 (conj P I2) J).
    - reflexivity.
    - intros c p _ [].
    - auto.
    - intros; contradiction.
    - intros; contradiction.
    - apply extends_refl.
  Qed.

  Section OneStep.
    Variables (c0 : nat) (p0 : var) (g0 : nat) (L : list (nat * var)).
    Hypothesis P0 : h_parent H c0 = Some g0.
    Hypothesis ND : NoDup (map snd ((c0, p0) :: L)).
    Hypothesis I0 : In (c0, p0) (ports_in H cs).
    Hypothesis HL : forall x, In x L -> In x (ports_in H cs).
    Notation v0 := (new p0).
    Lemma port0 : In c0 cs /\ port_of H g0 c0 p0.
    Proof using P0 I0. apply in_ports in I0. destruct I0. repeat split; auto. Qed.
    Lemma own0 : h_owner H p0 = c0 /\ h_kind H p0 <> KVar.
    Proof using P0 I0 LG. destruct port0 as [_ [_ X]]. now apply (g_ports _ _ GD). Qed.
    Lemma made0 : G p0 = G v0 /\ h_kind H v0 = KVar /\ h_owner H v0 = g0.
    Proof using P0 I0 LG. destruct port0 as [X Y]. destruct (lg_made _ _ _ _ _ LG c0 g0 p0 X Y) as (A & B & C). auto. Qed.
    Lemma apart0 : p0 <> v0.
    Proof using P0 I0 LG. destruct port0 as [X Y]. destruct (lg_apart _ _ _ _ _ LG c0 c0 g0 g0 p0 p0 X X Y Y) as [A _]. auto. Qed.
    Lemma up0 : c0 <> g0.
    Proof using P0 I0 LG. destruct port0 as [X _]. apply (acyclic H d0 c0 g0 GD (proj2 (lg_once _ _ _ _ _ LG) c0 X) P0). Qed.
    Lemma hid0 : made v0.
    Proof using P0 I0. destruct port0 as [X Y]. exists c0, g0, p0. auto. Qed.
    Lemma others : forall c g p, In (c, p) (ports_in H cs) -> (c, p) <> (c0, p0) -> h_parent H c = Some g -> p <> p0 /\ p <> v0 /\ new p <> p0 /\ new p <> v0.
    Proof using P0 I0 LG.
      intros c g p I N P. apply in_ports in I. destruct I as [I1 I2]. destruct port0 as [X Y].
      assert (p <> p0) as Np. { intros ->. apply N. destruct own0 as [O _]. apply (g_ports _ _ GD) in I2. destruct I2 as [O' _]. congruence. }
      destruct (lg_apart _ _ _ _ _ LG c c0 g g0 p p0 I1 X (conj P I2) Y) as [A B]. destruct (lg_apart _ _ _ _ _ LG c0 c g0 g p0 p X I1 Y (conj P I2)) as [A' _].
      split; [exact Np|]. split; [auto|]. split; [exact A|]. intros E. apply Np. now apply B.
    Qed.
    Lemma not_L : forall c p, In (c, p) L -> (c, p) <> (c0, p0).
    Proof using ND.
      intros c p I E. injection E as -> ->. cbn [map snd] in ND. inversion ND as [|? ? N _]; subst. apply N. apply in_map_iff. exists (c0, p0). auto.
    Qed.
    (* nothing changes for the ports that are left and those that are done *)
    Lemma any_step : forall st F w mv', inv ((c0, p0) :: L) st -> (forall it, mild g0 p0 v0 it (F it)) -> i_id w = fresh (p_design st) -> i_gen w = g0 ->
      (i_proc w = PWire (LVar p0) (EVar v0) \/ i_proc w = PWire (LVar v0) (EVar p0)) -> (mv' = p_moved st \/ mv' = p0 :: p_moved st) ->
      let st' := {| p_design := map F (p_design st) ++ [w]; p_moved := mv' |} in
      (forall c g p, In (c, p) (ports_in H cs) -> ~ In (c, p) ((c0, p0) :: L) -> h_parent H c = Some g -> h_kind H p = KIn -> joined_in H (p_design st') g p) ->
      (forall c g p, In (c, p) (ports_in H cs) -> ~ In (c, p) ((c0, p0) :: L) -> h_parent H c = Some g -> h_kind H p = KOut -> joined_out H new d0 st' g p) ->
      (h_kind H p0 = KIn -> joined_in H (p_design st') g0 p0) -> (h_kind H p0 = KOut -> joined_out H new d0 st' g0 p0) ->
      extends G made (p_design st) (p_design st') -> inv L st'.
    Proof using P0 ND I0 HL LG.
      intros st F w mv' V HF Hid Hg Hw Hmv st' Ji Jo K1 K2 Ex. destruct own0 as [Oc Ok], made0 as (MG & MK & MO).
      assert (forall c p g, In (c, p) L -> h_parent H c = Some g -> p <> p0 /\ p <> v0 /\ new p <> p0 /\ new p <> v0) as Oth by (intros c p g I P; apply (others c g p); [now apply HL|now apply not_L|exact P]).
      constructor; unfold st'; cbn [p_design p_moved].
      - apply (keep_ids (p_design st) F g0 p0 v0 w HF Hid Hg). apply (iv_ids _ _ V).
      - apply (keep_scope H (p_design st) F g0 p0 v0 w HF Hg Hw MO); [rewrite Oc; auto|]. apply (iv_scope _ _ V).
      - intros c g p I P K. destruct (Oth c p g I P) as (A & B & _). apply (keep_in (p_design st) F g0 p0 v0 w HF Hg Hw p A B). apply (iv_in _ _ V c); auto. now right.
      - intros c g p I P K. destruct (Oth c p g I P) as (A & B & _). apply (keep_out (p_design st) F g0 p0 v0 w HF Hg Hw p A B). apply (iv_out _ _ V c); auto. now right.
      - intros c g p I P. destruct (Oth c p g I P) as (_ & _ & A & B). apply (keep_new (p_design st) F g0 p0 v0 w HF Hg Hw (new p) A B). apply (iv_new _ _ V c g); auto. now right.
      - intros c g p I P. destruct (Oth c p g I P) as (A & B & _). rewrite (keep_used (p_design st) F g0 p0 v0 w HF Hg Hw p A B). apply (iv_used _ _ V c g); auto. now right.
      - intros c p I M. assert (p <> p0) as N by (intros ->; cbn [map snd] in ND; inversion ND as [|? ? N _]; subst; apply N; apply in_map_iff; exists (c, p0); auto).
        assert (In p (p_moved st)) as M' by (destruct Hmv as [-> | ->]; [exact M|destruct M as [M|M]; [congruence|exact M]]). exact (iv_moved _ _ V c p (or_intror I) M').
      - exact HL.
      - intros c g p I N P K. destruct (Nat.eq_dec p p0) as [->|Np].
        + assert (c = c0) as -> by (apply in_ports in I; destruct I as [_ I]; apply (g_ports _ _ GD) in I; destruct I; congruence). assert (g = g0) as -> by congruence. now apply K1.
        + apply (Ji c); auto. intros [X|X]; [congruence|contradiction].
      - intros c g p I N P K. destruct (Nat.eq_dec p p0) as [->|Np].
        + assert (c = c0) as -> by (apply in_ports in I; destruct I as [_ I]; apply (g_ports _ _ GD) in I; destruct I; congruence). assert (g = g0) as -> by congruence. now apply K2.
        + apply (Jo c); auto. intros [X|X]; [congruence|contradiction].
      - exact (extends_trans _ _ _ _ _ (iv_ext _ _ V) Ex).
    Qed.
    (* a port that stays as it is *)
    Lemma stays : forall st, inv ((c0, p0) :: L) st -> (h_kind H p0 = KIn -> joined_in H (p_design st) g0 p0) -> (h_kind H p0 = KOut -> joined_out H new d0 st g0 p0) -> inv L st.
    Proof using P0 ND I0 HL LG.
      intros st V K1 K2. constructor; try apply V.
      - intros c g p I. apply (iv_in _ _ V c). now right.
      - intros c g p I. apply (iv_out _ _ V c). now right.
      - intros c g p I. apply (iv_new _ _ V c). now right.
      - intros c g p I. apply (iv_used _ _ V c). now right.
      - intros c p I. apply (iv_moved _ _ V c). now right.
      - exact HL.
      - intros c g p I N P K. destruct (Nat.eq_dec p p0) as [->|Np].
        + assert (c = c0) as -> by (destruct own0; apply in_ports in I; destruct I as [_ I]; apply (g_ports _ _ GD) in I; destruct I; congruence). assert (g = g0) as -> by congruence. now apply K1.
        + apply (iv_done_in _ _ V c); auto. intros [X|X]; [congruence|contradiction].
      - intros c g p I N P K. destruct (Nat.eq_dec p p0) as [->|Np].
        + assert (c = c0) as -> by (destruct own0; apply in_ports in I; destruct I as [_ I]; apply (g_ports _ _ GD) in I; destruct I; congruence). assert (g = g0) as -> by congruence. now apply K2.
        + apply (iv_done_out _ _ V c); auto. intros [X|X]; [congruence|contradiction].
    Qed.
    Lemma done_apart : forall c g p, In (c, p) (ports_in H cs) -> ~ In (c, p) ((c0, p0) :: L) -> h_parent H c = Some g -> p <> p0 /\ p <> v0 /\ new p <> p0 /\ new p <> v0.
    Proof using P0 I0 LG. intros c g p I N P. apply (others c g p I); [|exact P]. intros E. apply N. now left. Qed.

    Lemma divert_in : forall st, inv ((c0, p0) :: L) st -> h_kind H p0 = KIn -> inv L {| p_design := move_src p0 v0 g0 (p_design st); p_moved := p_moved st |}.
    Proof using P0 ND I0 HL LG.
      intros st V K. destruct own0 as [Oc Ok], made0 as (MG & MK & MO). pose proof (iv_in _ _ V c0 g0 p0 (or_introl eq_refl) P0 K) as Hin. pose proof (iv_new _ _ V c0 g0 p0 (or_introl eq_refl) P0) as Hnew.
      unfold move_src. set (w := {| i_id := fresh (p_design st); i_gen := g0; i_proc := PWire (LVar p0) (EVar v0) |}).
      apply (any_step st (to_in g0 p0 v0) w (p_moved st) V); auto.
      - intros it. apply mild_in.
      - intros c g p I N P Kp. cbn [p_design]. destruct (done_apart c g p I N P) as (A & B & _). apply (in_keeps_in H (p_design st) g0 p0 v0 w eq_refl g p A B). now apply (iv_done_in _ _ V c).
      - intros c g p I N P Kp. destruct (done_apart c g p I N P) as (A & B & C & D). apply (in_keeps_out H new d0 (p_design st) (p_moved st) g0 p0 v0 w); auto; [rewrite Oc; apply up0|].
        pose proof (iv_done_out _ _ V c g p I N P Kp) as J. now destruct st.
      - intros _. cbn [p_design]. exists w, (EVar v0). split; [|split; [|split; [|split; [|split]]]]; auto.
        + unfold sources_of. rewrite statements_app, (wire_statements _ w v0 p0 eq_refl). cbn [assigns_to lhs_var]. rewrite Nat.eqb_refl. rewrite (no_elements (statements (assigns_to p0) _)); [reflexivity|].
          intros (it, s) J. apply in_statements in J. destruct J as (J1 & J2 & J3). apply in_map_iff in J1. destruct J1 as (it0 & <- & J1).
          assert (assigns p0 (body (to_in g0 p0 v0 it0))) as T by (destruct s; cbn in J3; try discriminate; apply Nat.eqb_eq in J3; exists k, l, e; auto).
          destruct (Hin it0 J1) as [X Y]. destruct (Nat.eq_dec (i_gen it0) g0) as [E|N].
          * rewrite (out_body g0 p0 v0 it0 E) in T. assert (touches p0 (map (to_stmt p0 v0) (body it0))) as T' by (now left). apply to_touches in T'. destruct T' as [[_ F]|[F|[F _]]]; [congruence|contradiction|now apply apart0].
          * rewrite (out_else g0 p0 v0 it0 N) in T. apply N. apply X. now left.
        + apply in_or_app. right. now left.
        + exact Logic.I.
        + unfold in_gen. cbn. rewrite MO. apply Nat.eqb_refl.
      - intros E. congruence.
      - cbn [p_design]. apply (step_in G (p_design st) g0 p0 v0 made apart0 MG Hnew hid0 Hin).
    Qed.
    Lemma move_ok : forall d, (forall it s, In it d -> i_gen it = g0 -> inside s (body it) -> ~ stuck p0 s) ->
      move_sinks p0 v0 g0 true d = Ok (map (move_item p0 v0 g0) d ++ [{| i_id := fresh d; i_gen := g0; i_proc := PWire (LVar v0) (EVar p0) |}]).
    Proof using.
      intros d Ns. unfold move_sinks. match goal with |- (if ?c then _ else _) = _ => destruct c eqn:X end; [|reflexivity].
      apply throws_when in X. destruct X as (s & (it & I & E & J) & St). exfalso. exact (Ns it s I E J St).
    Qed.
    Lemma divert_out : forall st, inv ((c0, p0) :: L) st -> h_kind H p0 = KOut -> used (p_design st) g0 p0 ->
      exists st', (olet d := move_sinks p0 v0 g0 true (p_design st) in Ok {| p_design := d; p_moved := p0 :: p_moved st |}) = Ok st' /\ inv L st'.
    Proof using P0 ND I0 HL LG.
      intros st V K U. destruct own0 as [Oc Ok], made0 as (MG & MK & MO). pose proof (iv_out _ _ V c0 g0 p0 (or_introl eq_refl) P0 K) as Hout. pose proof (iv_new _ _ V c0 g0 p0 (or_introl eq_refl) P0) as Hnew.
      assert (forall it s, In it (p_design st) -> i_gen it = g0 -> inside s (body it) -> ~ stuck p0 s) as Ns by (intros it s I E; apply (Hout it I E)).
      pose proof (move_ok (p_design st) Ns) as M. rewrite M. cbn [obind]. eexists. split; [reflexivity|].
      set (w := {| i_id := fresh (p_design st); i_gen := g0; i_proc := PWire (LVar v0) (EVar p0) |}) in *.
      apply (any_step st (move_item p0 v0 g0) w (p0 :: p_moved st) V); auto.
      - intros it. apply mild_out.
      - intros c g p I N P Kp. cbn [p_design]. destruct (done_apart c g p I N P) as (A & B & _). apply (out_keeps_in H (p_design st) g0 p0 v0 w); auto; [rewrite Oc; apply up0|]. now apply (iv_done_in _ _ V c).
      - intros c g p I N P Kp. destruct (done_apart c g p I N P) as (A & B & C & D). apply (out_keeps_out H new d0 (p_design st) (p_moved st) g0 p0 v0 w); auto.
        pose proof (iv_done_out _ _ V c g p I N P Kp) as J. now destruct st.
      - intros E. congruence.
      - intros _. left. cbn [p_design p_moved]. split; [now left|]. split; [now apply (iv_used _ _ V c0 g0 p0 (or_introl eq_refl) P0)|]. exists w. split; [|split; [apply in_or_app; right; now left|auto]].
        unfold sinks_of. rewrite statements_app, (wire_statements _ w p0 v0 eq_refl). cbn [stmt_sinks lhs_reads evars app]. assert (mem p0 [p0] = true) as -> by (apply mem_In; now left).
        rewrite filter_app. cbn [filter]. assert (recorded new p0 {| p_design := map (move_item p0 v0 g0) (p_design st) ++ [w]; p_moved := p0 :: p_moved st |} (w, SAssign Blocking (LVar v0) (EVar p0)) = true) as ->.
        { unfold recorded. cbn [p_moved fst w i_proc]. rewrite !Nat.eqb_refl. now destruct (mem p0 (p0 :: p_moved st)). }
        rewrite (no_elements (filter _ _)); [reflexivity|]. intros (it, s) J. apply filter_In in J. destruct J as [J R]. apply in_statements in J. destruct J as (J & _ & _). apply in_map_iff in J. destruct J as (it0 & <- & J).
        unfold recorded in R. cbn [p_moved fst] in R. assert (mem p0 (p0 :: p_moved st) = true) as Mm by (apply mem_In; now left). rewrite Mm in R.
        destruct (Hnew it0 J) as (_ & T & _). apply T. left. destruct (i_proc it0) as [l e|b|evs b] eqn:Ep.
        + rewrite (move_wire p0 v0 g0 it0 _ _ Ep) in R. destruct l as [x|x hi lo|x i wd]; try discriminate. destruct (Nat.eqb_spec x v0) as [->|]; [|match type of R with match ?y with _ => _ end = _ => destruct y; discriminate end].
          exists Blocking, (LVar v0), e. split; [apply inside_self|reflexivity].
        + unfold move_item in R. destruct (Nat.eqb (i_gen it0) g0); cbn [i_proc] in R; rewrite Ep in R; discriminate.
        + unfold move_item in R. destruct (Nat.eqb (i_gen it0) g0); cbn [i_proc] in R; rewrite Ep in R; discriminate.
      - cbn [p_design]. apply (step_out G (p_design st) _ g0 p0 v0 made apart0 MG Hnew hid0); [|exact M]. intros it I E. apply (Hout it I E).
    Qed.
    Lemma used_sinks : forall d, used d g0 p0 <-> filter (in_generator g0) (sinks_of d p0) <> [].
    Proof using.
      intros d. split.
      - intros (it & I & E & s & J & R) F. assert (In (it, s) (filter (in_generator g0) (sinks_of d p0))) as X; [|rewrite F in X; destruct X]. apply filter_In. split; [|apply Nat.eqb_eq; exact E].
        apply in_statements. split; [exact I|]. split; [exact J|]. now apply mem_In, reads_sinks.
      - intros N. destruct (filter (in_generator g0) (sinks_of d p0)) as [|(it, s) r] eqn:F; [contradiction|]. assert (In (it, s) (filter (in_generator g0) (sinks_of d p0))) as X by (rewrite F; now left).
        apply filter_In in X. destruct X as [X E]. apply Nat.eqb_eq in E. apply in_statements in X. destruct X as (X1 & X2 & X3). apply mem_In, reads_sinks in X3. exists it. split; [exact X1|]. split; [exact E|]. exists s. auto.
    Qed.
    Lemma one_step : forall st, inv ((c0, p0) :: L) st -> exists st', decouple_port H new c0 p0 st = Ok st' /\ inv L st'.
    Proof using P0 ND I0 HL LG.
      intros st V. unfold decouple_port. rewrite P0. destruct (h_kind H p0) eqn:K.
      - exfalso. now apply own0.
      - unfold decouple_in. pose proof (divert_in st V K) as Dv. destruct (sources_of (p_design st) p0) as [|(it, s) r] eqn:Es; [eexists; split; [reflexivity|exact Dv]|].
        destruct s as [k l e| | | | | | |]; try (eexists; split; [reflexivity|exact Dv]). destruct l as [x|x hi lo|x i wd]; try (destruct r; eexists; (split; [reflexivity|exact Dv])).
        destruct r; [|eexists; split; [reflexivity|exact Dv]]. destruct (is_wire it && plain H g0 e) eqn:B; [|eexists; split; [reflexivity|exact Dv]]. eexists. split; [reflexivity|].
        apply andb_true_iff in B. destruct B as [B1 B2]. apply (stays st V); [|congruence]. intros _.
        assert (In (it, SAssign k (LVar x) e) (sources_of (p_design st) p0)) as J by (rewrite Es; now left). apply in_statements in J. destruct J as (J1 & J2 & J3). cbn in J3. apply Nat.eqb_eq in J3. subst x.
        unfold is_wire in B1. destruct (i_proc it) as [l' e'|b|evs b] eqn:Ep; try discriminate. cbn in J2. assert (SAssign k (LVar p0) e = SAssign Blocking l' e') as E1 by (apply inside_one in J2; exact J2). injection E1 as -> <- <-.
        assert (i_gen it = g0) as Eg. { apply (iv_in _ _ V c0 g0 p0 (or_introl eq_refl) P0 K it J1). left. rewrite Ep. exists Blocking, (LVar p0), e. split; [apply inside_self|reflexivity]. }
        exists it, e. split; [exact Es|]. split; [exact J1|]. split; [exact Eg|]. split; [exact Ep|]. destruct e as [y| | | | |y hi lo| |]; try discriminate; (split; [exact Logic.I|]).
        + cbn in B2. unfold in_gen. cbn [gen_of]. destruct (h_kind H y) eqn:Ky; try exact B2. apply Nat.eqb_eq. destruct (iv_scope _ _ V it y J1) as [E|[_ E]]; [left; rewrite Ep; exists (SAssign Blocking (LVar p0) (EVar y)); split; [apply inside_self|apply reads_sinks; now left]|congruence|congruence].
        + reflexivity.
        + exact B2.
      - unfold decouple_out. fold (in_generator g0). pose proof (used_sinks (p_design st)) as Us. pose proof (divert_out st V K) as Dv. destruct (filter (in_generator g0) (sinks_of (p_design st) p0)) as [|(it, s) r] eqn:F.
        + eexists. split; [reflexivity|]. apply (stays st V); [congruence|]. intros _. right. left. split; [now apply (iv_moved _ _ V c0 p0 (or_introl eq_refl))|]. split; [|exact F].
          intros U. apply (iv_used _ _ V c0 g0 p0 (or_introl eq_refl) P0) in U. apply Us in U. now apply U.
        + assert (used (p_design st) g0 p0) as U by (apply Us; discriminate). specialize (Dv U).
          destruct s as [k l e| | | | | | |]; try exact Dv. destruct l as [x|x hi lo|x i wd]; try exact Dv; try (destruct r; exact Dv). destruct e as [y| | | | | | |]; try exact Dv; try (destruct r; exact Dv). destruct r; [|exact Dv].
          destruct (is_wire it && Nat.eqb (h_owner H x) g0 && Nat.eqb y p0) eqn:B; [|exact Dv]. apply andb_true_iff in B. destruct B as [B B3]. apply andb_true_iff in B. destruct B as [B1 B2]. apply Nat.eqb_eq in B2, B3. subst y.
          eexists. split; [reflexivity|]. apply (stays st V); [congruence|]. intros _. right. right. split; [now apply (iv_moved _ _ V c0 p0 (or_introl eq_refl))|].
          split; [now apply (iv_used _ _ V c0 g0 p0 (or_introl eq_refl) P0)|].
          assert (In (it, SAssign k (LVar x) (EVar p0)) (filter (in_generator g0) (sinks_of (p_design st) p0))) as J by (rewrite F; now left). apply filter_In in J. destruct J as [J Jg]. apply Nat.eqb_eq in Jg. cbn [fst] in Jg.
          apply in_statements in J. destruct J as (J1 & J2 & J3). unfold is_wire in B1. destruct (i_proc it) as [l' e'|b|evs b] eqn:Ep; try discriminate. cbn in J2. apply inside_one in J2. injection J2 as -> <- <-.
          exists it, x. split; [exact F|]. auto.
    Qed.
  End OneStep.
  Lemma all_steps : forall L st, NoDup (map snd L) -> inv L st -> exists st', decouple_all H new L st = Ok st' /\ inv [] st'.
  Proof using LG.
    induction L as [|(c, p) r IH]; intros st N V; [eexists; split; [reflexivity|exact V]|]. cbn [decouple_all].
    assert (In (c, p) (ports_in H cs)) as I by (apply (iv_left _ _ V); now left). assert (forall x, In x r -> In x (ports_in H cs)) as HL by (intros x J; apply (iv_left _ _ V); now right).
    assert (NoDup (map snd r)) as N' by (now inversion N).
    destruct (h_parent H c) as [g|] eqn:P.
    - destruct (one_step c p g r P N I HL st V) as (st' & E & V'). rewrite E. cbn [obind]. now apply IH.
    - unfold decouple_port. rewrite P. cbn [obind]. apply IH; [exact N'|]. constructor; try apply V; try (intros; eapply V; eauto; now right).
      + intros c' p' I'. apply (iv_moved _ _ V c'). now right.
      + intros c' g' p' I' N1 P' K. apply (iv_done_in _ _ V c'); auto. intros [E|E]; [congruence|contradiction].
      + intros c' g' p' I' N1 P' K. apply (iv_done_out _ _ V c'); auto. intros [E|E]; [congruence|contradiction].
  Qed.
  Lemma decoupled : exists st, decouple H new cs d0 = Ok st /\ inv [] st.
  Proof using LG. apply all_steps; [apply ports_nodup|apply first]. Qed.
End Run.
