(* One visit after the other. *)
From Coq Require Import ZArith List Bool Lia.
From Verif Require Import Base SV_spec IR IRSem_spec IR_lemmas Design_spec Design_proofs Dce_spec Dce_model Dce_proofs Fan_spec Fan_model Fan_proofs Tie_model Move_spec Move_model Move_proofs Move_props Pass_spec Pass_model Pass_proofs.
Import ListNotations.
Local Open Scope Z_scope.

Definition mentions (p : var) (it : item) : Prop := reads p (body_of (i_proc it)) \/ touches p (body_of (i_proc it)) \/ In p (map snd (events_of (i_proc it))).
Definition pscope (H : hierarchy) (d : design) : Prop := forall it c p, In it d -> In p (h_ports H c) -> mentions p it -> i_gen it = c \/ h_parent H c = Some (i_gen it).
Lemma good_pscope : forall H d, good H d -> pscope H d.
Proof.
  intros H d Gd it c p I Ip M. destruct (g_scope _ _ Gd it p I M) as [E|(E & _)]; destruct (g_ports _ _ Gd c p Ip) as [Eo _]; rewrite Eo in E; auto.
Qed.
Definition far (ls : list lnk) (x : var) : Prop := forall l, In l ls -> x <> l_o l /\ x <> l_n l.
Definition all_item (g : nat) (ls : list lnk) (it : item) : item := fold_left (fun it l => pair_item g (l_i l) (l_o l) (l_n l) it) ls it.
Lemma all_map : forall g ls d, fold_left (stepl g) ls d = map (all_item g ls) d.
Proof.
  intros g. induction ls as [|l r IH]; intros d; cbn [fold_left]; [symmetry; apply map_id|]. rewrite IH. unfold stepl, pair_step. now rewrite map_map.
Qed.
Lemma all_gen : forall g ls it, i_gen (all_item g ls it) = i_gen it.
Proof. intros g. induction ls as [|l r IH]; intros it; [reflexivity|]. unfold all_item in *. cbn [fold_left]. rewrite IH. apply pair_gen. Qed.
Lemma all_else : forall g ls it, i_gen it <> g -> all_item g ls it = it.
Proof. intros g. induction ls as [|l r IH]; intros it N; [reflexivity|]. unfold all_item in *. cbn [fold_left]. rewrite (pair_else g _ _ _ it N). now apply IH. Qed.
Lemma all_events : forall g ls it, events_of (i_proc (all_item g ls it)) = events_of (i_proc it).
Proof. intros g. induction ls as [|l r IH]; intros it; [reflexivity|]. unfold all_item in *. cbn [fold_left]. rewrite IH. apply pair_events. Qed.
Lemma all_uses : forall g x ls it, far ls x ->
  (reads x (body_of (i_proc (all_item g ls it))) -> reads x (body_of (i_proc it))) /\
  (touches x (body_of (i_proc (all_item g ls it))) -> touches x (body_of (i_proc it))) /\
  (loops_over x (body_of (i_proc (all_item g ls it))) -> loops_over x (body_of (i_proc it))) /\
  (changes_now x (body_of (i_proc (all_item g ls it))) -> changes_now x (body_of (i_proc it))).
Proof.
  intros g x. induction ls as [|l r IH]; intros it F; [tauto|]. unfold all_item in *. cbn [fold_left]. destruct (F l (or_introl eq_refl)) as [Fo Fn].
  destruct (IH (pair_item g (l_i l) (l_o l) (l_n l) it)) as (R1 & R2 & R3 & R4); [intros m I; apply F; now right|].
  destruct (Nat.eq_dec (i_gen it) g) as [Eg|Ng]; [|rewrite (pair_else g _ _ _ it Ng) in *; tauto]. rewrite (pair_body g _ _ _ it Eg) in R1, R2, R3, R4. split; [|split; [|split]]; intros X.
  - apply R1 in X. now apply step_reads in X.
  - apply R2 in X. now apply step_touches in X.
  - apply R3 in X. now apply step_loops in X.
  - apply R4 in X. now apply step_changes in X.
Qed.
Lemma all_mentions : forall g x ls it, far ls x -> mentions x (all_item g ls it) -> mentions x it.
Proof. intros g x ls it F M. destruct (all_uses g x ls it F) as (R1 & R2 & _). unfold mentions in *. rewrite all_events in M. tauto. Qed.
Lemma flat_same : forall {B : Type} (h : item -> list B) (F : item -> item) (keep : item -> bool) (d : design),
  (forall it, In it d -> if keep (F it) then h (F it) = h it else h it = []) -> flat_map h (filter keep (map F d)) = flat_map h d.
Proof.
  intros B h F keep d. induction d as [|it r IH]; intros Q; [reflexivity|]. cbn [map filter flat_map]. pose proof (Q it (or_introl eq_refl)) as X. rewrite <- IH by (intros; apply Q; now right).
  destruct (keep (F it)); [cbn [flat_map]; now rewrite X|now rewrite X].
Qed.
Lemma no_statements : forall f it, (forall s, inside s (body_of (i_proc it)) -> f s = false) -> map (fun s => (it, s)) (filter f (collect_body (fun s => [s]) (body_of (i_proc it)))) = [].
Proof.
  intros f it N. assert (forall s, In s (collect_body (fun s => [s]) (body_of (i_proc it))) -> f s = false) as Q by (intros s I; apply N; now apply body_stmts).
  induction (collect_body (fun s => [s]) (body_of (i_proc it))) as [|s r IH]; [reflexivity|]. cbn [filter]. rewrite (Q s (or_introl eq_refl)). apply IH. intros; apply Q; now right.
Qed.
Lemma assigns_touches : forall x s l, inside s l -> assigns_to x s = true -> touches x l.
Proof. intros x s l I E. destruct s; try discriminate E. cbn in E. apply Nat.eqb_eq in E. left. eexists _, _, _. split; [exact I|]. auto. Qed.

Lemma count_same : forall (F : item -> item) (keep : item -> bool) c, (forall it, i_gen (F it) = i_gen it) -> (forall it, i_gen it = c -> keep (F it) = true) ->
  forall d, List.length (filter (fun it => Nat.eqb (i_gen it) c) (filter keep (map F d))) = List.length (filter (fun it => Nat.eqb (i_gen it) c) d).
Proof.
  intros F keep c Fg K d. induction d as [|it r IH]; [reflexivity|]. cbn [map filter]. destruct (Nat.eqb_spec (i_gen it) c) as [E|N].
  - rewrite (K it E). cbn [filter]. rewrite Fg, E, Nat.eqb_refl. cbn [List.length]. now rewrite IH.
  - destruct (keep (F it)); [|exact IH]. cbn [filter]. rewrite Fg. destruct (Nat.eqb_spec (i_gen it) c); [contradiction|exact IH].
Qed.

Section Visit.
  Variables (G : tenv) (H : hierarchy) (new : var -> var) (d : design) (g : nat).
  Hypothesis Nd : NoDup (h_gens H).
  Hypothesis PA : ports_apart H new.
  Hypothesis Sc : pscope H d.
  Notation cs := (filter (is_pass H d) (children H g)).
  Hypothesis Pl : forall c, In c cs -> plain G H new d g c.
  Notation ls := (concat (map (links H new d) cs)).
  Notation d' := (gone cs (map (all_item g ls) d)).
  Lemma in_cs : forall c, In c cs <-> In c (h_gens H) /\ h_parent H c = Some g /\ is_pass H d c = true.
  Proof.
    intros c. rewrite filter_In. unfold children. rewrite filter_In. destruct (h_parent H c) as [q|]; [|split; [intros [[_ X] _]; discriminate|intros (_ & X & _); discriminate]]. rewrite Nat.eqb_eq. split; [intros [[A ->] C]; auto|intros (A & X & C); injection X as ->; auto].
  Qed.
  Lemma PB : forall c, In c cs -> plain G H new d g c /\ is_pass H d c = true.
  Proof. intros c I. split; [now apply Pl|]. apply in_cs in I. tauto. Qed.
  Lemma Ncs : NoDup cs.
  Proof. now apply NoDup_filter, NoDup_filter. Qed.
  Lemma visit_run : pass_visit H new g d = Ok d'.
  Proof. unfold pass_visit. rewrite (all_run G H new d PA g cs Ncs PB). now rewrite all_map. Qed.
  Lemma visit_fwd : forall h, Forall (in_range G) h -> history G d h -> exists h', Forall (in_range G) h' /\ history G d' h' /\ Forall2 (carried H new (fun c => In c cs) d) h h'.
  Proof. rewrite <- all_map. exact (all_fwd G H new d PA g cs Ncs PB). Qed.
  Lemma visit_bwd : forall h, Forall (in_range G) h -> history G d' h -> exists h0, Forall (in_range G) h0 /\ history G d h0 /\ Forall2 (carried H new (fun c => In c cs) d) h0 h.
  Proof. rewrite <- all_map. exact (all_bwd G H new d PA g cs Ncs PB). Qed.
  Lemma in_visit : forall it', In it' d' <-> exists it, In it d /\ ~ In (i_gen it) cs /\ it' = all_item g ls it.
  Proof.
    intros it'. unfold gone. rewrite filter_In, in_map_iff, negb_true_iff, mem_false. split.
    - intros [(it & <- & I) N]. rewrite all_gen in N. eauto.
    - intros (it & I & N & ->). split; [eauto|]. now rewrite all_gen.
  Qed.
  Lemma kept_item : forall it, i_gen it <> g -> ~ In (i_gen it) cs -> In it d' <-> In it d.
  Proof.
    intros it N Nc. rewrite in_visit. split.
    - intros (it0 & I & _ & E). assert (i_gen it0 <> g) as X by (subst it; now rewrite all_gen in N). rewrite (all_else g ls it0 X) in E. now subst.
    - intros I. exists it. split; [exact I|]. split; [exact Nc|]. symmetry. now apply all_else.
  Qed.
  Lemma link_out : forall l, In l ls -> exists c i, In c cs /\ input H c i /\ l_i l = i /\ l_n l = new i /\ output H c (l_o l).
  Proof.
    intros l I. apply in_links in I. destruct I as (c & i & I & Ii & ->). exists c, i. destruct (PB c I) as [P B]. destruct (one_sink G H new d g c P B i Ii) as (_ & _ & _ & _ & Oo & _). auto.
  Qed.
  Lemma port_far : forall c p, ~ In c cs -> In p (h_ports H c) -> far ls p.
  Proof.
    intros c p Nc Ip l I. destruct (link_out l I) as (c0 & i & Ic & Ii & E1 & E2 & Oo). destruct PA as (PA1 & PA2 & PA3 & PA4). split; intros X.
    - apply Nc. rewrite (PA1 c c0 p Ip); [exact Ic|]. rewrite X. apply Oo.
    - apply (PA4 c0 c i Ii). now rewrite <- E2, <- X.
  Qed.
  Lemma visit_scope : pscope H d'.
  Proof.
    intros it' c p I Ip M. apply in_visit in I. destruct I as (it & I & Nc & ->). rewrite all_gen. destruct (Nat.eq_dec (i_gen it) g) as [Eg|Ng]; [|rewrite (all_else g ls it Ng) in M; now apply (Sc it c p)].
    destruct (in_dec Nat.eq_dec c cs) as [Ic|Ncs0]; [right; apply in_cs in Ic; rewrite Eg; tauto|]. apply (Sc it c p I Ip). eapply all_mentions; [|exact M]. eapply port_far; eauto.
  Qed.
  Section Later.
    Variables (g' c : nat).
    Hypothesis Hp : h_parent H c = Some g'.
    Hypothesis Ng : g' <> g.
    Hypothesis Nc : c <> g.
    Lemma later_cs : ~ In c cs.
    Proof. intros I. apply in_cs in I. destruct I as (_ & E & _). congruence. Qed.
    Lemma later_out : forall p it, In p (h_ports H c) -> In it d -> i_gen it = g \/ In (i_gen it) cs -> ~ mentions p it.
    Proof.
      intros p it Ip I [E|J] M.
      - destruct (Sc it c p I Ip M) as [X|X]; congruence.
      - destruct (PB _ J) as [P _]. destruct (pl_wires _ _ _ _ _ _ P it I eq_refl) as (i & o & Ep & Ii & Oo & _). destruct PA as (PA1 & _).
        assert (p = i \/ p = o) as X.
        { unfold mentions in M. rewrite Ep in M. cbn [body_of events_of map] in M. destruct M as [M|[M|[]]]; [apply wire_reads in M|apply wire_touches in M]; auto. }
        apply later_cs. rewrite (PA1 c (i_gen it) p Ip); [exact J|]. destruct X as [->| ->]; [apply Ii|apply Oo].
    Qed.
    Lemma later_flat : forall (f : stmt -> bool) p, In p (h_ports H c) -> (forall it s, inside s (body_of (i_proc it)) -> f s = true -> mentions p it) ->
      statements f d' = statements f d.
    Proof.
      intros f p Ip Q. unfold statements, gone. apply flat_same. intros it I. rewrite all_gen.
      assert (forall it0, ~ mentions p it0 -> map (fun s => (it0, s)) (filter f (collect_body (fun s => [s]) (body_of (i_proc it0)))) = []) as N0.
      { intros it0 N. apply no_statements. intros s Is. destruct (f s) eqn:E; [|reflexivity]. exfalso. apply N. eapply Q; eauto. }
      destruct (mem (i_gen it) cs) eqn:E; cbn [negb].
      - apply mem_In in E. apply N0. apply later_out; auto.
      - destruct (Nat.eq_dec (i_gen it) g) as [Eg|Ng0]; [|now rewrite all_else]. assert (~ mentions p it) as N by (apply later_out; auto). rewrite !N0; [reflexivity|exact N|].
        intros M. apply N. eapply all_mentions; [|exact M]. eapply port_far; [|exact Ip]. apply later_cs.
    Qed.
    Lemma later_port : forall p, In p (h_ports H c) -> port_ok H d' p = port_ok H d p.
    Proof.
      intros p Ip. unfold port_ok, sinks_of, sources_of. rewrite !(later_flat _ p Ip); [reflexivity| |].
      - intros it s Is E. right. left. eapply assigns_touches; eauto.
      - intros it s Is E. left. exists s. split; [exact Is|]. apply reads_sinks. now apply mem_In.
    Qed.
    Lemma later_pass : is_pass H d' c = is_pass H d c.
    Proof.
      unfold is_pass. f_equal; [f_equal; f_equal|].
      - apply count_same; [intros it; apply all_gen|]. intros it E. rewrite all_gen, E. apply negb_true_iff, mem_false. apply later_cs.
      - assert (forall ps, (forall p, In p ps -> In p (h_ports H c)) -> forallb (port_ok H d') ps = forallb (port_ok H d) ps) as X; [|now apply X].
        induction ps as [|p ps IH]; intros S0; [reflexivity|]. cbn [forallb]. rewrite later_port, IH; auto; [intros; apply S0; now right|apply S0; now left].
    Qed.
    Lemma later_through : forall i o, through d' c i o <-> through d c i o.
    Proof.
      intros i o. split; intros (it & I & Eg & Ep); exists it; (split; [|auto]); apply (kept_item it); auto; rewrite Eg; auto; apply later_cs.
    Qed.
    Lemma new_far : forall i, input H c i -> far ls (new i).
    Proof.
      intros i Ii l I. destruct (link_out l I) as (c0 & i0 & Ic & Ii0 & E1 & E2 & Oo). destruct PA as (PA1 & PA2 & PA3 & PA4). split; intros X.
      - apply (PA4 c c0 i Ii). rewrite X. apply Oo.
      - apply later_cs. rewrite (PA1 c c0 i); [exact Ic|apply Ii|]. rewrite (PA3 c c0 i i0 Ii Ii0); [apply Ii0|congruence].
    Qed.
    Lemma later_plain : plain G H new d g' c -> plain G H new d' g' c.
    Proof.
      intros P. pose proof later_cs as Nk. assert (forall x, d_event x d' -> d_event x d) as Ev.
      { intros x (it' & e & I & J & E). apply in_visit in I. destruct I as (it & I & _ & ->). rewrite all_events in J. exists it, e. auto. }
      assert (forall p, In p (h_ports H c) -> far ls p) as Fa by (intros p; now apply port_far).
      destruct P as [P1 P2 P3 P4 P5 P6 P7 P8 P9]. constructor; auto.
      - intros it I E. apply P2; [|exact E]. apply (kept_item it); [rewrite E; exact Nc|rewrite E; exact Nk|exact I].
      - intros i it' Ii I. apply in_visit in I. destruct I as (it & I & _ & ->). rewrite all_gen. destruct (P3 i it Ii I) as (X & Y & Z0). destruct (all_uses g i ls it (Fa i (proj1 Ii))) as (R1 & R2 & R3 & R4). tauto.
      - intros o it' Ii I. apply in_visit in I. destruct I as (it & I & _ & ->). rewrite all_gen. destruct (P4 o it Ii I) as (X & Y). destruct (all_uses g o ls it (Fa o (proj1 Ii))) as (R1 & R2 & R3 & R4). tauto.
      - intros x Ix X. apply Ev in X. now apply (P5 x).
      - intros i o it' Th I R X. apply in_visit in I. destruct I as (it & I & _ & ->). apply later_through in Th. pose proof Th as (w & Iw & Ew & Ep). destruct (P2 w Iw Ew) as (i0 & o0 & Ep0 & Ii & Oo & _). rewrite Ep in Ep0. injection Ep0 as <- <-.
        apply (P6 i o it Th I); [eapply all_uses; [apply (Fa o), Oo|exact R]|eapply all_uses; [apply (Fa i), Ii|exact X]].
      - intros o it s Oo I E Is. apply (P7 o it s Oo); auto. apply in_visit in I. destruct I as (it0 & I & Nk0 & ->). rewrite all_gen in E. rewrite all_else by congruence. exact I.
      - intros i it' Ii I. apply in_visit in I. destruct I as (it & I & _ & ->). destruct (P9 i it Ii I) as (X & Y & Z0). destruct (all_uses g (new i) ls it (new_far i Ii)) as (R1 & R2 & R3 & R4). auto 6.
    Qed.
  End Later.
End Visit.

Section Visits.
  Variables (G : tenv) (H : hierarchy) (new : var -> var).
  Hypothesis Nd : NoDup (h_gens H).
  Hypothesis PA : ports_apart H new.
  Definition removed (gs : list nat) (d : design) (c : nat) : Prop := In c (h_gens H) /\ is_pass H d c = true /\ exists g, In g gs /\ h_parent H c = Some g.
  Definition ordered (gs : list nat) : Prop := NoDup gs /\ forall l1 g l2, gs = l1 ++ g :: l2 -> forall g', In g' l2 -> h_parent H g <> Some g'.
  Lemma ordered_tail : forall g gs, ordered (g :: gs) -> ordered gs /\ ~ In g gs /\ forall g', In g' gs -> h_parent H g <> Some g'.
  Proof.
    intros g gs [N O]. inversion N; subst. split; [split; [assumption|]|split; [assumption|]].
    - intros l1 q l2 E. apply (O (g :: l1) q l2). now rewrite E.
    - now apply (O [] g gs).
  Qed.
  Record visited (gs : list nat) (d d' : design) : Prop := {
    vs_fwd : forall h, Forall (in_range G) h -> history G d h -> exists h', Forall (in_range G) h' /\ history G d' h' /\ Forall2 (carried H new (removed gs d) d) h h';
    vs_bwd : forall h', Forall (in_range G) h' -> history G d' h' -> exists h, Forall (in_range G) h /\ history G d h /\ Forall2 (carried H new (removed gs d) d) h h';
    vs_gone : forall it, In it d' -> ~ removed gs d (i_gen it) /\ forall c p, removed gs d c -> In p (h_ports H c) -> ~ mentions p it;
    vs_kept : forall it, ~ removed gs d (i_gen it) -> (forall c, removed gs d c -> h_parent H c <> Some (i_gen it)) -> In it d' <-> In it d;
    vs_from : forall it', In it' d' -> exists it, In it d /\ i_gen it = i_gen it' /\ forall c p, In p (h_ports H c) -> ~ removed gs d c -> mentions p it' -> mentions p it }.
  Lemma visit_gone : forall d g, pscope H d -> (forall c, In c (filter (is_pass H d) (children H g)) -> plain G H new d g c) ->
    forall d1, pass_visit H new g d = Ok d1 -> forall it c p, In it d1 -> In c (filter (is_pass H d) (children H g)) -> In p (h_ports H c) -> ~ mentions p it.
  Proof.
    intros d g Sc Pl d1 E it c p I Ic Ip M. rewrite (visit_run G H new d g Nd PA Pl) in E. injection E as <-. pose proof (PB G H new d g Pl) as PB0. destruct (PB0 c Ic) as [P B].
    set (ls := concat (map (links H new d) (filter (is_pass H d) (children H g)))) in *.
    destruct (all_ok G H new d PA g _ PB0) as [K W]. pose proof (all_apart G H new d PA g _ (Ncs H d g Nd) PB0) as A.
    assert (exists l, In l ls /\ l_c l = c /\ (p = l_i l \/ p = l_o l)) as (l & Il & Ec & Ep).
    { destruct (h_kind H p) eqn:Kp.
      2: { exists (link new d c p). split; [apply in_links; exists c, p; repeat split; auto|]. split; [reflexivity|now left]. }
      all: assert (output H c p) as Oo by (split; [exact Ip|congruence]); pose proof (pass_ports H d c B p Ip) as X; unfold port_ok, is_in in X; rewrite Kp in X.
      all: destruct (sources_of d p) as [|[w s] q] eqn:E; [discriminate X|]; assert (In (w, s) (sources_of d p)) as J by (rewrite E; now left); apply in_sources in J; destruct J as (Iw & Is & As).
      all: destruct (touches_wire G H new d g c P p w Oo Iw (assigns_touches p s _ Is As)) as (Eg & i & Epw & Ii & _).
      all: destruct (link_through G H new d PA g _ PB0 c i p Ic) as [_ El]; [exists w; auto|].
      all: exists (link new d c i); split; [apply in_links; exists c, i; auto|]; split; [reflexivity|right; now rewrite El]. }
    pose proof (steps_done G g ls d A K) as Dn. rewrite Forall_forall in Dn. specialize (Dn l Il). rewrite all_map in Dn. unfold gone in I. apply filter_In in I. destruct I as [I Nk]. apply negb_true_iff in Nk. apply mem_false in Nk.
    destruct Dn as [_ Di Do [De1 De2]]. assert (i_gen it <> l_c l) as Nl by (intros X; apply Nk; rewrite X, Ec; exact Ic). unfold mentions in M.
    destruct (Di it I) as [Di1 Di2]. destruct (Do it I) as [Do1 Do2]. destruct Ep as [-> | ->]; (destruct M as [M|[M|M]]; [tauto|tauto|]); apply in_map_iff in M; destruct M as (e & Ee & Ie); [apply De1|apply De2]; exists it, e; auto.
  Qed.
  Lemma visits_run : forall gs d, ordered gs -> pscope H d -> (forall g c, In g gs -> In c (h_gens H) -> h_parent H c = Some g -> is_pass H d c = true -> plain G H new d g c) ->
    exists d', pass_visits H new gs d = Ok d' /\ visited gs d d'.
  Proof.
    induction gs as [|g gs IH]; intros d Or Sc Pl.
    - exists d. split; [reflexivity|]. assert (forall c, ~ removed [] d c) as No by (intros c (_ & _ & g & [] & _)). constructor.
      + intros h R Hh. exists h. split; [exact R|]. split; [exact Hh|]. clear R Hh. induction h; constructor; auto. split; [reflexivity|]. intros c i o X. now apply No in X.
      + intros h R Hh. exists h. split; [exact R|]. split; [exact Hh|]. clear R Hh. induction h; constructor; auto. split; [reflexivity|]. intros c i o X. now apply No in X.
      + intros it I. split; [apply No|]. intros c p X. now apply No in X.
      + reflexivity.
      + intros it I. exists it. auto.
    - apply ordered_tail in Or. destruct Or as (Or & Ng & Np). set (cs := filter (is_pass H d) (children H g)).
      assert (forall c, In c cs -> plain G H new d g c) as Plg by (intros c I; apply in_cs in I; destruct I as (I & E & B); apply Pl; auto; now left).
      pose proof (visit_run G H new d g Nd PA Plg) as Vr. pose proof (visit_gone d g Sc Plg _ Vr) as Vg. set (d1 := gone cs (map (all_item g (concat (map (links H new d) cs))) d)) in *.
      assert (forall c g', In g' gs -> h_parent H c = Some g' -> g' <> g /\ c <> g) as Lt.
      { intros c g' I E. split; intros X; subst; [contradiction|]. now apply (Np g' I). }
      assert (forall c g', In g' gs -> h_parent H c = Some g' -> is_pass H d1 c = is_pass H d c) as Lp by (intros c g' I E; destruct (Lt c g' I E); eapply later_pass; eauto).
      destruct (IH d1 Or) as (d2 & E2 & [Fw Bw Go Ke Fr]).
      { now apply (visit_scope G). }
      { intros g' c I Ic E B. destruct (Lt c g' I E). eapply later_plain; eauto. apply Pl; auto; [now right|]. now rewrite <- (Lp c g' I E). }
      exists d2. split; [cbn [pass_visits]; rewrite Vr; exact E2|].
      assert (forall c, removed (g :: gs) d c <-> In c cs \/ removed gs d1 c) as Re.
      { intros c. split.
        - intros (Ic & B & g' & [<-|I] & E); [left; apply in_cs; auto|right]. split; [exact Ic|]. split; [now rewrite (Lp c g')|eauto].
        - intros [I|(Ic & B & g' & I & E)].
          + apply in_cs in I. destruct I as (I & E & B). split; [exact I|]. split; [exact B|]. exists g. split; [now left|exact E].
          + split; [exact Ic|]. split; [now rewrite <- (Lp c g')|]. exists g'. split; [now right|exact E]. }
      assert (forall c, removed gs d1 c -> ~ In c cs) as Di.
      { intros c (_ & _ & g' & I & E) J. apply in_cs in J. destruct J as (_ & E' & _). destruct (Lt c g' I E). congruence. }
      assert (forall c i o, removed gs d1 c -> through d1 c i o <-> through d c i o) as Th.
      { intros c i o (_ & _ & g' & I & E). destruct (Lt c g' I E). eapply later_through; eauto. }
      assert (forall c i o, removed (g :: gs) d c -> through d c i o -> input H c i /\ output H c o) as Io.
      { intros c i o (Ic & B & q & Iq & E) (w & Iw & Eg & Ep). destruct (pl_wires _ _ _ _ _ _ (Pl q c Iq Ic E B) w Iw Eg) as (i0 & o0 & Ep0 & X & Y & _). rewrite Ep in Ep0. injection Ep0 as <- <-. auto. }
      destruct PA as (PA1 & PA2 & PA3 & PA4).
      assert (forall r r1 r2, carried H new (fun c => In c cs) d r r1 -> carried H new (removed gs d1) d1 r1 r2 -> carried H new (removed (g :: gs) d) d r r2) as Co.
      { intros r r1 r2 [A1 A2] [B1 B2]. split.
        - intros x N. rewrite B1, A1; [reflexivity| |]; intros c Rc; apply N; apply Re; auto.
        - intros c i o Rc T0. destruct (Io c i o Rc T0) as [Ii Oo]. apply Re in Rc. destruct Rc as [Rc|Rc].
          + rewrite B1; [now apply (A2 c)|]. intros c' Rc'. split; [now apply (PA4 c)|]. intros i' Ii' X. apply (Di c' Rc'). rewrite (PA1 c' c i'); [exact Rc|apply Ii'|]. rewrite <- (PA3 c c' i i' Ii Ii' X). apply Ii.
          + destruct (B2 c i o Rc) as [X Y]; [now apply Th|]. rewrite X.
            assert (forall x, In x (h_ports H c) -> r1 x = r x) as Q; [|rewrite !Q in Y; [|apply Ii|apply Oo]; rewrite Q; [auto|apply Ii]].
            intros x Ix. apply A1. intros c' Ic'. split.
            * intros Ix'. apply (Di c Rc). rewrite (PA1 c c' x Ix Ix'). exact Ic'.
            * intros i' Ii' X'. subst x. now apply (PA4 c' c i' Ii'). }
      assert (forall h h1 h2, Forall2 (carried H new (fun c => In c cs) d) h h1 -> Forall2 (carried H new (removed gs d1) d1) h1 h2 -> Forall2 (carried H new (removed (g :: gs) d) d) h h2) as Co2.
      { intros h h1 h2 F1. revert h2. induction F1 as [|r r1 h h1 X F1 IH1]; intros h2 F2; inversion F2; subst; constructor; eauto. }
      constructor.
      + intros h R Hh. destruct (visit_fwd G H new d g Nd (conj PA1 (conj PA2 (conj PA3 PA4))) Plg h R Hh) as (h1 & R1 & Hh1 & F1). destruct (Fw h1 R1 Hh1) as (h2 & R2 & Hh2 & F2). exists h2. eauto.
      + intros h R Hh. destruct (Bw h R Hh) as (h1 & R1 & Hh1 & F1). destruct (visit_bwd G H new d g Nd (conj PA1 (conj PA2 (conj PA3 PA4))) Plg h1 R1 Hh1) as (h0 & R0 & Hh0 & F0). exists h0. eauto.
      + intros it I. destruct (Go it I) as [Go1 Go2]. destruct (Fr it I) as (it1 & I1 & Eg & M1). split.
        * intros Rc. apply Re in Rc. destruct Rc as [Rc|Rc]; [|contradiction]. apply in_visit in I1. destruct I1 as (it0 & I0 & N0 & ->). rewrite all_gen in Eg. apply N0. rewrite Eg. exact Rc.
        * intros c p Rc Ip M. apply Re in Rc. destruct Rc as [Rc|Rc]; [|now apply (Go2 c p)]. apply (Vg it1 c p I1 Rc Ip). apply (M1 c p Ip); [|exact M]. intros X. now apply (Di c X).
      + intros it Nr Nc. rewrite Ke.
        * destruct (Nat.eq_dec (i_gen it) g) as [Eg|Ngi]; [|apply kept_item; auto; intros X; apply Nr, Re; now left].
          assert (cs = []) as Z0 by (destruct cs as [|c r] eqn:Ecs; [reflexivity|exfalso; apply (Nc c); [apply Re; left; now left|]; assert (In c cs) as J by (rewrite Ecs; now left); apply in_cs in J; rewrite Eg; tauto]).
          unfold d1. rewrite Z0. cbn [map concat]. unfold gone. cbn [mem existsb negb]. clear. induction d as [|x r IHd]; [reflexivity|]. cbn [map filter In]. rewrite IHd. unfold all_item. cbn [fold_left]. reflexivity.
        * intros X. apply Nr, Re. now right.
        * intros c X. apply Nc, Re. now right.
      + intros it2 I2. destruct (Fr it2 I2) as (it1 & I1 & Eg1 & M1). apply in_visit in I1. destruct I1 as (it0 & I0 & N0 & ->). exists it0. split; [exact I0|]. split; [now rewrite all_gen in Eg1|].
        intros c p Ip Nr M. eapply all_mentions; [eapply (port_far G H new d g (conj PA1 (conj PA2 (conj PA3 PA4))) Plg c p); [intros X; apply Nr, Re; now left|exact Ip]|]. apply (M1 c p Ip); [|exact M]. intros X. apply Nr, Re. now right.
  Qed.
End Visits.

(* what the pass takes for a pass-through *)
Lemma flat_one : forall {B : Type} (f : item -> list B) d a, NoDup d -> In a d -> (forall b, In b d -> b <> a -> f b = []) -> flat_map f d = f a.
Proof.
  intros B f. induction d as [|x r IH]; intros a N I Q; [destruct I|]. inversion N as [|? ? Nx Nr]; subst. cbn [flat_map]. destruct I as [->|I].
  - assert (forall l, (forall b, In b l -> f b = []) -> flat_map f l = []) as Z0 by (induction l as [|b l IHl]; intros Q0; [reflexivity|]; cbn [flat_map]; rewrite (Q0 b (or_introl eq_refl)); apply IHl; intros; apply Q0; now right).
    rewrite Z0; [apply app_nil_r|]. intros b Ib. apply Q; [now right|]. intros ->. contradiction.
  - rewrite (Q x (or_introl eq_refl)); [cbn [app]; apply IH; auto; intros b Ib; apply Q; now right|]. intros ->. contradiction.
Qed.
Lemma NoDup_map_on : forall {A B : Type} (f : A -> B) l, NoDup l -> (forall a b, In a l -> In b l -> f a = f b -> a = b) -> NoDup (map f l).
Proof.
  intros A B f. induction l as [|x r IH]; intros N Q; [constructor|]. inversion N as [|? ? Nx Nr]; subst. cbn [map]. constructor.
  - intros I. apply in_map_iff in I. destruct I as (y & E & I). apply Nx. rewrite (Q x y); auto; [now left|now right].
  - apply IH; auto. intros a b Ia Ib. apply Q; now right.
Qed.
Lemma filter_split : forall {A : Type} (f : A -> bool) l, (List.length (filter f l) + List.length (filter (fun x => negb (f x)) l))%nat = List.length l.
Proof. intros A f. induction l as [|x r IH]; [reflexivity|]. cbn [filter]. destruct (f x); cbn [negb List.length]; lia. Qed.
Lemma ids_nodup : forall d : design, NoDup (map i_id d) -> NoDup d.
Proof. intros d N. now apply NoDup_map_inv in N. Qed.

Section Seen.
  Variables (G : tenv) (H : hierarchy) (new : var -> var) (d : design) (g c : nat).
  Hypothesis PA : ports_apart H new.
  Hypothesis Nd : NoDup (map i_id d).
  Hypothesis P : plain G H new d g c.
  Lemma from_reads : forall i it, from c i it -> reads i (body_of (i_proc it)).
  Proof. intros i it (_ & o & Ep). rewrite Ep. exists (SAssign Blocking (LVar o) (EVar i)). split; [apply in_here; now left|constructor; right; now left]. Qed.
  Lemma seen_through : is_pass H d c = true -> pass_through H d c.
  Proof.
    intros B. split; [|split].
    - unfold is_pass in B. now destruct (h_vars H c).
    - intros i Ii. destruct (one_sink G H new d g c P B i Ii) as (it & I & Eg & Ep & _ & _ & Un). exists it. split; [exact I|]. split; [split; [exact Eg|eauto]|]. intros it' I' F. apply Un; [exact I'|now apply from_reads].
    - intros o Oo. pose proof (pass_ports H d c B o (proj1 Oo)) as X. destruct (one_source H d c B o Oo) as (w & _ & Un). unfold port_ok in X. replace (is_in H o) with false in X by (unfold is_in; destruct Oo as [_ Oo]; now destruct (h_kind H o)).
      destruct (sources_of d o) as [|[it s] q] eqn:E; [discriminate X|]. assert (In (it, s) (sources_of d o)) as J by (rewrite E; now left). apply in_sources in J. destruct J as (I & Is & As).
      destruct (touches_wire G H new d g c P o it Oo I (assigns_touches o s _ Is As)) as (Eg & i & Ep & Ii & _). exists it. split; [exact I|]. split; [split; [exact Eg|eauto]|].
      intros it' I' (_ & i' & _ & Ep'). rewrite (Un it' i' I' Ep'). symmetry. now apply (Un it i).
  Qed.
  Definition side_in (it : item) : var := match i_proc it with PWire _ (EVar i) => i | _ => O end.
  Definition side_out (it : item) : var := match i_proc it with PWire (LVar o) _ => o | _ => O end.
  Lemma through_seen : pass_through H d c -> is_pass H d c = true.
  Proof.
    intros (V & Ti & To). pose proof (ids_nodup d Nd) as Nd0. unfold is_pass. rewrite V. cbn [andb]. apply andb_true_iff. split.
    - set (Lc := filter (fun it => Nat.eqb (i_gen it) c) d). assert (forall it, In it Lc <-> In it d /\ i_gen it = c) as InL by (intros it; unfold Lc; rewrite filter_In, Nat.eqb_eq; reflexivity).
      assert (NoDup Lc) as NL by now apply NoDup_filter. assert (NoDup (h_ports H c)) as Np by apply PA.
      assert (forall it, In it Lc -> exists i o, i_proc it = PWire (LVar o) (EVar i) /\ input H c i /\ output H c o) as Sh.
      { intros it I. apply InL in I. destruct I as [I E]. destruct (pl_wires _ _ _ _ _ _ P it I E) as (i & o & Ep & Ii & Oo & _). eauto. }
      assert (List.length Lc = List.length (filter (is_in H) (h_ports H c))) as L1.
      { rewrite <- (map_length side_in Lc). apply Nat.le_antisymm; apply NoDup_incl_length.
        - apply NoDup_map_on; [exact NL|]. intros a b Ia Ib E. destruct (Sh a Ia) as (i & o & Ea & Ii & _), (Sh b Ib) as (i' & o' & Eb & Ii' & _). unfold side_in in E. rewrite Ea, Eb in E. subst i'.
          destruct (Ti i Ii) as (w & _ & _ & Un). apply InL in Ia, Ib. rewrite (Un a), (Un b); try tauto; split; try tauto; eauto.
        - intros x I. apply in_map_iff in I. destruct I as (it & <- & I). destruct (Sh it I) as (i & o & Ep & Ii & _). unfold side_in. rewrite Ep. now apply is_in_spec.
        - now apply NoDup_filter.
        - intros i I. apply is_in_spec in I. destruct (Ti i I) as (w & Iw & (Eg & o & Ep) & _). apply in_map_iff. exists w. split; [unfold side_in; now rewrite Ep|]. apply InL. auto. }
      assert (List.length Lc = List.length (filter (fun x => negb (is_in H x)) (h_ports H c))) as L2.
      { assert (forall x, In x (filter (fun x => negb (is_in H x)) (h_ports H c)) <-> output H c x) as Os by (intros x; rewrite filter_In; unfold output, is_in; destruct (h_kind H x); cbn [negb]; intuition congruence).
        rewrite <- (map_length side_out Lc). apply Nat.le_antisymm; apply NoDup_incl_length.
        - apply NoDup_map_on; [exact NL|]. intros a b Ia Ib E. destruct (Sh a Ia) as (i & o & Ea & Ii0 & Oo), (Sh b Ib) as (i' & o' & Eb & Ii1 & Oo'). unfold side_out in E. rewrite Ea, Eb in E. subst o'.
          destruct (To o Oo) as (w & _ & _ & Un). apply InL in Ia, Ib. rewrite (Un a), (Un b); try tauto; split; try tauto; eauto.
        - intros x I. apply in_map_iff in I. destruct I as (it & <- & I). destruct (Sh it I) as (i & o & Ep & _ & Oo). unfold side_out. rewrite Ep. now apply Os.
        - now apply NoDup_filter.
        - intros o I. apply Os in I. destruct (To o I) as (w & Iw & (Eg & i & _ & Ep) & _). apply in_map_iff. exists w. split; [unfold side_out; now rewrite Ep|]. apply InL. auto. }
      pose proof (filter_split (is_in H) (h_ports H c)) as L3. rewrite <- L1, <- L2 in L3. rewrite <- L3. replace (List.length Lc + List.length Lc)%nat with (List.length Lc * 2)%nat by lia.
      rewrite Nat.mod_mul, Nat.div_mul by lia. now rewrite !Nat.eqb_refl.
    - apply forallb_forall. intros p Ip. unfold port_ok. destruct (is_in H p) eqn:Kp.
      + assert (input H c p) as Ii by (apply (is_in_spec H c p), filter_In; auto). destruct (Ti p Ii) as (w & Iw & (Eg & o & Ep) & Un).
        unfold sinks_of, statements. rewrite (flat_one _ d w Nd0 Iw).
        * rewrite Ep. cbn [body_of collect_body]. cbn. rewrite Nat.eqb_refl. reflexivity.
        * intros b Ib Nb. apply no_statements. intros s Is. destruct (mem p (stmt_sinks s)) eqn:E; [|reflexivity]. exfalso. apply Nb. apply Un; [exact Ib|].
          destruct (reads_wire G H new d g c P p b Ii Ib) as (Eb & o' & Ep' & _); [exists s; split; [exact Is|apply reads_sinks; now apply mem_In]|]. split; eauto.
      + assert (output H c p) as Oo by (split; [exact Ip|]; unfold is_in in Kp; destruct (h_kind H p); congruence). destruct (To p Oo) as (w & Iw & (Eg & i & _ & Ep) & Un).
        unfold sources_of, statements. rewrite (flat_one _ d w Nd0 Iw).
        * destruct (pl_wires _ _ _ _ _ _ P w Iw Eg) as (i0 & o0 & Ep0 & Ii & _). rewrite Ep in Ep0. injection Ep0 as <- <-. rewrite Ep. cbn [body_of collect_body]. cbn. rewrite Nat.eqb_refl. cbn. now rewrite (proj2 Ii).
        * intros b Ib Nb. apply no_statements. intros s Is. destruct (assigns_to p s) eqn:E; [|reflexivity]. exfalso. apply Nb. apply Un; [exact Ib|].
          destruct (touches_wire G H new d g c P p b Oo Ib (assigns_touches p s _ Is E)) as (Eb & i' & Ep' & Ii' & _). split; eauto.
  Qed.
End Seen.
