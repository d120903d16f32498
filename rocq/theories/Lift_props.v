From Coq Require Import Permutation.
From Verif Require Import Base Lift_spec Lift_model Lift_proofs.
Local Open Scope nat_scope.

(* C283: instances that are in step, in any order, become a loop that makes the same connections *)
Definition entry_for (l : nat * lnet) (e : nat * (key * list nat)) : Prop :=
  fst l = fst e /\ match snd l with LWhole v => snd e = (KSig v, []) | LIndex v => exists a b, snd e = (KSig v, a :: b) | LLit z => snd e = (KLit z, []) end.
Lemma port_info : forall ln n ns, 0 < n -> Permutation ns (map (fun i => at_ i ln) (seq 0 n)) ->
  exists e, note_all ns [] = Some [e] /\ fits n [e] = true /\ match ln with LWhole v => e = (KSig v, []) | LIndex v => exists a b, e = (KSig v, a :: b) | LLit z => e = (KLit z, []) end.
Proof.
  intros ln n ns Hn Pe. assert (ns <> []) as Hne by (intros ->; apply Permutation_nil in Pe; destruct n; [lia|discriminate]).
  assert (forall x, In x ns -> exists i, x = at_ i ln) as A by (intros x I; apply (Permutation_in x Pe) in I; apply in_map_iff in I; destruct I as (i & <- & _); eauto).
  destruct ln as [v|v|z].
  - exists (KSig v, []). split; [|split; reflexivity]. apply (note_all_same (Whole v)); [reflexivity|cbn; now rewrite Nat.eqb_refl|exact Hne|]. intros x I. destruct (A x I) as [i ->]. reflexivity.
  - change (fun i => at_ i (LIndex v)) with (Bit v) in Pe. apply Permutation_map_inv in Pe. destruct Pe as (ks & -> & Pe). assert (ks <> []) as Hk by (intros ->; now apply Hne).
    set (idx := fold_left (fun a k => emplace k a) ks []). assert (Permutation idx (seq 0 n)) as Pi.
    { apply NoDup_Permutation; [apply emplace_all_nodup; constructor|apply seq_NoDup|]. intros x. unfold idx. rewrite emplace_all_in. cbn. rewrite <- (Permutation_in' eq_refl Pe : In x (seq 0 n) <-> In x ks). tauto. }
    exists (KSig v, idx). split; [now apply note_all_bits0|]. split.
    + cbn [fits]. destruct idx as [|a b] eqn:Ei; [reflexivity|]. rewrite (Permutation_length Pi), seq_length, Nat.eqb_refl. cbn [andb]. apply seq_in_forallb. intros x I. apply (Permutation_in x (Permutation_sym Pi) I).
    + destruct idx as [|a b] eqn:Ei; [|eauto]. apply Permutation_nil in Pi. destruct n; [lia|discriminate].
  - exists (KLit z, []). split; [|split; reflexivity]. apply (note_all_same (Lit z)); [reflexivity|cbn; now rewrite Z.eqb_refl|exact Hne|]. intros x I. destruct (A x I) as [i ->]. reflexivity.
Qed.
Lemma map_nth_seq : forall (A B : Type) (f : A -> B) (g : nat -> B) (l : list A) s, (forall i x, nth_error l i = Some x -> f x = g (s + i)) -> map f l = map g (seq s (List.length l)).
Proof.
  intros A B f g. induction l as [|a r IH]; intros s E; [reflexivity|]. cbn. f_equal; [rewrite (E 0 a eq_refl); f_equal; lia|]. apply IH. intros i x N. rewrite (E (S i) x N). f_equal. lia.
Qed.
Lemma reach_link : forall ls x i p ln, NoDup (map fst ls) -> map (fun q => (pl_port q, reached q)) (n_plugs x) = map (fun k => (fst k, Some (at_ i (snd k)))) ls -> In (p, ln) ls -> reach p x = Some (at_ i ln).
Proof.
  intros ls x i p ln Hn E I. assert (map pl_port (n_plugs x) = map fst ls) as Ep by (apply (f_equal (map fst)) in E; rewrite !map_map in E; exact E).
  assert (In (p, Some (at_ i ln)) (map (fun q => (pl_port q, reached q)) (n_plugs x))) as J by (rewrite E; apply in_map_iff; exists (p, ln); auto).
  apply in_map_iff in J. destruct J as (q & Eq1 & J). inversion Eq1; subst. unfold reach. rewrite plug_unique; [reflexivity|congruence|exact J].
Qed.
Lemma perm_some : forall (A : Type) (l : list (option A)) (m : list A), Permutation l (map Some m) -> exists ns, l = map Some ns /\ Permutation ns m.
Proof. intros A l m Pe. apply Permutation_map_inv in Pe. destruct Pe as (ns & E & Pe). exists ns. split; [exact E|now apply Permutation_sym]. Qed.
Lemma check_in_step : forall is js ls, NoDup (map fst ls) -> 0 < List.length is -> Permutation is js -> in_step ls js -> forall l, incl l ls ->
  exists m, check_ports (map fst l) is = Ok (Some m) /\ Forall2 entry_for l m.
Proof.
  intros is js ls Hn Hl Pe St. assert (forall x, In x is -> map pl_port (n_plugs x) = map fst ls) as Ep.
  { intros x I. apply (Permutation_in x Pe) in I. apply In_nth_error in I. destruct I as (i & N). apply St in N. apply (f_equal (map fst)) in N. rewrite !map_map in N. exact N. }
  induction l as [|[p ln] r IH]; intros Hi; [exists []; split; [reflexivity|constructor]|]. destruct IH as (m & E & F); [intros y I; apply Hi; now right|]. cbn [map fst check_ports].
  assert (In (p, ln) ls) as I by (apply Hi; now left).
  assert (Permutation (map (reach p) is) (map Some (map (fun i => at_ i ln) (seq 0 (List.length is))))) as Pr.
  { rewrite (Permutation_map (reach p) Pe), map_map, (Permutation_length Pe). rewrite (map_nth_seq _ _ (reach p) (fun i => Some (at_ i ln)) js 0); [reflexivity|]. intros i x N. cbn [plus]. eapply reach_link; [exact Hn|apply St, N|exact I]. }
  apply perm_some in Pr. destruct Pr as (ns & En & Pn). assert (nets_of p is = Ok ns) as -> by (apply nets_ok; [intros x J; rewrite (Ep x J); apply in_map_iff; exists (p, ln); auto|exact En]). cbn [obind]. rewrite E. cbn [obind].
  destruct (port_info ln (List.length is) ns Hl Pn) as (e & -> & -> & Q). exists ((p, e) :: m). split; [reflexivity|]. constructor; [|exact F]. split; [reflexivity|exact Q].
Qed.
Lemma scan_in_step : forall is js ls, Permutation is js -> in_step ls js -> scan (flat_map n_plugs is) = Ok true.
Proof.
  intros is js ls Pe St. apply scan_ok. intros p I. apply in_flat_map in I. destruct I as (x & I & J). apply (Permutation_in x Pe) in I. apply In_nth_error in I. destruct I as (i & N). apply St in N.
  apply (in_map (fun q => (pl_port q, reached q))) in J. rewrite N in J. apply in_map_iff in J. destruct J as ([q ln] & E & _). inversion E; subst. exists (at_ i ln). split; [reflexivity|]. destruct ln; discriminate.
Qed.
Lemma links_entries : forall ls m, Forall2 entry_for ls m -> links m = if existsb (fun l => match snd l with LLit _ => true | _ => false end) ls then Throw else Ok ls.
Proof.
  intros ls m F. induction F as [|[p ln] [q e] ls m [E1 E2] F IH]; [reflexivity|]. cbn [fst snd] in *. subst q. cbn [links existsb snd]. destruct ln as [v|v|z].
  - subst e. cbn [obind]. rewrite IH. cbn [orb]. now destruct (existsb _ ls).
  - destruct E2 as (a & b & ->). cbn [obind]. rewrite IH. cbn [orb]. now destruct (existsb _ ls).
  - subst e. reflexivity.
Qed.
Lemma lift_in_step : forall df bs is js ls s, NoDup (map fst ls) -> 2 <= List.length is -> Permutation is js -> in_step ls js -> label df is = Ok s -> ~ In s bs -> forall d, (forall i, In i is -> n_def i = d) ->
  lift_group df bs is = if existsb (fun l => match snd l with LLit _ => true | _ => false end) ls then Throw else Ok (Some {| lp_label := s; lp_count := List.length is; lp_def := d; lp_links := ls |}).
Proof.
  intros df bs is js ls s Hn Hl Pe St La Hb d Hd. destruct (check_in_step is js ls Hn ltac:(lia) Pe St ls (incl_refl _)) as (m & E & F). unfold lift_group. destruct is as [|i [|i2 r]]; cbn [List.length] in Hl; try lia.
  assert (map pl_port (n_plugs i) = map fst ls) as Ep. { pose proof (Permutation_in i Pe (or_introl eq_refl)) as I. apply In_nth_error in I. destruct I as (k & N). apply St in N. apply (f_equal (map fst)) in N. rewrite !map_map in N. exact N. }
  unfold check_child_instance. rewrite Ep, (scan_in_step _ js ls Pe St). cbn [obind]. rewrite E. cbn [obind]. rewrite La. cbn [obind].
  destruct (existsb (fun b => if list_eq_dec Nat.eq_dec b s then true else false) bs) eqn:X; [apply existsb_exists in X; destruct X as (b & I & X); destruct (list_eq_dec Nat.eq_dec b s); [subst; contradiction|discriminate]|].
  rewrite (links_entries ls m F). rewrite (Hd i (or_introl eq_refl)). now destruct (existsb _ ls).
Qed.
Theorem C283_same_connections : forall df bs is js ls s d, NoDup (map fst ls) -> (forall p z, ~ In (p, LLit z) ls) -> 2 <= List.length is -> (forall i, In i is -> n_def i = d) -> Permutation is js -> in_step ls js ->
  label df is = Ok s -> ~ In s bs -> exists l, lift_group df bs is = Ok (Some l) /\ lp_label l = s /\ Permutation (iterations l) (map connections is).
Proof.
  intros df bs is js ls s d Hn Hz Hl Hd Pe St La Hb. exists {| lp_label := s; lp_count := List.length is; lp_def := d; lp_links := ls |}. split; [|split; [reflexivity|]].
  - rewrite (lift_in_step df bs is js ls s Hn Hl Pe St La Hb d Hd). destruct (existsb _ ls) eqn:X; [|reflexivity]. apply existsb_exists in X. destruct X as ([p ln] & I & X). cbn in X. destruct ln; try discriminate. exfalso. eapply Hz, I.
  - rewrite (Permutation_map connections Pe). unfold iterations. cbn [lp_count]. rewrite (Permutation_length Pe). rewrite (map_nth_seq _ _ connections (iteration {| lp_label := s; lp_count := List.length is; lp_def := d; lp_links := ls |}) js 0); [rewrite <- (Permutation_length Pe); reflexivity|].
    intros i x N. unfold connections, iteration. cbn [lp_def lp_links plus]. rewrite (St i x N), (Hd x); [reflexivity|]. apply (Permutation_in x (Permutation_sym Pe)). eapply nth_error_In, N.
Qed.
Definition conn (p : nat) (out : bool) (n : net) : plug := {| pl_port := p; pl_out := out; pl_net := Some n; pl_next := None |}.
(* the signal w of an output is copied to a bit *)
Definition out_to (p w : nat) (n : net) : plug := {| pl_port := p; pl_out := true; pl_net := Some (Whole w); pl_next := Some n |}.
Definition ex_inst (c k : nat) : inst := {| n_name := [99; 95; c]; n_def := 7; n_plugs := [conn 0 false (Whole 10); conn 1 false (Bit 11 k); out_to 2 (20 + k) (Bit 12 k)] |}.
Definition ex_group : list inst := [ex_inst 65 1; ex_inst 66 0; ex_inst 67 2].
Example C283_ex : (exists js ls, NoDup (map fst ls) /\ Permutation ex_group js /\ in_step ls js) /\ label [] ex_group = Ok [99] /\
  lift_group [] [] ex_group = Ok (Some {| lp_label := [99]; lp_count := 3; lp_def := 7; lp_links := [(0, LWhole 10); (1, LIndex 11); (2, LIndex 12)] |}).
Proof.
  split; [|split; reflexivity]. exists [ex_inst 66 0; ex_inst 65 1; ex_inst 67 2], [(0, LWhole 10); (1, LIndex 11); (2, LIndex 12)]. split; [repeat constructor; cbn; lia|]. split; [apply perm_swap|].
  intros [|[|[|[|i]]]] x E; inversion E; reflexivity.
Qed.

(* C284: whenever a loop is made, it makes one instance for each instance, and every port gets the same nets *)
Lemma check_ports_in : forall is l m, check_ports l is = Ok (Some m) -> forall p e, In (p, e) m -> In p l /\ exists ns, nets_of p is = Ok ns /\ note_all ns [] = Some [e] /\ fits (List.length is) [e] = true.
Proof.
  intros is. induction l as [|q r IH]; intros m E p e I; cbn [check_ports] in E; [inversion E; subst; destruct I|]. destruct (nets_of q is) as [ns| |] eqn:N; try discriminate. cbn [obind] in E. destruct (check_ports r is) as [t| |] eqn:C; try discriminate. cbn [obind] in E.
  destruct (note_all ns []) as [mm|] eqn:A; [|discriminate]. destruct (fits (List.length is) mm) eqn:F; [|discriminate]. destruct mm as [|e0 [|? ?]]; try discriminate. destruct t as [t|]; [|discriminate]. inversion E; subst.
  destruct I as [I|I]; [inversion I; subst; split; [now left|eauto]|]. destruct (IH t eq_refl p e I) as [J Q]. split; [now right|exact Q].
Qed.
Lemma check_ports_fst : forall is l m, check_ports l is = Ok (Some m) -> map fst m = l.
Proof.
  intros is. induction l as [|q r IH]; intros m E; cbn [check_ports] in E; [inversion E; reflexivity|]. destruct (nets_of q is) as [ns| |] eqn:N; try discriminate. cbn [obind] in E. destruct (check_ports r is) as [t| |] eqn:C; try discriminate. cbn [obind] in E.
  destruct (note_all ns []) as [mm|] eqn:A; [|discriminate]. destruct (fits (List.length is) mm) eqn:F; [|discriminate]. destruct mm as [|e0 [|? ?]]; try discriminate. destruct t as [t|]; [|discriminate]. inversion E; subst. cbn. f_equal. now apply IH.
Qed.
Lemma links_in : forall m ls, links m = Ok ls -> map fst ls = map fst m /\ forall p ln, In (p, ln) ls -> exists v idx, In (p, (KSig v, idx)) m /\ ln = match idx with [] => LWhole v | _ => LIndex v end.
Proof.
  induction m as [|[p [k idx]] r IH]; intros ls E; cbn [links] in E; [inversion E; subst; split; [reflexivity|intros p ln []]|].
  destruct (match k with KSig v => match idx with [] => Ok (LWhole v) | _ => Ok (LIndex v) end | _ => match idx with [] => Throw | _ => UB end end) as [l0| |] eqn:K; try discriminate. cbn [obind] in E. destruct (links r) as [t| |] eqn:L; try discriminate. cbn [obind] in E. inversion E; subst.
  destruct (IH t eq_refl) as [A B]. split; [cbn; now f_equal|]. intros q ln [I|I].
  - inversion I; subst. destruct k as [v|v j|z]; [|destruct idx; discriminate|destruct idx; discriminate]. exists v, idx. split; [now left|]. destruct idx; now inversion K.
  - destruct (B q ln I) as (v & idx' & J & Q). exists v, idx'. split; [now right|exact Q].
Qed.
Theorem C284_loop : forall df bs is l, alike is -> lift_group df bs is = Ok (Some l) ->
  lp_count l = List.length is /\ 2 <= List.length is /\ (forall i, In i is -> n_def i = lp_def l /\ map pl_port (n_plugs i) = map fst (lp_links l)) /\ label df is = Ok (lp_label l) /\ ~ In (lp_label l) bs.
Proof.
  intros df bs is l (d & ps & Hn & Al) E. unfold lift_group in E. destruct is as [|i [|i2 r]]; try discriminate. set (is := i :: i2 :: r) in *.
  destruct (check_child_instance (map pl_port (n_plugs i)) is) as [[m|]| |] eqn:C; try discriminate. cbn [obind] in E. destruct (label df is) as [s| |] eqn:La; try discriminate. cbn [obind] in E.
  destruct (existsb (fun b => if list_eq_dec Nat.eq_dec b s then true else false) bs) eqn:X; [discriminate|]. destruct (links m) as [ls| |] eqn:L; try discriminate. cbn [obind] in E. inversion E; subst. cbn. split; [reflexivity|]. split; [lia|].
  unfold check_child_instance in C. destruct (scan (flat_map n_plugs is)) as [[]| |] eqn:Sc; try discriminate. cbn [obind] in C. apply check_ports_fst in C. destruct (links_in m ls L) as [A _]. split.
  - intros j I. destruct (Al i (or_introl eq_refl)) as [D1 P1]. destruct (Al j I) as [D2 P2]. split; congruence.
  - split; [reflexivity|]. intros I. assert (existsb (fun b => if list_eq_dec Nat.eq_dec b s then true else false) bs = true) as Y; [apply existsb_exists; exists s; split; [exact I|destruct (list_eq_dec Nat.eq_dec s s); congruence]|congruence].
Qed.
Theorem C284_nets : forall df bs is l, alike is -> unmixed is -> lift_group df bs is = Ok (Some l) -> forall p ln, In (p, ln) (lp_links l) ->
  Permutation (flat_map (fun i => map reached (filter (fun q => Nat.eqb (pl_port q) p) (n_plugs i))) is) (map (fun i => Some (at_ i ln)) (seq 0 (lp_count l))).
Proof.
  intros df bs is l Ali Um E p ln I. destruct (C284_loop df bs is l Ali E) as (Lc & L2 & Lp & _). destruct Ali as (d & ps & Hn & Al). rewrite Lc. unfold lift_group in E. destruct is as [|i [|i2 r]]; try discriminate. set (is := i :: i2 :: r) in *.
  destruct (check_child_instance (map pl_port (n_plugs i)) is) as [[m|]| |] eqn:C; try discriminate. cbn [obind] in E. destruct (label df is) as [s| |] eqn:La; try discriminate. cbn [obind] in E.
  destruct (existsb (fun b => if list_eq_dec Nat.eq_dec b s then true else false) bs) eqn:X; [discriminate|]. destruct (links m) as [ls| |] eqn:L; try discriminate. cbn [obind] in E. inversion E; subst l. cbn [lp_links] in *. clear E.
  unfold check_child_instance in C. destruct (scan (flat_map n_plugs is)) as [[]| |] eqn:Sc; try discriminate. cbn [obind] in C.
  destruct (links_in m ls L) as [_ B]. destruct (B p ln I) as (v & idx & J & El). destruct (check_ports_in is _ m C p _ J) as (Ip & ns & N & A & F).
  assert (forall x, In x is -> In p (map pl_port (n_plugs x))) as Hp by (intros x Ix; destruct (Al x Ix) as [_ P2], (Al i (or_introl eq_refl)) as [_ P1]; congruence).
  apply nets_ok in N; [|exact Hp]. assert (flat_map (fun x => map reached (filter (fun q => Nat.eqb (pl_port q) p) (n_plugs x))) is = map (reach p) is) as ->.
  { clear - Hp Al Hn. assert (forall x, In x is -> NoDup (map pl_port (n_plugs x))) as Nd by (intros x Ix; destruct (Al x Ix) as [_ ->]; exact Hn). clear Al. induction is as [|x t IH]; [reflexivity|]. cbn [flat_map map]. rewrite IH; [|intros; apply Hp; now right|intros; apply Nd; now right].
    unfold reach at 2, plug_of. pose proof (Hp x (or_introl eq_refl)) as Ix. pose proof (Nd x (or_introl eq_refl)) as Nx. clear - Ix Nx. induction (n_plugs x) as [|q u IHu]; [destruct Ix|]. cbn [map] in *. inversion Nx; subst. cbn [filter find]. destruct (Nat.eqb_spec (pl_port q) p) as [Eq1|Eq1].
    - cbn [map]. replace (filter (fun q0 => Nat.eqb (pl_port q0) p) u) with (@nil plug); [reflexivity|]. symmetry. subst p. clear - H1. induction u as [|y u IHu]; [reflexivity|]. cbn [filter]. destruct (Nat.eqb_spec (pl_port y) (pl_port q)) as [Ey|Ey]; [exfalso; apply H1; cbn; auto|]. apply IHu. intros Iu. apply H1. now right.
    - destruct Ix as [Ix|Ix]; [contradiction|]. apply IHu; auto. }
  assert (List.length ns = List.length is) as Ln by (apply (f_equal (@List.length _)) in N; rewrite !map_length in N; congruence).
  assert (forall n, In n ns -> n = Whole v \/ exists k, n = Bit v k) as Kn.
  { intros n In1. destruct (note_all_keys ns [] _ A) as [_ Q]. specialize (Q n In1). cbn in Q. destruct Q as [Q|[]]. assert (reached_ok : exists x q, In x is /\ In q (n_plugs x) /\ reached q = Some n).
    { assert (In (Some n) (map (reach p) is)) as Is by (rewrite N; now apply in_map). apply in_map_iff in Is. destruct Is as (x & Ex & Ix). destruct (plug_in p x (Hp x Ix)) as (q & Eq1 & Iq & _). unfold reach in Ex. rewrite Eq1 in Ex. eauto. }
    destruct reached_ok as (x & q & Ix & Iq & Rq). assert (exists n0, reached q = Some n0 /\ forall v hi lo, n0 <> Part v hi lo) as (n0 & R0 & NP) by (eapply (proj1 (scan_ok _) Sc); apply in_flat_map; eauto).
    destruct n as [w|w k|w hi lo|w j k|z]; cbn in Q; try discriminate; inversion Q; subst; eauto. exfalso. rewrite Rq in R0. inversion R0; subst. now apply (NP w hi lo). }
  assert ((forall n, In n ns -> n = Whole v) \/ (forall n, In n ns -> exists k, n = Bit v k)) as [Ww|Bb].
  { destruct (existsb (fun n => match n with Whole _ => true | _ => false end) ns) eqn:Xw.
    - left. apply existsb_exists in Xw. destruct Xw as (w & Iw & Xw). assert (w = Whole v) as -> by (destruct (Kn w Iw) as [->|[k ->]]; [reflexivity|discriminate]). intros n In1. destruct (Kn n In1) as [->|[k ->]]; [reflexivity|]. exfalso.
      assert (In (Some (Whole v)) (map (reach p) is)) as Iw' by (rewrite N; now apply in_map). assert (In (Some (Bit v k)) (map (reach p) is)) as Ib' by (rewrite N; now apply in_map).
      apply in_map_iff in Iw'. destruct Iw' as (x & Ex & Ix). apply in_map_iff in Ib'. destruct Ib' as (y & Ey & Iy). destruct (plug_in p x (Hp x Ix)) as (q1 & Eq1 & Iq1 & Pq1). destruct (plug_in p y (Hp y Iy)) as (q2 & Eq2 & Iq2 & Pq2). unfold reach in Ex, Ey. rewrite Eq1 in Ex. rewrite Eq2 in Ey.
      apply (Um x y q1 q2 v k Ix Iy Iq1 Iq2); congruence.
    - right. intros n In1. destruct (Kn n In1) as [->|Q]; [|exact Q]. exfalso. assert (existsb (fun n => match n with Whole _ => true | _ => false end) ns = true) as Y by (apply existsb_exists; exists (Whole v); auto). congruence. }
  - assert (note_all ns [] = Some [(KSig v, [])]) as A'. { apply (note_all_same (Whole v)); [reflexivity|cbn; now rewrite Nat.eqb_refl| |exact Ww]. intros ->. cbn in Ln. discriminate Ln. }
    rewrite A in A'. inversion A'; subst idx. subst ln. rewrite N. cbn [at_]. clear - Ww Ln. rewrite <- Ln. assert (forall s, map Some ns = map (fun _ : nat => Some (Whole v)) (seq s (List.length ns))) as U; [|now rewrite (U 0)].
    clear Ln. induction ns as [|n t IH]; intros s; [reflexivity|]. cbn. rewrite (Ww n (or_introl eq_refl)). f_equal. apply IH. intros n' I. apply Ww. now right.
  - assert (exists ks, ns = map (Bit v) ks) as [ks ->]. { clear - Bb. induction ns as [|n t IH]; [exists []; reflexivity|]. destruct IH as [ks ->]; [intros n' I; apply Bb; now right|]. destruct (Bb n (or_introl eq_refl)) as [k ->]. exists (k :: ks). reflexivity. }
    assert (ks <> []) as Hk by (intros ->; cbn in Ln; discriminate Ln). rewrite (note_all_bits0 v ks Hk) in A. injection A as A. assert (idx <> []) as Hidx. { intros ->. destruct ks as [|k t]; [contradiction|]. assert (In k []) as Z; [|destruct Z]. rewrite <- A. apply emplace_all_in. left. now left. }
    assert (ln = LIndex v) as -> by (destruct idx; [contradiction|exact El]). rewrite N. rewrite map_map. cbn [at_]. cbn [fits] in F. destruct idx as [|a b]; [contradiction|]. apply andb_true_iff in F. destruct F as [_ F]. apply seq_in_forallb in F.
    apply Permutation_map with (f := fun k => Some (Bit v k)). apply Permutation_sym. apply NoDup_Permutation_bis; [apply seq_NoDup|rewrite seq_length, <- Ln, map_length; lia|]. intros x Ix. apply F in Ix. rewrite <- A in Ix. apply emplace_all_in in Ix. destruct Ix as [Ix|[]]. exact Ix.
Qed.
Definition ex_cross (c k : nat) : inst := {| n_name := [99; 95; c]; n_def := 7; n_plugs := [conn 0 false (Bit 11 k); out_to 1 (20 + k) (Bit 12 (1 - k))] |}.
Definition cross_group : list inst := [ex_cross 65 0; ex_cross 66 1].
Definition cross_loop : loop := {| lp_label := [99]; lp_count := 2; lp_def := 7; lp_links := [(0, LIndex 11); (1, LIndex 12)] |}.
Lemma cross_fine : alike cross_group /\ connected cross_group /\ unmixed cross_group.
Proof.
  split; [exists 7, [0; 1]; split; [repeat constructor; cbn; lia|intros i [<-|[<-|[]]]; auto]|]. split.
  - intros i p [<-|[<-|[]]] [<-|[<-|[]]]; discriminate.
  - intros i j p q v k [<-|[<-|[]]] _ [<-|[<-|[]]] _ _; discriminate.
Qed.
Example C284_ex : alike cross_group /\ unmixed cross_group /\ lift_group [] [] cross_group = Ok (Some cross_loop).
Proof. split; [apply cross_fine|]. split; [apply cross_fine|reflexivity]. Qed.

(* C285 (false): the loop makes the same connections whenever one is made: pairs of bits are not kept *)
Theorem C285_pairs_refuted : exists df bs is l, alike is /\ connected is /\ unmixed is /\ lift_group df bs is = Ok (Some l) /\ ~ Permutation (iterations l) (map connections is).
Proof.
  exists [], [], cross_group, cross_loop. split; [apply cross_fine|]. split; [apply cross_fine|]. split; [apply cross_fine|]. split; [reflexivity|]. intros Pe. pose proof (Permutation_in _ Pe (or_introl eq_refl)) as I. cbn in I. destruct I as [I|[I|[]]]; discriminate.
Qed.
(* C286 (false): a bit that an output drives is driven once after: the assignment that copied to it stays beside the loop *)
Theorem C286_drivers_refuted : forall df bs is l copies, alike is -> unmixed is -> lift_group df bs is = Ok (Some l) -> forall i p v k w, In i is -> In p (n_plugs i) -> pl_out p = true -> pl_net p = Some (Whole w) -> pl_next p = Some (Bit v k) ->
  In (Bit v k, w) copies -> In (Bit v k, w) (lift_copies copies) /\ exists j, j < lp_count l /\ In (pl_port p, Some (Bit v k)) (snd (iteration l j)).
Proof.
  intros df bs is l copies Al Um E i p v k w Ii Ip Po Pn Px Ic. split; [exact Ic|]. destruct (C284_loop df bs is l Al E) as (_ & _ & Lp & _). destruct (Lp i Ii) as [_ Eports]. pose proof (in_map pl_port _ _ Ip) as J. rewrite Eports in J. apply in_map_iff in J. destruct J as ([q ln] & Eq1 & J). cbn [fst] in Eq1. subst q.
  pose proof (C284_nets df bs is l Al Um E _ _ J) as Pe. assert (In (Some (Bit v k)) (flat_map (fun i => map reached (filter (fun q => Nat.eqb (pl_port q) (pl_port p)) (n_plugs i))) is)) as I.
  { apply in_flat_map. exists i. split; [exact Ii|]. apply in_map_iff. exists p. split; [unfold reached; rewrite Pn, Po, Px; reflexivity|]. apply filter_In. split; [exact Ip|apply Nat.eqb_refl]. }
  apply (Permutation_in _ Pe) in I. apply in_map_iff in I. destruct I as (j & Ej & Ij). apply in_seq in Ij. exists j. split; [lia|]. unfold iteration. cbn [snd]. apply in_map_iff. exists (pl_port p, ln). cbn [fst snd]. split; [now rewrite Ej|exact J].
Qed.
Example C286_ex : lift_group [] [] cross_group = Ok (Some cross_loop) /\ In (out_to 1 20 (Bit 12 1)) (n_plugs (ex_cross 65 0)) /\ In (1, Some (Bit 12 1)) (snd (iteration cross_loop 1)).
Proof. split; [reflexivity|]. split; cbn; auto. Qed.
(* C287 (false): an output may be left open: finding its net takes the first of no assignments *)
Lemma scan_open : forall ps p, In p ps -> reached p = None -> (forall q v hi lo, In q ps -> reached q <> Some (Part v hi lo)) -> scan ps = UB.
Proof.
  induction ps as [|q r IH]; intros p I R A; [destruct I|]. cbn [scan]. destruct (net_of q) as [n| |] eqn:N; cbn [obind].
  - apply net_reached in N. assert (scan r = UB) as Sr. { destruct I as [->|I]; [congruence|]. apply (IH p I R). intros q' v hi lo Iq. apply A. now right. }
    destruct n; try exact Sr. exfalso. eapply (A q); [now left|exact N].
  - unfold net_of in N. destruct (pl_net q); discriminate.
  - reflexivity.
Qed.
Theorem C287_open_refuted : forall df bs is i p, 2 <= List.length is -> In i is -> In p (n_plugs i) -> reached p = None -> (forall j q v hi lo, In j is -> In q (n_plugs j) -> reached q <> Some (Part v hi lo)) -> lift_group df bs is = UB.
Proof.
  intros df bs is i p L2 Ii Ip R A. unfold lift_group. destruct is as [|a [|b r]]; cbn [List.length] in L2; try lia. unfold check_child_instance. rewrite (scan_open (flat_map n_plugs (a :: b :: r)) p); [reflexivity|apply in_flat_map; eauto|exact R|].
  intros q v hi lo I. apply in_flat_map in I. destruct I as (x & Ix & Iq). eapply A; eassumption.
Qed.
Definition open_inst : inst := {| n_name := [99; 95; 65]; n_def := 7; n_plugs := [conn 0 false (Whole 10); {| pl_port := 1; pl_out := true; pl_net := None; pl_next := None |}] |}.
Example C287_ex : lift_group [] [] [open_inst; open_inst] = UB.
Proof. reflexivity. Qed.
(* C288 (false): instances in step that share a constant become a loop: an exception is thrown *)
Theorem C288_constant_refuted : forall df bs is js ls s d p z, NoDup (map fst ls) -> 2 <= List.length is -> (forall i, In i is -> n_def i = d) -> Permutation is js -> in_step ls js -> label df is = Ok s -> In (p, LLit z) ls -> lift_group df bs is = Throw.
Proof.
  intros df bs is js ls s d p z Hn Hl Hd Pe St La Iz. destruct (in_dec (list_eq_dec Nat.eq_dec) s bs) as [Ib|Ib].
  - destruct (check_in_step is js ls Hn ltac:(lia) Pe St ls (incl_refl _)) as (m & E & F). unfold lift_group. destruct is as [|i [|i2 r]]; cbn [List.length] in Hl; try lia.
    assert (map pl_port (n_plugs i) = map fst ls) as Ep. { pose proof (Permutation_in i Pe (or_introl eq_refl)) as I. apply In_nth_error in I. destruct I as (k & N). apply St in N. apply (f_equal (map fst)) in N. rewrite !map_map in N. exact N. }
    unfold check_child_instance. rewrite Ep, (scan_in_step _ js ls Pe St). cbn [obind]. rewrite E. cbn [obind]. rewrite La. cbn [obind].
    assert (existsb (fun b => if list_eq_dec Nat.eq_dec b s then true else false) bs = true) as -> by (apply existsb_exists; exists s; split; [exact Ib|destruct (list_eq_dec Nat.eq_dec s s); congruence]). reflexivity.
  - rewrite (lift_in_step df bs is js ls s Hn Hl Pe St La Ib d Hd). assert (existsb (fun l => match snd l with LLit _ => true | _ => false end) ls = true) as -> by (apply existsb_exists; exists (p, LLit z); auto). reflexivity.
Qed.
Definition lit_inst (c k : nat) : inst := {| n_name := [99; 95; c]; n_def := 7; n_plugs := [conn 0 false (Lit 3); conn 1 false (Bit 11 k)] |}.
Example C288_ex : in_step [(0, LLit 3); (1, LIndex 11)] [lit_inst 65 0; lit_inst 66 1] /\ lift_group [] [] [lit_inst 65 0; lit_inst 66 1] = Throw.
Proof. split; [|reflexivity]. intros [|[|[|i]]] x E; inversion E; reflexivity. Qed.

(* C289: the loop is named by the longest beginning that the names have in common, without the underscores at its end *)
Definition starts (a b : text) : Prop := exists c, b = a ++ c.
Lemma common_starts : forall others ref s, (forall o, In o others -> ~ In 0 o) -> ~ In 0 ref -> forall pre, List.length pre = s -> (forall o, In o others -> starts pre o) ->
  forall o, In o others -> starts (pre ++ common ref s others) o.
Proof.
  intros others. induction ref as [|c r IH]; intros s Z0 Zr pre Lp A o I; cbn [common]; [rewrite app_nil_r; auto|]. destruct (forallb _ others) eqn:F; [|rewrite app_nil_r; auto].
  change (c :: common r (S s) others) with ([c] ++ common r (S s) others). rewrite app_assoc. apply IH; auto; [intros I0; apply Zr; now right|rewrite app_length; cbn; lia|]. intros o' I'. rewrite forallb_forall in F. specialize (F o' I'). destruct (A o' I') as [t ->].
  rewrite nth_error_app2 in F by lia. replace (s - List.length pre) with 0 in F by lia. destruct t as [|x t]; cbn [nth_error] in F; [apply Nat.eqb_eq in F; exfalso; apply Zr; left; congruence|]. apply Nat.eqb_eq in F. subst x. exists t. now rewrite <- app_assoc.
Qed.
Lemma common_prefix : forall others ref s, starts (common ref s others) ref.
Proof. intros others. induction ref as [|c r IH]; intros s; cbn [common]; [exists []; reflexivity|]. match goal with |- context [if ?b then _ else _] => destruct b end; [|exists (c :: r); reflexivity]. destruct (IH (S s)) as [t Et]. exists t. cbn. congruence. Qed.
Lemma common_longest : forall others ref s pre, List.length pre = s -> forall q, starts q ref -> (forall o, In o others -> starts (pre ++ q) o) -> starts q (common ref s others).
Proof.
  intros others. induction ref as [|c r IH]; intros s pre Lp q [t Et] A; [destruct q; [exists []; reflexivity|discriminate]|]. destruct q as [|x q]; [eexists; reflexivity|]. cbn in Et. inversion Et; subst. cbn [common].
  assert (forallb (fun o => match nth_error o (List.length pre) with Some c' => Nat.eqb c' x | None => Nat.eqb 0 x end) others = true) as ->.
  { apply forallb_forall. intros o I. destruct (A o I) as [u ->]. rewrite <- app_assoc. rewrite nth_error_app2 by lia. rewrite Nat.sub_diag. cbn. apply Nat.eqb_refl. }
  destruct (IH (S (List.length pre)) (pre ++ [x])) with (q := q) as [u Eu]; [rewrite app_length; cbn; lia|exists t; reflexivity|intros o I; rewrite <- app_assoc; apply A, I|]. exists u. cbn. now rewrite <- Eu.
Qed.
Lemma strip_ok : forall r s, strip r = Ok s <-> exists us c t, r = us ++ c :: t /\ (forall u, In u us -> u = 95) /\ c <> 95 /\ s = rev (c :: t).
Proof.
  induction r as [|c r IH]; intros s; cbn [strip].
  - split; [discriminate|]. intros (us & c & t & E & _). destruct us; discriminate.
  - destruct (Nat.eqb_spec c 95) as [->|Hc].
    + rewrite IH. split; intros (us & c & t & E & A & B & C).
      * exists (95 :: us), c, t. subst r. split; [reflexivity|]. split; [intros u [<-|I]; auto|auto].
      * destruct us as [|u us]; cbn in E; inversion E; subst; [contradiction|]. exists us, c, t. split; [reflexivity|]. split; [intros u0 I; apply A; now right|auto].
    + split.
      * intros E. inversion E; subst. exists [], c, r. split; [reflexivity|]. split; [intros u []|auto].
      * intros (us & c' & t & E & A & B & C). destruct us as [|u us]; cbn in E; inversion E; subst; [reflexivity|]. exfalso. apply Hc, A. now left.
Qed.
Theorem C289_label : forall df is s, (forall i, In i is -> ~ In 0 (n_name i)) -> label df is = Ok s ->
  exists us, (forall u, In u us -> u = 95) /\ (exists a c, s = a ++ [c] /\ c <> 95) /\ (forall i, In i is -> starts (s ++ us) (n_name i)) /\ (forall q, (forall i, In i is -> starts q (n_name i)) -> starts q (s ++ us)).
Proof.
  intros df is s Z0 E. unfold label in E. destruct is as [|i r]; [discriminate|]. set (cm := common (n_name i) 0 (map n_name r)) in *. destruct (strip (rev cm)) as [x| |] eqn:St; try discriminate. cbn [obind] in E. apply strip_ok in St. destruct St as (us & c & t & Er & A & Hc & ->).
  assert (s = rev (c :: t)) as ->. { destruct (rev (c :: t)) eqn:Q; [apply (f_equal (@rev nat)) in Q; rewrite rev_involutive in Q; discriminate|now inversion E]. }
  assert (cm = rev (c :: t) ++ rev us) as Ecm by (rewrite <- (rev_involutive cm), Er, rev_app_distr; reflexivity). exists (rev us). split; [intros u I; apply A; now apply in_rev|]. split; [exists (rev t), c; split; [reflexivity|exact Hc]|]. rewrite <- Ecm. split.
  - intros j [<-|I]; [apply common_prefix|]. apply (common_starts (map n_name r) (n_name i) 0) with (pre := []); [intros o Io; apply in_map_iff in Io; destruct Io as (y & <- & Iy); apply Z0; now right|apply Z0; now left|reflexivity|intros o _; now exists o|now apply in_map].
  - intros q Q. apply (common_longest (map n_name r) (n_name i) 0 []); [reflexivity|apply Q; now left|]. intros o Io. apply in_map_iff in Io. destruct Io as (y & <- & Iy). apply Q. now right.
Qed.
Example C289_ex : (forall i, In i ex_group -> ~ In 0 (n_name i)) /\ label [] ex_group = Ok [99].
Proof. split; [|reflexivity]. intros i [<-|[<-|[<-|[]]]]; cbn; lia. Qed.
(* C290 (false): instances whose names have nothing in common get a loop named after the definition: the name is not found out without reading outside a string *)
Theorem C290_no_common_refuted : forall df bs is js ls d a b x y r c e, NoDup (map fst ls) -> (forall i, In i is -> n_def i = d) -> Permutation is js -> in_step ls js -> is = a :: b :: r -> n_name a = x :: c -> n_name b = y :: e -> x <> y -> lift_group df bs is = UB.
Proof.
  intros df bs is js ls d a b x y r c e Hn Hd Pe St E Na Nb Hxy. assert (0 < List.length is) as Hl by (subst is; cbn; lia). destruct (check_in_step is js ls Hn Hl Pe St ls (incl_refl _)) as (m & Em & F).
  assert (map pl_port (n_plugs a) = map fst ls) as Ep. { assert (In a is) as I0 by (subst is; now left). pose proof (Permutation_in a Pe I0) as I. apply In_nth_error in I. destruct I as (k & N). apply St in N. apply (f_equal (map fst)) in N. rewrite !map_map in N. exact N. }
  subst is. unfold lift_group, check_child_instance. rewrite Ep, (scan_in_step _ js ls Pe St). cbn [obind]. rewrite Em. cbn [obind]. unfold label. cbn [map]. rewrite Na, Nb. cbn [common nth_error forallb]. replace (Nat.eqb y x) with false by (symmetry; apply Nat.eqb_neq; congruence). reflexivity.
Qed.
Definition far_inst (c k : nat) : inst := {| n_name := [c; 95]; n_def := 7; n_plugs := [conn 1 false (Bit 11 k)] |}.
Example C290_ex : in_step [(1, LIndex 11)] [far_inst 65 0; far_inst 66 1] /\ lift_group [68] [] [far_inst 65 0; far_inst 66 1] = UB.
Proof. split; [|reflexivity]. intros [|[|[|i]]] x E; inversion E; reflexivity. Qed.
(* C291: the handle of an instance names the iteration with its connections, if the instances were made in the order of the bits *)
Lemma handle_nth : forall is n k i, (forall j, j < k -> forall x, nth_error is j = Some x -> n_name x <> n_name i) -> nth_error is k = Some i ->
  (fix go (n : nat) (l : list inst) : option nat := match l with [] => None | i0 :: r => if list_eq_dec Nat.eq_dec (n_name i0) (n_name i) then Some n else go (S n) r end) n is = Some (n + k).
Proof.
  induction is as [|a r IH]; intros n k i A N; [destruct k; discriminate|]. destruct k as [|k]; cbn in N.
  - inversion N; subst. destruct (list_eq_dec Nat.eq_dec (n_name i) (n_name i)); [f_equal; lia|congruence].
  - destruct (list_eq_dec Nat.eq_dec (n_name a) (n_name i)) as [Ea|Ea]; [exfalso; apply (A 0 ltac:(lia) a eq_refl Ea)|]. rewrite (IH (S n) k i); [f_equal; lia| |exact N]. intros j Lj x Nx. apply (A (S j) ltac:(lia) x Nx).
Qed.
Theorem C291_handles : forall df bs is ls l, NoDup (map fst ls) -> (exists d, forall i, In i is -> n_def i = d) -> NoDup (map n_name is) -> in_step ls is -> lift_group df bs is = Ok (Some l) -> forall i, In i is -> exists j, handle_index is (n_name i) = Some j /\ j < lp_count l /\ iteration l j = connections i.
Proof.
  intros df bs is ls l Hn [d Hd] Nn St E i I. assert (alike is) as Al. { exists d, (map fst ls). split; [exact Hn|]. intros x Ix. split; [auto|]. apply In_nth_error in Ix. destruct Ix as [k Nk]. apply St in Nk. apply (f_equal (map fst)) in Nk. rewrite !map_map in Nk. exact Nk. }
  destruct (C284_loop df bs is l Al E) as (Lc & L2 & Lp & La & Lb). apply In_nth_error in I. destruct I as [k Nk]. exists k. split; [|split].
  - unfold handle_index. rewrite (handle_nth is 0 k i); [reflexivity| |exact Nk]. intros j Lj x Nx Q. assert (j = k); [|lia]. apply (proj1 (NoDup_nth_error (map n_name is)) Nn); [rewrite map_length; apply nth_error_Some; congruence|]. rewrite !nth_error_map, Nx, Nk. cbn. now rewrite Q.
  - rewrite Lc. apply nth_error_Some. congruence.
  - pose proof (lift_in_step df bs is is ls (lp_label l) Hn L2 (Permutation_refl _) St La Lb d Hd) as Q. rewrite E in Q. destruct (existsb (fun l0 => match snd l0 with LLit _ => true | _ => false end) ls); [discriminate|]. inversion Q as [Q']. rewrite Q'. unfold iteration, connections. cbn [lp_def lp_links]. rewrite (St k i Nk), (Hd i); [reflexivity|]. eapply nth_error_In, Nk.
Qed.
Definition row : list inst := [ex_inst 65 0; ex_inst 66 1; ex_inst 67 2].
Example C291_ex : NoDup (map n_name row) /\ in_step [(0, LWhole 10); (1, LIndex 11); (2, LIndex 12)] row /\ (exists l, lift_group [] [] row = Ok (Some l)) /\ handle_index row [99; 95; 67] = Some 2.
Proof. split; [repeat constructor; cbn; intuition discriminate|]. split; [intros [|[|[|[|i]]]] x E; inversion E; reflexivity|]. split; [eexists; reflexivity|reflexivity]. Qed.
(* C292 (false): in any order *)
Theorem C292_order_refuted : exists df bs is js ls l i j, NoDup (map fst ls) /\ NoDup (map n_name is) /\ Permutation is js /\ in_step ls js /\ lift_group df bs is = Ok (Some l) /\ Permutation (iterations l) (map connections is) /\
  In i is /\ handle_index is (n_name i) = Some j /\ iteration l j <> connections i.
Proof.
  exists [], [], ex_group, [ex_inst 66 0; ex_inst 65 1; ex_inst 67 2], [(0, LWhole 10); (1, LIndex 11); (2, LIndex 12)], {| lp_label := [99]; lp_count := 3; lp_def := 7; lp_links := [(0, LWhole 10); (1, LIndex 11); (2, LIndex 12)] |}, (ex_inst 65 1), 0.
  split; [repeat constructor; cbn; lia|]. split; [repeat constructor; cbn; intuition discriminate|]. split; [apply perm_swap|]. split; [intros [|[|[|[|i]]]] x E; inversion E; reflexivity|]. split; [reflexivity|]. split; [apply perm_swap|]. split; [now left|]. split; [reflexivity|discriminate].
Qed.
(* C293 (false): the name of the loop is new: c_0, c_1, ... beside a variable c *)
Lemma common_app : forall a u v s pre others, List.length pre = s -> others <> [] -> (forall o, In o others -> exists x r, o = pre ++ a ++ 95 :: x :: r /\ x <> u) -> u <> 0 -> common (a ++ 95 :: u :: v) s others = a ++ [95].
Proof.
  induction a as [|c a IH]; intros u v s pre others Ls Hne A Hu; cbn [app common].
  - assert (forallb (fun o => match nth_error o s with Some c' => Nat.eqb c' 95 | None => Nat.eqb 0 95 end) others = true) as ->. { apply forallb_forall. intros o I. destruct (A o I) as (x & r & -> & _). rewrite nth_error_app2 by lia. replace (s - List.length pre) with 0 by lia. reflexivity. }
    f_equal. destruct others as [|o others]; [contradiction|]. cbn [forallb]. destruct (A o (or_introl eq_refl)) as (x & r & -> & Hx). rewrite nth_error_app2 by lia. replace (S s - List.length pre) with 1 by lia. cbn [nth_error app]. replace (Nat.eqb x u) with false by (symmetry; now apply Nat.eqb_neq). reflexivity.
  - assert (forallb (fun o => match nth_error o s with Some c' => Nat.eqb c' c | None => Nat.eqb 0 c end) others = true) as ->. { apply forallb_forall. intros o I. destruct (A o I) as (x & r & -> & _). rewrite nth_error_app2 by lia. replace (s - List.length pre) with 0 by lia. cbn. apply Nat.eqb_refl. }
    f_equal. apply (IH u v (S s) (pre ++ [c])); auto; [rewrite app_length; cbn; lia|]. intros o I. destruct (A o I) as (x & r & -> & Hx). exists x, r. split; [now rewrite <- app_assoc|exact Hx].
Qed.
Theorem C293_clash_refuted : forall df bs variables a c i1 i2 ls d, let v := a ++ [c] in c <> 95 -> In v variables -> n_name i1 = v ++ [95; 48] -> n_name i2 = v ++ [95; 49] -> NoDup (map fst ls) -> (forall p z, ~ In (p, LLit z) ls) -> n_def i1 = d -> n_def i2 = d -> in_step ls [i1; i2] -> ~ In v bs ->
  exists l, lift_group df bs [i1; i2] = Ok (Some l) /\ In (lp_label l) variables.
Proof.
  intros df bs variables a c i1 i2 ls d v Hc Iv N1 N2 Hn Hz D1 D2 St Hb. destruct (C283_same_connections df bs [i1; i2] [i1; i2] ls v d) as (l & E & El & _); auto.
  - intros i [<-|[<-|[]]]; assumption.
  - unfold label. cbn [map]. rewrite N1, N2. rewrite (common_app v 48 [] 0 []); [|reflexivity|discriminate|intros o [<-|[]]; exists 49, []; split; [reflexivity|lia]|lia]. rewrite rev_app_distr. cbn [rev app]. unfold v. rewrite rev_app_distr. cbn [rev app strip]. cbn [Nat.eqb]. destruct (Nat.eqb_spec c 95); [contradiction|]. cbn [obind]. cbn [rev]. rewrite rev_involutive. destruct (a ++ [c]) eqn:Q; [destruct a; discriminate|reflexivity].
  - exists l. split; [exact E|]. now rewrite El.
Qed.
Example C293_ex : exists l, lift_group [] [] [ex_inst 48 0; ex_inst 49 1] = Ok (Some l) /\ In (lp_label l) [[97]; [99]].
Proof. eexists. split; [reflexivity|]. cbn. auto. Qed.
Print Assumptions C283_same_connections.
Print Assumptions C284_loop.
Print Assumptions C284_nets.
Print Assumptions C285_pairs_refuted.
Print Assumptions C286_drivers_refuted.
Print Assumptions C287_open_refuted.
Print Assumptions C288_constant_refuted.
Print Assumptions C289_label.
Print Assumptions C290_no_common_refuted.
Print Assumptions C291_handles.
Print Assumptions C292_order_refuted.
Print Assumptions C293_clash_refuted.
