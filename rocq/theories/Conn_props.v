(* Theorems about the connections of ports and the wiring of interfaces: C444 - C449. *)
From Verif Require Import Base Conn_spec Conn_model.

Lemma sig_rect' (P : sig -> Prop) :
  (forall p, P (SPort p)) -> (forall v, P (SVar v)) -> P SConst -> (forall s, P s -> P (SSlice s)) ->
  (forall s i, P s -> P i -> P (SIndex s i)) -> (forall s, P s -> P (SCast s)) -> (forall s, P s -> P (SUn s)) ->
  (forall a b, P a -> P b -> P (SBin a b)) -> (forall c a b, P c -> P a -> P b -> P (SCond c a b)) ->
  (forall l, (forall s, In s l -> P s) -> P (SConcat l)) -> (forall s, P s -> P (SExtend s)) ->
  (forall l, (forall s, In s l -> P s) -> P (SCall l)) -> forall s, P s.
Proof.
  intros Hp Hv Hk Hs Hi Hc Hu Hb Hn Hl He Hf. fix F 1. intros s.
  assert (FL : forall l : list sig, (forall s, P s) -> forall s, In s l -> P s) by (intros l A s' _; apply A).
  destruct s; [apply Hp|apply Hv|exact Hk|apply Hs, F|apply Hi; apply F|apply Hc, F|apply Hu, F|apply Hb; apply F|apply Hn; apply F| |apply He, F|].
  - apply Hl. clear FL. induction l as [|x l IH]; intros s [].
    + rewrite <- H. apply F.
    + apply IH. exact H.
  - apply Hf. clear FL. induction l as [|x l IH]; intros s [].
    + rewrite <- H. apply F.
    + apply IH. exact H.
Qed.

Lemma sink_of_occurs p : forall s, In p (sink_of s) <-> occurs p s.
Proof.
  induction s using sig_rect'; cbn [sink_of]; rewrite ?in_app_iff, ?in_flat_map; split; intros H'.
  all: try (inversion H'; subst; firstorder (eauto using occurs); fail).
  all: try (destruct H' as [H'|H']; subst; firstorder (eauto using occurs); fail).
  all: try (firstorder (eauto using occurs); fail).
Qed.
Lemma source_of_drives p : forall s, In p (source_of s) <-> drives p s.
Proof.
  induction s using sig_rect'; cbn [source_of]; rewrite ?in_flat_map; split; intros H'.
  all: try (inversion H'; subst; firstorder (eauto using drives); fail).
  all: try (firstorder (eauto using drives); fail).
Qed.
Lemma index_of_indexes p : forall s, In p (index_of s) <-> indexes p s.
Proof.
  induction s using sig_rect'; cbn [index_of]; rewrite ?in_app_iff, ?in_flat_map, ?sink_of_occurs; split; intros H'.
  all: try (inversion H'; subst; firstorder (eauto using indexes); fail).
  all: try (firstorder (eauto using indexes); fail).
Qed.
Lemma seen_occurs p : forall s, In p (seen s) -> occurs p s.
Proof.
  induction s using sig_rect'; cbn [seen]; rewrite ?in_app_iff, ?in_flat_map; intros H'.
  all: try (destruct H'; fail).
  all: try (destruct H' as [H'|H']; subst; firstorder (eauto using occurs); fail).
  all: try (firstorder (eauto using occurs); fail).
Qed.
Lemma seen_whole p : forall s, whole s -> occurs p s -> In p (seen s).
Proof.
  induction s using sig_rect'; cbn [seen]; intros W O; inversion W; subst; inversion O; subst; rewrite ?in_app_iff, ?in_flat_map; cbn [In]; auto 6.
  exists s. auto.
Qed.
Lemma target_whole : forall s, target s -> whole s.
Proof. induction s using sig_rect'; intros T; inversion T; subst; constructor; auto. Qed.
Lemma target_drives p : forall s, target s -> (In p (seen s) <-> drives p s).
Proof.
  induction s using sig_rect'; intros T; inversion T; subst; cbn [seen]; rewrite ?in_flat_map; split; intros O.
  - destruct O as [->|[]]. constructor.
  - inversion O; subst. left; reflexivity.
  - destruct O.
  - inversion O.
  - destruct O as (x & I & O). apply (dr_concat p l x I), H; auto.
  - inversion O; subst. exists s. split; [assumption|]. apply H; auto.
Qed.
Lemma target_index p : forall s, target s -> ~ indexes p s.
Proof.
  induction s using sig_rect'; intros T I; inversion T; subst; inversion I; subst. exact (H _ H2 (H1 _ H2) H3).
Qed.
Lemma mem_iff p l : mem p l = true <-> In p l.
Proof. unfold mem. rewrite existsb_exists. split; [intros (x & I & E); apply Nat.eqb_eq in E; subst; exact I|intros I; exists p; split; [exact I|apply Nat.eqb_refl]]. Qed.
Lemma is_dir_iff d e : is_dir d e = true <-> d = e.
Proof. destruct d, e; cbn; split; congruence. Qed.
Lemma is_dir_no d e : d <> e -> is_dir d e = false.
Proof. destruct d, e; cbn; congruence. Qed.

Lemma in_sources stmts p l r : In (l, r) (sources stmts p) <-> In (l, r) stmts /\ drives p l.
Proof. unfold sources. rewrite filter_In, mem_iff. cbn [fst]. rewrite source_of_drives. tauto. Qed.
Lemma in_sinks stmts p l r : In (l, r) (sinks stmts p) <-> In (l, r) stmts /\ reads p (l, r).
Proof. unfold sinks, reads. rewrite filter_In, mem_iff, in_app_iff. cbn [fst snd]. rewrite sink_of_occurs, index_of_indexes. tauto. Qed.
Lemma in_from dir gen stmts p q : In q (connected_from dir gen stmts p) <->
  dir p <> POut /\ dir q = POut /\ gen q <> gen p /\ exists l r, In (l, r) stmts /\ drives p l /\ In q (seen r).
Proof.
  unfold connected_from. destruct (is_dir (dir p) POut) eqn:D.
  - apply is_dir_iff in D. split; [intros []|intros (N & _); congruence].
  - assert (N : dir p <> POut) by (intros E; rewrite E in D; discriminate).
    rewrite filter_In, in_flat_map, Bool.andb_true_iff, is_dir_iff, Bool.negb_true_iff, Nat.eqb_neq. split.
    + intros (([l r] & I & Sn) & -> & G). apply in_sources in I. destruct I. repeat split; trivial. exists l, r. auto.
    + intros (_ & -> & G & l & r & I & Dr & Sn). repeat split; trivial. exists (l, r). rewrite in_sources. auto.
Qed.
Lemma in_to dir gen stmts p q : In q (connected_to dir gen stmts p) <->
  dir p <> PIn /\ dir q = PIn /\ gen q <> gen p /\ exists l r, In (l, r) stmts /\ reads p (l, r) /\ In q (seen l).
Proof.
  unfold connected_to. destruct (is_dir (dir p) PIn) eqn:D.
  - apply is_dir_iff in D. split; [intros []|intros (N & _); congruence].
  - assert (N : dir p <> PIn) by (intros E; rewrite E in D; discriminate).
    rewrite filter_In, in_flat_map, Bool.andb_true_iff, is_dir_iff, Bool.negb_true_iff, Nat.eqb_neq. split.
    + intros (([l r] & I & Sn) & -> & G). apply in_sinks in I. destruct I. repeat split; trivial. exists l, r. auto.
    + intros (_ & -> & G & l & r & I & Dr & Sn). repeat split; trivial. exists (l, r). rewrite in_sinks. auto.
Qed.

(* C444: what the program says a port is connected from and to it is ... *)
Theorem C444_sound : forall dir gen stmts p q,
  (In q (connected_from dir gen stmts p) ->
     dir p <> POut /\ dir q = POut /\ gen q <> gen p /\ exists l r, In (l, r) stmts /\ drives p l /\ occurs q r)
  /\ (In q (connected_to dir gen stmts p) ->
     dir p <> PIn /\ dir q = PIn /\ gen q <> gen p /\ exists l r, In (l, r) stmts /\ reads p (l, r) /\ occurs q l).
Proof.
  intros dir gen stmts p q. split; intros I.
  - apply in_from in I. destruct I as (A & B & C & l & r & I & Dr & Sn). repeat split; trivial. exists l, r. auto using seen_occurs.
  - apply in_to in I. destruct I as (A & B & C & l & r & I & Dr & Sn). repeat split; trivial. exists l, r. auto using seen_occurs.
Qed.
(* ... and when ports are connected as a whole it says all of it, at both ends. *)
Theorem C444_complete : forall dir gen stmts p q, (forall l r, In (l, r) stmts -> target l /\ whole r) ->
  dir p = PIn -> dir q = POut -> gen q <> gen p ->
  (In q (connected_from dir gen stmts p) <-> exists l r, In (l, r) stmts /\ drives p l /\ occurs q r)
  /\ (In p (connected_to dir gen stmts q) <-> exists l r, In (l, r) stmts /\ drives p l /\ occurs q r).
Proof.
  intros dir gen stmts p q W Dp Dq G. rewrite in_from, in_to. split; split.
  - intros (_ & _ & _ & l & r & I & Dr & Sn). exists l, r. auto using seen_occurs.
  - intros (l & r & I & Dr & O). repeat split; trivial; [congruence|]. exists l, r. destruct (W l r I). auto using seen_whole.
  - intros (_ & _ & _ & l & r & I & R & Sn). destruct (W l r I) as [T _]. exists l, r. split; [exact I|]. split; [apply target_drives; assumption|].
    destruct R as [O|X]; [exact O|]. destruct (target_index q l T X).
  - intros (l & r & I & Dr & O). destruct (W l r I) as [T _]. repeat split; trivial; [congruence|congruence|]. exists l, r. split; [exact I|].
    split; [left; exact O|]. apply target_drives; assumption.
Qed.
Definition ex_dir (p : nat) : pdir := match p with 0 | 2 => PIn | _ => POut end.
Definition ex_gen (p : nat) : nat := match p with 0 | 1 => 1 | _ => 2 end.
Definition ex_stmts : list stmt := [(SPort 0, SBin (SPort 3) (SPort 1)); (SConcat [SPort 2; SVar 7], SPort 1)].
Example C444_ex : connected_from ex_dir ex_gen ex_stmts 0 = [3] /\ connected_to ex_dir ex_gen ex_stmts 3 = [0]
  /\ connected_from ex_dir ex_gen ex_stmts 2 = [1] /\ connected_to ex_dir ex_gen ex_stmts 1 = [2]
  /\ (forall l r, In (l, r) ex_stmts -> target l /\ whole r).
Proof.
  repeat split; try (destruct H as [H|[H|[]]]; injection H as <- <-; repeat constructor).
  intros s [<-|[<-|[]]]; constructor.
Qed.

(* C445: a connection of part of a port is missed at one end, and the two ends do not agree. *)
Theorem C445_part_refuted :
  (forall dir gen p q, dir p = PIn -> dir q = POut -> gen q <> gen p ->
     connected_from dir gen [(SPort p, SSlice (SPort q))] p = [] /\ connected_to dir gen [(SPort p, SSlice (SPort q))] q = [p]
     /\ connected_from dir gen [(SSlice (SPort p), SPort q)] p = [q] /\ connected_to dir gen [(SSlice (SPort p), SPort q)] q = [])
  /\ ~ (forall dir gen stmts p q, dir p = PIn -> dir q = POut -> gen q <> gen p ->
          (exists l r, In (l, r) stmts /\ drives p l /\ occurs q r) -> In q (connected_from dir gen stmts p) /\ In p (connected_to dir gen stmts q)).
Proof.
  assert (A : forall dir gen p q, dir p = PIn -> dir q = POut -> gen q <> gen p ->
     connected_from dir gen [(SPort p, SSlice (SPort q))] p = [] /\ connected_to dir gen [(SPort p, SSlice (SPort q))] q = [p]
     /\ connected_from dir gen [(SSlice (SPort p), SPort q)] p = [q] /\ connected_to dir gen [(SSlice (SPort p), SPort q)] q = []).
  { intros dir gen p q Dp Dq G. assert (G' : gen p <> gen q) by congruence. apply Nat.eqb_neq in G, G'.
    unfold connected_from, connected_to, sources, sinks. rewrite Dp, Dq.
    cbn [is_dir fst snd source_of sink_of index_of app filter mem existsb seen flat_map orb]. rewrite !Nat.eqb_refl. cbn [orb flat_map seen fst snd app filter].
    rewrite Dp, Dq, G, G'. cbn. auto. }
  split; [exact A|]. intros H.
  specialize (H ex_dir ex_gen [(SPort 0, SSlice (SPort 3))] 0 3 eq_refl eq_refl ltac:(discriminate)).
  destruct H as [[] _]. exists (SPort 0), (SSlice (SPort 3)). split; [left; reflexivity|]. repeat constructor.
Qed.

(* C446: an input is said to be connected exactly if some statement drives it or part of it, an output exactly if some
   statement reads it or part of it. *)
Theorem C446_connected : forall dir stmts p,
  (dir p = PIn -> (connected dir stmts p = true <-> exists l r, In (l, r) stmts /\ drives p l))
  /\ (dir p <> PIn -> (connected dir stmts p = true <-> exists l r, In (l, r) stmts /\ reads p (l, r))).
Proof.
  intros dir stmts p. unfold connected. split; intros D.
  - rewrite D. cbn [is_dir]. split.
    + destruct (sources stmts p) as [|[l r] t] eqn:E; [discriminate|]. intros _. exists l, r. apply in_sources. rewrite E. left; reflexivity.
    + intros (l & r & I). apply in_sources in I. destruct (sources stmts p); [destruct I|reflexivity].
  - rewrite (is_dir_no _ _ D). split.
    + destruct (sinks stmts p) as [|[l r] t] eqn:E; [discriminate|]. intros _. exists l, r. apply in_sinks. rewrite E. left; reflexivity.
    + intros (l & r & I). apply in_sinks in I. destruct (sinks stmts p); [destruct I|reflexivity].
Qed.
Example C446_ex : connected ex_dir ex_stmts 0 = true /\ connected ex_dir ex_stmts 1 = true /\ connected ex_dir [] 0 = false
  /\ connected ex_dir [(SIndex (SVar 1) (SPort 3), SConst)] 3 = true.
Proof. repeat split. Qed.

(* C447: an output that is said to be connected need not be connected to anything outside: it is enough that its own
   generator reads it. *)
Theorem C447_outside_refuted :
  (forall dir p q, dir q = POut -> connected dir [(SPort p, SPort q)] q = true)
  /\ ~ (forall dir (gen : nat -> nat) stmts q, dir q = POut -> (forall l r, In (l, r) stmts -> exists p, l = SPort p) -> connected dir stmts q = true ->
          exists l r p, In (l, r) stmts /\ reads q (l, r) /\ drives p l /\ gen p <> gen q).
Proof.
  assert (A : forall dir p q, dir q = POut -> connected dir [(SPort p, SPort q)] q = true).
  { intros dir p q D. apply C446_connected; [congruence|]. exists (SPort p), (SPort q). split; [left; reflexivity|]. left. constructor. }
  split; [exact A|]. intros H.
  destruct (H (fun _ => POut) (fun _ => 0) [(SPort 0, SPort 1)] 1 eq_refl) as (l & r & p & _ & _ & _ & G).
  - intros l r [E|[]]. injection E as <- <-. eauto.
  - apply A. reflexivity.
  - exact (G eq_refl).
Qed.

(* -- interfaces ---------------------------------------------------------------------------------------------------- *)
(* the signal that an interface has under a name *)
Definition named (i : iref) (n : nat) (v : sig) : Prop :=
  assoc n (i_vars i) = Some v \/ (assoc n (i_vars i) = None /\ exists p, assoc n (i_ports i) = Some p /\ v = SPort p).
(* the statement that connects the port of the inner generator with a signal of the outer one *)
Definition joins (dir : nat -> pdir) (p : nat) (v : sig) (s : stmt) : Prop :=
  (dir p = PIn /\ s = (SPort p, v)) \/ (dir p <> PIn /\ s = (v, SPort p)).

Lemma wire_ports_ok dir parent : forall ports, (forall n p, In (n, p) ports -> exists v, named parent n v) ->
  snd (wire_ports dir parent ports) = Ok tt
  /\ Forall2 (fun np s => exists v, named parent (fst np) v /\ joins dir (snd np) v s) ports (fst (wire_ports dir parent ports)).
Proof.
  induction ports as [|[n p] ports IH]; intros H; [split; [reflexivity|constructor]|].
  destruct IH as [I1 I2]; [intros n' p' I; apply (H n' p'); right; exact I|].
  destruct (H n p (or_introl eq_refl)) as [v Nv]. cbn [wire_ports].
  assert (E : match assoc n (i_vars parent) with Some v => Some v | None => option_map SPort (assoc n (i_ports parent)) end = Some v).
  { destruct Nv as [E|(E & q & Q & ->)]; rewrite E; [reflexivity|]. rewrite Q. reflexivity. }
  rewrite E. destruct (wire_ports dir parent ports) as [l o]. cbn [fst snd] in *. split; [exact I1|]. constructor; [|exact I2].
  exists v. split; [exact Nv|]. unfold joins. cbn [snd]. destruct (dir p); [left|right|right]; split; congruence.
Qed.
(* C448: wiring the interface of a generator with the interface of one of its instances connects every port of the inner
   interface, and nothing else, with the signal of the same name, inputs from it and outputs to it, in whichever order
   the two are given. *)
Theorem C448_wired : forall dir child_of parent child,
  child_of (i_gen parent) (i_gen child) = true -> child_of (i_gen child) (i_gen parent) = false ->
  (forall n p, In (n, p) (i_ports child) -> exists v, named parent n v) ->
  exists stmts, wire_interface dir child_of (i_gen parent) parent child = (stmts, Ok tt)
  /\ wire_interface dir child_of (i_gen parent) child parent = (stmts, Ok tt)
  /\ Forall2 (fun np s => exists v, named parent (fst np) v /\ joins dir (snd np) v s) (i_ports child) stmts.
Proof.
  intros dir child_of parent child C Nc H. destruct (wire_ports_ok dir parent (i_ports child) H) as [O F].
  exists (fst (wire_ports dir parent (i_ports child))). unfold wire_interface. rewrite C, Nc, Nat.eqb_refl.
  rewrite <- O. destruct (wire_ports dir parent (i_ports child)) as [l o]. auto.
Qed.
(* ... and it is refused, and nothing is connected, when neither is an instance in the other or another generator is asked. *)
Theorem C448_refused : forall dir child_of this i1 i2,
  (child_of (i_gen i1) (i_gen i2) = false /\ child_of (i_gen i2) (i_gen i1) = false) \/ (this <> i_gen i1 /\ this <> i_gen i2) ->
  wire_interface dir child_of this i1 i2 = ([], Throw).
Proof.
  intros dir child_of this i1 i2 [[A B]|[A B]]; unfold wire_interface.
  - rewrite A, B. reflexivity.
  - destruct (child_of (i_gen i1) (i_gen i2)), (child_of (i_gen i2) (i_gen i1)); trivial;
      (destruct (Nat.eqb_spec (i_gen i1) this); [congruence|]); (destruct (Nat.eqb_spec (i_gen i2) this); [congruence|]); reflexivity.
Qed.
Definition ex_parent : iref := mkI 0 [(5, 4)] [(6, SVar 9)].
Definition ex_child : iref := mkI 1 [(6, 0); (5, 1)] [].
Example C448_ex : wire_interface ex_dir (fun a b => Nat.ltb a b) 0 ex_child ex_parent
    = ([(SPort 0, SVar 9); (SPort 4, SPort 1)], Ok tt)
  /\ (forall n p, In (n, p) (i_ports ex_child) -> exists v, named ex_parent n v)
  /\ wire_interface ex_dir (fun _ _ => false) 0 ex_child ex_parent = ([], Throw).
Proof.
  split; [reflexivity|]. split; [|reflexivity]. intros n p [E|[E|[]]]; injection E as <- <-.
  - exists (SVar 9). left. reflexivity.
  - exists (SPort 4). right. split; [reflexivity|]. exists 4. auto.
Qed.

(* C449: when the interfaces do not fit, the wiring is refused only after the ports that come first are connected. *)
Theorem C449_undone_refuted :
  (forall dir child_of parent child l1 n p l2, child_of (i_gen parent) (i_gen child) = true ->
     i_ports child = l1 ++ (n, p) :: l2 -> (forall m q, In (m, q) l1 -> exists v, named parent m v) ->
     assoc n (i_vars parent) = None -> assoc n (i_ports parent) = None ->
     exists stmts, wire_interface dir child_of (i_gen parent) parent child = (stmts, Throw)
     /\ Forall2 (fun np s => exists v, named parent (fst np) v /\ joins dir (snd np) v s) l1 stmts)
  /\ ~ (forall dir child_of this i1 i2, snd (wire_interface dir child_of this i1 i2) = Throw -> fst (wire_interface dir child_of this i1 i2) = []).
Proof.
  split.
  - intros dir child_of parent child l1 n p l2 C E H Nv Np. unfold wire_interface. rewrite C, Nat.eqb_refl, E. clear E.
    induction l1 as [|[m q] l1 IH]; cbn [app wire_ports].
    + rewrite Nv, Np. exists []. split; [reflexivity|constructor].
    + destruct IH as (stmts & E & F); [intros m' q' I; apply (H m' q'); right; exact I|].
      destruct (H m q (or_introl eq_refl)) as [v Hv].
      assert (X : match assoc m (i_vars parent) with Some v => Some v | None => option_map SPort (assoc m (i_ports parent)) end = Some v).
      { destruct Hv as [X|(X & z & Q & ->)]; rewrite X; [reflexivity|]. rewrite Q. reflexivity. }
      rewrite X, E. eexists. split; [reflexivity|]. constructor; [|exact F]. exists v. split; [exact Hv|]. unfold joins. cbn [snd].
      destruct (dir q); [left|right|right]; split; congruence.
  - intros H. specialize (H ex_dir (fun a b => Nat.ltb a b) 0 ex_parent (mkI 1 [(6, 0); (8, 1)] []) eq_refl). discriminate.
Qed.
Print Assumptions C444_sound.
Print Assumptions C444_complete.
Print Assumptions C445_part_refuted.
Print Assumptions C446_connected.
Print Assumptions C447_outside_refuted.
Print Assumptions C448_wired.
Print Assumptions C448_refused.
Print Assumptions C449_undone_refuted.
