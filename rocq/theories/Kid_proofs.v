From Coq Require Import FinFun.
From Verif Require Import Base Kid_spec Kid_model.
Local Open Scope nat_scope.

Lemma emplace_in : forall c l x, In x (emplace c l) <-> x = c \/ In x l.
Proof.
  intros c. induction l as [|a l I]; intros x; cbn [emplace].
  - cbn. intuition.
  - destruct (Nat.eqb_spec c a) as [E|E].
    + subst. cbn. intuition.
    + destruct (Nat.ltb c a); cbn [In]; [intuition | rewrite I; intuition].
Qed.

Inductive asc : list nat -> Prop :=
| asc_nil : asc [] | asc_cons x l : Forall (fun y => x < y) l -> asc l -> asc (x :: l).
Lemma emplace_asc : forall c l, asc l -> asc (emplace c l).
Proof.
  intros c. induction l as [|a l I]; intros H; cbn [emplace].
  - constructor; constructor.
  - assert (H1 : Forall (fun y => a < y) l) by (inversion H; assumption).
    assert (H2 : asc l) by (inversion H; assumption).
    destruct (Nat.eqb_spec c a) as [E|E]; [exact H|].
    destruct (Nat.ltb_spec c a) as [L|L].
    + constructor; [|exact H]. constructor; [exact L|].
      eapply Forall_impl; [|exact H1]. cbn. intros; lia.
    + constructor; [|apply I; exact H2]. apply Forall_forall. intros x Hx. apply emplace_in in Hx.
      destruct Hx as [->|Hx]; [lia|]. rewrite Forall_forall in H1. apply H1, Hx.
Qed.
Lemma asc_nodup : forall l, asc l -> NoDup l.
Proof.
  induction 1 as [|x l H Ha I]; constructor; [|exact I].
  intros K. rewrite Forall_forall in H. specialize (H _ K). lia.
Qed.

Section Run.
  Variable gen : nat -> nat.
  Definition step := (fun h pc => match add_child gen (fst pc) (snd pc) h with Ok h' => h' | _ => h end).
  Lemma run_app l pc : run gen (l ++ [pc]) = step (run gen l) pc.
  Proof. unfold run. rewrite fold_left_app. reflexivity. Qed.
  Lemma run_kids : forall l p c, In c (kids (run gen l) p) <-> child_of gen l p c.
  Proof.
    induction l as [|[p0 c0] l I] using rev_ind; intros p c.
    - unfold child_of. cbn. tauto.
    - rewrite run_app. unfold step, add_child. cbn [fst snd]. unfold child_of. rewrite in_app_iff.
      destruct (Nat.eqb_spec (gen c0) (gen p0)) as [E|E].
      + cbn [kids]. destruct (Nat.eqb_spec p p0) as [->|N].
        * rewrite emplace_in, I. unfold child_of. cbn. split.
          -- intros [->|[A B]]; auto.
          -- intros [[A|[A|[]]] B]; auto. inversion A. auto.
        * rewrite I. unfold child_of. cbn. split.
          -- intros [A B]; auto.
          -- intros [[A|[A|[]]] B]; auto. inversion A. congruence.
      + rewrite I. unfold child_of. cbn. split.
        * intros [A B]; auto.
        * intros [[A|[A|[]]] B]; auto. inversion A. congruence.
  Qed.
  Lemma run_asc : forall l p, asc (kids (run gen l) p).
  Proof.
    induction l as [|[p0 c0] l I] using rev_ind; intros p; [constructor|].
    rewrite run_app. unfold step, add_child. cbn [fst snd].
    destruct (Nat.eqb_spec (gen c0) (gen p0)) as [E|E]; [|apply I].
    cbn [kids]. destruct (Nat.eqb_spec p p0) as [->|N]; [apply emplace_asc|]; apply I.
  Qed.
  Lemma run_parent : forall l p c, parent (run gen l) c = Some p -> child_of gen l p c.
  Proof.
    induction l as [|[p0 c0] l I] using rev_ind; intros p c; [discriminate|].
    rewrite run_app. unfold step, add_child. cbn [fst snd]. unfold child_of. rewrite in_app_iff.
    destruct (Nat.eqb_spec (gen c0) (gen p0)) as [E|E].
    - cbn [parent]. destruct (Nat.eqb_spec c c0) as [->|N].
      + intros H. assert (p0 = p) by congruence. subst. cbn. auto.
      + intros H. apply I in H. destruct H. auto.
    - intros H. apply I in H. destruct H. auto.
  Qed.
  Lemma run_parent_some : forall l p c, child_of gen l p c -> exists q, parent (run gen l) c = Some q.
  Proof.
    induction l as [|[p0 c0] l I] using rev_ind; intros p c.
    - intros [[] _].
    - rewrite run_app. unfold step, add_child. cbn [fst snd]. intros [H G]. apply in_app_iff in H.
      destruct (Nat.eqb_spec (gen c0) (gen p0)) as [E|E].
      + cbn [parent]. destruct (Nat.eqb_spec c c0) as [->|N]; [eauto|].
        destruct H as [H|[H|[]]]; [apply (I p); split; assumption | congruence].
      + destruct H as [H|[H|[]]]; [apply (I p); split; assumption | congruence].
  Qed.
End Run.

Lemma nodup_map_inj A B (f : A -> B) l a b : NoDup (map f l) -> In a l -> In b l -> f a = f b -> a = b.
Proof.
  induction l as [|x l I]; cbn; [tauto|]. intros N. inversion N as [|? ? N1 N2]. subst.
  intros [->|Ha] [->|Hb] E; auto.
  - exfalso. apply N1. rewrite E. apply in_map, Hb.
  - exfalso. apply N1. rewrite <- E. apply in_map, Ha.
Qed.

Section Walk.
  Variable h : hier.
  Variable r : nat.
  Hypothesis Hn : forall p, NoDup (kids h p).
  Let child p c := In c (kids h p).
  Definition hd0 (l : list nat) : nat := hd 0 l.

  (* the ways the queue and the result stand for *)
  Record inv (D Q : list (list nat)) : Prop := {
    i_way : forall p, In p (D ++ Q) -> way child r p;
    i_nodup : NoDup (D ++ Q);
    i_heads : NoDup (map hd0 D);
    i_root : In [r] (D ++ Q);
    i_closed : forall v l w, In (v :: l) D -> child v w -> In (w :: v :: l) (D ++ Q);
    i_up : forall v w l, In (w :: v :: l) (D ++ Q) -> In (v :: l) D;
    i_order : forall D1 D2 v w l, D = D1 ++ (w :: v :: l) :: D2 -> In (v :: l) D1 }.

  Lemma inv_start : inv [] [[r]].
  Proof.
    constructor; cbn.
    - intros p [<-|[]]. constructor.
    - constructor; [intros []|constructor].
    - constructor.
    - auto.
    - intros v l w [].
    - intros v w l [E|[]]. discriminate.
    - intros D1 D2 v w l E. destruct D1; discriminate.
  Qed.

  Lemma inv_step D v l Q : inv D ((v :: l) :: Q) -> ~ In v (map hd0 D) ->
    inv (D ++ [v :: l]) (Q ++ map (fun w => w :: v :: l) (kids h v)).
  Proof.
    intros I N.
    assert (P : (D ++ [v :: l]) ++ (Q ++ map (fun w => w :: v :: l) (kids h v))
                = (D ++ (v :: l) :: Q) ++ map (fun w => w :: v :: l) (kids h v))
      by (rewrite <- !app_assoc; reflexivity).
    assert (Hp : In (v :: l) (D ++ (v :: l) :: Q)) by (apply in_app_iff; right; left; reflexivity).
    assert (ND : ~ In (v :: l) D).
    { intros K. apply N. apply in_map_iff. exists (v :: l). split; [reflexivity|exact K]. }
    constructor; try rewrite P.
    - intros p K. apply in_app_iff in K. destruct K as [K|K]; [apply (i_way _ _ I), K|].
      apply in_map_iff in K. destruct K as (w & <- & K). constructor; [apply (i_way _ _ I), Hp|exact K].
    - assert (NK : NoDup (map (fun w => w :: v :: l) (kids h v))).
      { apply Injective_map_NoDup; [intros a b E; congruence|apply Hn]. }
      assert (Dj : forall x, In x (D ++ (v :: l) :: Q) -> In x (map (fun w => w :: v :: l) (kids h v)) -> False).
      { intros x A B. apply in_map_iff in B. destruct B as (w & <- & B). apply ND, (i_up _ _ I _ _ _ A). }
      assert (NI := i_nodup _ _ I). revert NK Dj NI. generalize (D ++ (v :: l) :: Q) (map (fun w => w :: v :: l) (kids h v)). clear.
      intros A B NB Dj NA. induction NA as [|x A NX NA IA]; [exact NB|]. cbn. constructor.
      + intros K. apply in_app_iff in K. destruct K as [K|K]; [tauto|]. apply (Dj x); [left; reflexivity|exact K].
      + apply IA. intros y Y1 Y2. apply (Dj y); [right; exact Y1|exact Y2].
    - rewrite map_app. cbn.
      assert (NN := i_heads _ _ I). revert N NN. generalize (map hd0 D). clear.
      intros A N NN. induction NN as [|x A NX NA IA]; cbn; [constructor; [intros []|constructor]|].
      constructor.
      + intros K. apply in_app_iff in K. destruct K as [K|[K|[]]]; [tauto|]. apply N. left. symmetry. exact K.
      + apply IA. intros K. apply N. right. exact K.
    - apply in_app_iff. left. apply (i_root _ _ I).
    - intros u m w K C. apply in_app_iff in K. destruct K as [K|[K|[]]].
      + apply in_app_iff. left. apply (i_closed _ _ I _ _ _ K C).
      + inversion K. subst. apply in_app_iff. right. apply in_map_iff. exists w. split; [reflexivity|exact C].
    - intros u w m K. apply in_app_iff. apply in_app_iff in K. destruct K as [K|K].
      + left. apply (i_up _ _ I _ _ _ K).
      + right. apply in_map_iff in K. destruct K as (x & E & K). inversion E. subst. left. reflexivity.
    - intros D1 D2 u w m E.
      destruct D2 as [|d D2 _] using rev_ind.
      + apply app_inj_tail in E. destruct E as [E1 E2]. inversion E2. subst.
        apply (i_up _ _ I u w m). exact Hp.
      + rewrite app_comm_cons, app_assoc in E. apply app_inj_tail in E. destruct E as [E1 E2].
        apply (i_order _ _ I _ _ _ _ _ E1).
  Qed.

  (* what a walk ends with *)
  Lemma walk_end : forall fuel D Q vis o, inv D Q -> (forall x, In x vis <-> In x (map hd0 D)) ->
    walk fuel h (map hd0 Q) vis (map hd0 D) = Some o ->
    (exists D', inv D' [] /\ o = Ok (map hd0 D')) \/
    (o = Throw /\ exists d l1 l2, way child r (d :: l1) /\ way child r (d :: l2) /\ l1 <> l2).
  Proof.
    induction fuel as [|f IH]; intros D Q vis o I V W.
    - destruct Q as [|q Q]; [|discriminate]. cbn in W. left. exists D. split; [exact I|congruence].
    - destruct Q as [|q Q]; [cbn in W; left; exists D; split; [exact I|congruence]|].
      assert (Wq : way child r q) by (apply (i_way _ _ I), in_app_iff; right; left; reflexivity).
      assert (exists v l, q = v :: l) as (v & l & ->) by (inversion Wq; eauto).
      cbn [map walk] in W. change (hd0 (v :: l)) with v in W.
      destruct (existsb (Nat.eqb v) vis) eqn:E.
      + right. split; [congruence|]. apply existsb_exists in E. destruct E as (x & E1 & E2).
        apply Nat.eqb_eq in E2. subst x. apply V in E1. apply in_map_iff in E1. destruct E1 as (d & E1 & E2).
        assert (Wd : way child r d) by (apply (i_way _ _ I), in_app_iff; left; exact E2).
        assert (exists m, d = v :: m) as (m & ->).
        { destruct d as [|x m]; [inversion Wd|]. cbn in E1. subst. eauto. }
        exists v, l, m. split; [exact Wq|]. split; [exact Wd|]. intros ->.
        assert (K := i_nodup _ _ I). apply NoDup_remove_2 in K. apply K, in_app_iff. left. exact E2.
      + assert (N : ~ In v (map hd0 D)).
        { intros K. apply V in K. assert (existsb (Nat.eqb v) vis = true); [|congruence].
          apply existsb_exists. exists v. split; [exact K|apply Nat.eqb_refl]. }
        apply (IH (D ++ [v :: l]) (Q ++ map (fun w => w :: v :: l) (kids h v)) (v :: vis)).
        * apply inv_step; assumption.
        * intros x. rewrite map_app, in_app_iff. cbn. rewrite V. unfold hd0 at 2. cbn. tauto.
        * rewrite !map_app, map_map. cbn [map]. unfold hd0 at 2. cbn [hd]. rewrite map_id. exact W.
  Qed.

  Lemma inv_end_all D : inv D [] -> forall p, way child r p -> In p D.
  Proof.
    intros I p W. induction W as [|v w l W IW C].
    - assert (K := i_root _ _ I). rewrite app_nil_r in K. exact K.
    - assert (K := i_closed _ _ I _ _ _ IW C). rewrite app_nil_r in K. exact K.
  Qed.

  (* the walk ends *)
  Lemma walk_stops U : (forall p c, child p c -> In c U) ->
    forall fuel q vis res, NoDup vis -> incl vis U -> incl q U -> length U < fuel + length vis ->
    exists o, forall f, fuel <= f -> walk f h q vis res = Some o.
  Proof.
    intros HU. induction fuel as [|f IH]; intros q vis res Nv Iv Iq L.
    - assert (length vis <= length U) by (apply NoDup_incl_length; assumption). lia.
    - destruct q as [|x q]; [eexists; intros [|f'] _; reflexivity|].
      destruct (existsb (Nat.eqb x) vis) eqn:E.
      + exists Throw. intros [|f'] F; [lia|]. cbn [walk]. rewrite E. reflexivity.
      + destruct (IH (q ++ kids h x) (x :: vis) (res ++ [x])) as (o & O).
        * constructor; [|exact Nv]. intros K. assert (existsb (Nat.eqb x) vis = true); [|congruence].
          apply existsb_exists. exists x. split; [exact K|apply Nat.eqb_refl].
        * intros y [<-|Y]; [apply Iq; left; reflexivity|apply Iv, Y].
        * intros y Y. apply in_app_iff in Y. destruct Y as [Y|Y]; [apply Iq; right; exact Y|apply (HU x), Y].
        * cbn [length]. lia.
        * exists o. intros [|f'] F; [lia|]. cbn [walk]. rewrite E. apply O. lia.
  Qed.
End Walk.
