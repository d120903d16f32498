(* Proofs about Fsm_model: the set of states and its encoding. *)
From Coq Require Import Permutation.
From Verif Require Import Base SV_spec IR IRSem_spec IR_lemmas Fsm_spec Fsm_model.
Local Open Scope Z_scope.

(* ---- names and the states of one FSM ---- *)
Lemma insert_perm : forall F s l, Permutation (insert_by_name F s l) (s :: l).
Proof.
  induction l as [|t l IH]; cbn [insert_by_name]; [reflexivity|]. destruct (String.leb _ _); [reflexivity|].
  rewrite IH. apply perm_swap.
Qed.
Lemma sort_perm : forall F l, Permutation (fold_right (insert_by_name F) [] l) l.
Proof. induction l as [|s l IH]; cbn [fold_right]; [reflexivity|]. rewrite insert_perm. constructor. exact IH. Qed.
Lemma own_in : forall F f s, In s (own F f) <-> (s < fam_n F)%nat /\ f_fsm (fam_state F s) = f.
Proof.
  intros F f s. unfold own. rewrite (Permutation_in' eq_refl (sort_perm F _)), filter_In, in_seq, Nat.eqb_eq.
  intuition lia.
Qed.
Lemma own_nodup : forall F f, NoDup (own F f).
Proof.
  intros F f. unfold own. eapply Permutation_NoDup; [apply Permutation_sym, sort_perm|].
  apply NoDup_filter, seq_NoDup.
Qed.

Lemma mem_in : forall s l, mem s l = true <-> In s l.
Proof.
  intros s l. unfold mem. rewrite existsb_exists. split.
  - intros (x & H & E). apply Nat.eqb_eq in E. congruence.
  - intros H. exists s. rewrite Nat.eqb_refl. auto.
Qed.
Lemma mem_not : forall s l, mem s l = false <-> ~ In s l.
Proof. intros s l. rewrite <- mem_in. destruct (mem s l); intuition congruence. Qed.

Lemma up_sound : forall F n f g, up_to F n f g = true -> nested F f g.
Proof.
  induction n as [|n IH]; intros f g H; cbn [up_to] in H; destruct (Nat.eqb_spec g f) as [Q|Q].
  - subst. apply ne_self.
  - discriminate.
  - subst. apply ne_self.
  - destruct (fam_parent F g) as [p|] eqn:E; [|discriminate]. eapply ne_up; eauto.
Qed.
Lemma up_complete : forall F (rank : nat -> nat), (forall g p, fam_parent F g = Some p -> (rank p < rank g)%nat) ->
  forall f g, nested F f g -> forall n, (rank g <= n)%nat -> up_to F n f g = true.
Proof.
  intros F rank R f g H. induction H as [|g p E H IH]; intros n L.
  - destruct n; cbn [up_to]; rewrite Nat.eqb_refl; reflexivity.
  - pose proof (R g p E). destruct n as [|n]; [lia|]. cbn [up_to]. destruct (Nat.eqb g f); [reflexivity|].
    rewrite E. apply IH. lia.
Qed.
Lemma up_iff : forall F f g, wf_family F -> (up_to F (fam_fsms F) f g = true <-> nested F f g).
Proof.
  intros F f g (_ & (rank & R) & _). split; [apply up_sound|]. intros H. eapply up_complete; eauto.
  - intros x p. apply R.
  - apply R.
Qed.

(* ---- breadth-first search ---- *)
Lemma total_cons : forall F s l, total_next F (s :: l) = (length (f_next (fam_state F s)) + total_next F l)%nat.
Proof. reflexivity. Qed.
Section Bfs.
  Variables (F : family) (f : nat).
  Hypothesis wf : wf_family F.
  Notation sel := (fun t => up_to F (fam_fsms F) f (f_fsm (fam_state F t))).
  Notation pushes s := (filter sel (map snd (f_next (fam_state F s)))).

  Lemma total_drop : forall l vis s, NoDup l -> In s l -> ~ In s vis ->
    (total_next F (filter (fun x => negb (mem x (vis ++ [s]))) l) + length (f_next (fam_state F s))
     <= total_next F (filter (fun x => negb (mem x vis)) l))%nat.
  Proof.
    intros l vis s N I V.
    assert (forall l, ~ In s l -> filter (fun x => negb (mem x (vis ++ [s]))) l = filter (fun x => negb (mem x vis)) l) as K.
    { induction l0 as [|x l0 IH]; intros H; [reflexivity|]. cbn [filter].
      assert (mem x (vis ++ [s]) = mem x vis) as ->.
      { unfold mem. rewrite existsb_app. cbn. destruct (Nat.eqb_spec x s); [subst; exfalso; apply H; left; reflexivity|].
        rewrite !orb_false_r. reflexivity. }
      rewrite IH; [reflexivity|]. intros Q. apply H. right. exact Q. }
    induction l as [|x l IH]; [destruct I|]. apply NoDup_cons_iff in N as [N1 N2]. cbn [filter].
    destruct I as [->|I].
    - assert (mem s (vis ++ [s]) = true) as -> by (apply mem_in, in_app_iff; right; left; reflexivity).
      apply mem_not in V. rewrite V. cbn [negb]. rewrite (K l N1), total_cons. lia.
    - specialize (IH N2 I).
      assert (mem x (vis ++ [s]) = mem x vis) as ->.
      { unfold mem. rewrite existsb_app. cbn. destruct (Nat.eqb_spec x s); [subst; contradiction|].
        rewrite !orb_false_r. reflexivity. }
      destruct (mem x vis); cbn [negb]; [exact IH|]. rewrite !total_cons. lia.
  Qed.
  Lemma pushes_len : forall s, (length (pushes s) <= length (f_next (fam_state F s)))%nat.
  Proof.
    intros s. rewrite <- (map_length snd (f_next (fam_state F s))).
    induction (map snd (f_next (fam_state F s))) as [|x l IH]; [apply Nat.le_refl|]. cbn [filter length].
    destruct (up_to _ _ _ _); cbn [length]; lia.
  Qed.
  Lemma bfs_spec : forall fuel q vis,
    (length q + total_next F (filter (fun x => negb (mem x vis)) (seq 0 (fam_n F))) <= fuel)%nat ->
    (forall s, In s q -> (s < fam_n F)%nat) -> NoDup vis ->
    (forall s t, In s vis -> In t (pushes s) -> In t vis \/ In t q) ->
    let R := bfs F f fuel q vis in
    NoDup R /\ incl vis R /\ incl q R /\ (forall s t, In s R -> In t (pushes s) -> In t R)
    /\ (forall P : nat -> Prop, (forall s, In s q -> P s) -> (forall s, In s vis -> P s) ->
          (forall s t, P s -> In t (pushes s) -> P t) -> forall s, In s R -> P s).
  Proof.
    induction fuel as [|n IH]; intros q vis M B N C.
    - destruct q as [|s q]; [|cbn in M; lia]. cbn [bfs]. split; [exact N|]. split; [apply incl_refl|]. split; [intros x []|]. split; [|auto].
      intros s t I J. destruct (C s t I J) as [K|[]]. exact K.
    - destruct q as [|s q].
      { cbn [bfs]. split; [exact N|]. split; [apply incl_refl|]. split; [intros x []|]. split; [|auto].
        intros s t I J. destruct (C s t I J) as [K|[]]. exact K. }
      cbn [bfs]. destruct (mem s vis) eqn:Em.
      + apply mem_in in Em. destruct (IH q vis) as (A1 & A2 & A3 & A4 & A5).
        * cbn [length] in M. lia.
        * intros x Hx. apply B. right. exact Hx.
        * exact N.
        * intros x t I J. destruct (C x t I J) as [K|[K|K]]; [auto|subst; auto|auto].
        * split; [exact A1|]. split; [exact A2|]. split; [|split; [exact A4|]].
          -- intros x [<-|I]; [apply A2, Em|apply A3, I].
          -- intros P P1 P2 P3. apply A5; auto. intros x Hx. apply P1. right. exact Hx.
      + apply mem_not in Em. destruct (IH (q ++ pushes s) (vis ++ [s])) as (A1 & A2 & A3 & A4 & A5).
        * pose proof (total_drop (seq 0 (fam_n F)) vis s (seq_NoDup _ _)) as T.
          assert (In s (seq 0 (fam_n F))) as I by (apply in_seq; specialize (B s (or_introl eq_refl)); lia).
          specialize (T I Em). pose proof (pushes_len s). rewrite app_length. cbn [length] in M. lia.
        * intros x Hx. apply in_app_iff in Hx as [Hx|Hx]; [apply B; right; exact Hx|].
          apply filter_In in Hx as [Hx _]. apply in_map_iff in Hx as ([c t] & <- & Hx). eapply wf; eauto.
        * apply Permutation_NoDup with (l := s :: vis).
          -- apply Permutation_cons_append.
          -- constructor; assumption.
        * intros x t I J. rewrite in_app_iff in I. rewrite !in_app_iff.
          destruct I as [I|[<-|[]]]; [|auto]. destruct (C x t I J) as [K|[K|K]]; [auto| |auto].
          left. right. left. exact K.
        * split; [exact A1|]. split; [|split; [|split; [exact A4|]]].
          -- intros x Hx. apply A2, in_app_iff. auto.
          -- intros x [<-|Hx]; [apply A2, in_app_iff; right; left; reflexivity|apply A3, in_app_iff; auto].
          -- intros P P1 P2 P3. apply A5; auto.
             ++ intros x Hx. apply in_app_iff in Hx as [Hx|Hx]; [apply P1; right; exact Hx|].
                eapply P3; [apply P1; left; reflexivity|exact Hx].
             ++ intros x Hx. apply in_app_iff in Hx as [Hx|[<-|[]]]; [auto|]. apply P1. left. reflexivity.
  Qed.
  Lemma in_pushes : forall s t, In t (pushes s) <->
    (exists c, In (c, t) (f_next (fam_state F s))) /\ nested F f (f_fsm (fam_state F t)).
  Proof.
    intros s t. rewrite filter_In, in_map_iff, (up_iff F f _ wf). split.
    - intros [([c t'] & E & I) H]. cbn in E. subst t'. eauto.
    - intros [[c I] H]. split; [|exact H]. exists (c, t). auto.
  Qed.
  Lemma fuel_enough : (length (own F f) + total_next F (filter (fun x => negb (mem x [])) (seq 0 (fam_n F)))
    <= length (own F f) + total_next F (seq 0 (fam_n F)))%nat.
  Proof.
    assert (forall l : list nat, filter (fun x => negb (mem x [])) l = l) as ->.
    { induction l as [|x l IH]; [reflexivity|]. cbn [filter]. change (negb (mem x [])) with true. cbv iota. f_equal. exact IH. }
    lia.
  Qed.
  Lemma states_spec : NoDup (all_states F f) /\ (forall s, In s (all_states F f) <-> member F f s)
    /\ forall s, In s (all_states F f) -> (s < fam_n F)%nat.
  Proof.
    destruct (bfs_spec _ (own F f) [] fuel_enough) as (A1 & _ & A3 & A4 & A5).
    - intros s H. apply own_in in H. tauto.
    - constructor.
    - intros s t [].
    - split; [exact A1|]. assert (forall s, In s (all_states F f) -> (s < fam_n F)%nat) as B.
      { apply A5.
        - intros s H. apply own_in in H. tauto.
        - intros s [].
        - intros s t _ H. apply in_pushes in H as [[c H] _]. eapply wf; eauto. }
      split; [|exact B]. intros s. split.
      + revert s. apply A5.
        * intros s H. apply own_in in H as [H1 H2]. apply me_own; assumption.
        * intros s [].
        * intros s t M H. apply in_pushes in H as [[c H] Hn]. eapply me_next; eauto.
      + induction 1 as [s H1 H2|s c t M IH H Hn]; [apply A3, own_in; auto|].
        apply (A4 s t IH). apply in_pushes. eauto.
  Qed.
  (* the own states come first *)
  Lemma bfs_prefix : forall fuel q vis, exists rest, bfs F f fuel q vis = vis ++ rest.
  Proof.
    induction fuel as [|n IH]; intros q vis; [destruct q; exists []; symmetry; apply app_nil_r|].
    destruct q as [|s q]; cbn [bfs]; [exists []; symmetry; apply app_nil_r|]. destruct (mem s vis); [apply IH|].
    destruct (IH (q ++ pushes s) (vis ++ [s])) as [rest E]. exists (s :: rest). rewrite E, <- app_assoc. reflexivity.
  Qed.
  Lemma bfs_queue : forall q1 q2 vis fuel, NoDup (vis ++ q1) -> (length q1 <= fuel)%nat ->
    exists rest, bfs F f fuel (q1 ++ q2) vis = vis ++ q1 ++ rest.
  Proof.
    induction q1 as [|s q1 IH]; intros q2 vis fuel N L; [apply bfs_prefix|].
    destruct fuel as [|n]; [cbn in L; lia|]. cbn [app bfs].
    assert (mem s vis = false) as ->.
    { apply mem_not. intros I. apply NoDup_remove_2 in N. apply N, in_app_iff. auto. }
    rewrite <- app_assoc. destruct (IH (q2 ++ pushes s) (vis ++ [s]) n) as [rest E].
    - rewrite <- app_assoc. exact N.
    - cbn in L. lia.
    - exists rest. rewrite E, <- !app_assoc. reflexivity.
  Qed.
  Lemma states_own : exists rest, all_states F f = own F f ++ rest.
  Proof.
    destruct (bfs_queue (own F f) [] [] (length (own F f) + total_next F (seq 0 (fam_n F)))) as [rest E].
    - apply own_nodup.
    - lia.
    - exists rest. rewrite app_nil_r in E. exact E.
  Qed.
End Bfs.

(* ---- enum values ---- *)
Lemma lookup_emplace_same : forall m k v, lookup m k = None -> lookup (emplace m k v) k = Some v.
Proof.
  intros m k v H. unfold emplace. rewrite H. unfold lookup in *. induction m as [|p m IH]; cbn [app find].
  - cbn [fst]. rewrite String.eqb_refl. reflexivity.
  - cbn [find] in H. destruct (String.eqb (fst p) k); [discriminate|]. apply IH, H.
Qed.
Lemma lookup_app : forall m k p, lookup m k <> None -> lookup (m ++ [p]) k = lookup m k.
Proof.
  intros m k p H. unfold lookup in *. induction m as [|a m IH]; cbn [app find] in *; [contradiction|].
  destruct (String.eqb (fst a) k); [reflexivity|]. apply IH, H.
Qed.
Lemma lookup_emplace_other : forall m k v k', k <> k' -> lookup (emplace m k v) k' = lookup m k'.
Proof.
  intros m k v k' N. unfold emplace. destruct (lookup m k); [reflexivity|]. unfold lookup.
  induction m as [|p m IH]; cbn [app find].
  - cbn [fst]. destruct (String.eqb_spec k k'); [contradiction|reflexivity].
  - destruct (String.eqb (fst p) k'); [reflexivity|]. exact IH.
Qed.
Lemma lookup_keep : forall m k v k' u, lookup m k' = Some u -> lookup (emplace m k v) k' = Some u.
Proof.
  intros m k v k' u H. unfold emplace. destruct (lookup m k) eqn:E; [exact H|].
  rewrite lookup_app; [exact H|congruence].
Qed.
Lemma raw_keep : forall names m c k u, lookup m k = Some u -> lookup (raw_def m names c) k = Some u.
Proof. induction names as [|n names IH]; intros m c k u H; cbn [raw_def]; [exact H|]. apply IH, lookup_keep, H. Qed.
Lemma raw_nth : forall names m c i k, NoDup names -> (forall n, In n names -> lookup m n = None) ->
  nth_error names i = Some k -> lookup (raw_def m names c) k = Some (c + Z.of_nat i).
Proof.
  induction names as [|n names IH]; intros m c i k N H E; [destruct i; discriminate|].
  apply NoDup_cons_iff in N as [N1 N2]. cbn [raw_def]. destruct i as [|i]; cbn [nth_error] in E.
  - inversion E; subst. rewrite Z.add_0_r. apply raw_keep, lookup_emplace_same, H. left. reflexivity.
  - rewrite (IH _ _ i k N2); [f_equal; lia| |exact E].
    intros x Hx. rewrite lookup_emplace_other; [apply H; right; exact Hx|]. intros ->. contradiction.
Qed.
Lemma raw_length : forall names m c, NoDup names -> (forall n, In n names -> lookup m n = None) ->
  length (raw_def m names c) = (length m + length names)%nat.
Proof.
  induction names as [|n names IH]; intros m c N H; cbn [raw_def length]; [lia|].
  apply NoDup_cons_iff in N as [N1 N2]. rewrite IH; [|exact N2|].
  - unfold emplace. rewrite (H n (or_introl eq_refl)), app_length. cbn. lia.
  - intros x Hx. rewrite lookup_emplace_other; [apply H; right; exact Hx|]. intros ->. contradiction.
Qed.
Lemma width_fits : forall n i, 0 <= i < n -> 0 <= i < 2 ^ enum_width n.
Proof.
  intros n i H. unfold enum_width. assert (2 ^ Z.log2_up n <= 2 ^ Z.max 1 (Z.log2_up n)).
  { apply Z.pow_le_mono_r; lia. }
  assert (n <= 2 ^ Z.log2_up n); [|lia]. destruct (Z.eq_dec n 1) as [->|]; [reflexivity|].
  apply Z.log2_up_spec. lia.
Qed.
(* distinct enum names: the code of a state is its position *)
Definition names_distinct (F : family) (f : nat) : Prop :=
  NoDup (map (enum_name F (has_child F f)) (all_states F f)).
Lemma nested_flat : forall F f, wf_family F -> has_child F f = false -> forall g, nested F f g -> g = f.
Proof.
  intros F f (_ & _ & W & _) H g N. induction N as [|g p E N IH]; [reflexivity|]. subst p. exfalso.
  assert (has_child F f = true); [|congruence]. unfold has_child. apply existsb_exists. exists g.
  split; [apply in_seq; specialize (W g f E); lia|]. rewrite E. apply Nat.eqb_refl.
Qed.
Lemma member_flat : forall F f, wf_family F -> has_child F f = false -> forall s, member F f s -> f_fsm (fam_state F s) = f.
Proof. intros F f W H s M. destruct M as [s _ E|s c t _ _ N]; [exact E|]. eapply nested_flat; eauto. Qed.
Lemma labels_distinct : forall F f, wf_family F -> distinct_labels F f -> names_distinct F f.
Proof.
  intros F f W D. destruct (states_spec F f W) as (N & M & _). unfold names_distinct.
  assert (forall l, NoDup l -> (forall s, In s l -> member F f s) -> NoDup (map (enum_name F (has_child F f)) l)) as K;
    [|apply K; [exact N|intros s; apply M]].
  induction l as [|a l IH]; intros Nd Ms; [constructor|]. apply NoDup_cons_iff in Nd as [N1 N2]. cbn [map].
  constructor; [|apply IH; [exact N2|intros s Hs; apply Ms; right; exact Hs]].
  intros I. apply in_map_iff in I as (b & E & I). apply N1.
  assert (member F f a) as Ma by (apply Ms; left; reflexivity).
  assert (member F f b) as Mb by (apply Ms; right; exact I).
  rewrite (D a b Ma Mb); [exact I|]. unfold qualified, enum_name, name_of in *. destruct (has_child F f) eqn:H.
  - symmetry. exact E.
  - rewrite (member_flat F f W H a Ma), (member_flat F f W H b Mb), E. reflexivity.
Qed.
Lemma code_nth : forall F f i s, names_distinct F f -> nth_error (all_states F f) i = Some s ->
  e_code (encode F f) s = Z.of_nat i.
Proof.
  intros F f i s N E. cbn [encode e_code].
  rewrite (raw_nth _ [] 0 i _ N); [reflexivity|reflexivity|].
  apply map_nth_error, E.
Qed.
Lemma code_range : forall F f s, names_distinct F f -> In s (all_states F f) ->
  0 <= e_code (encode F f) s < Z.of_nat (length (all_states F f)).
Proof.
  intros F f s N I. destruct (In_nth_error _ _ I) as [i E]. rewrite (code_nth F f i s N E).
  assert (i < length (all_states F f))%nat by (apply nth_error_Some; congruence). lia.
Qed.
Lemma code_inj : forall F f a b, names_distinct F f -> In a (all_states F f) -> In b (all_states F f) ->
  e_code (encode F f) a = e_code (encode F f) b -> a = b.
Proof.
  intros F f a b N Ia Ib E. destruct (In_nth_error _ _ Ia) as [i Ei], (In_nth_error _ _ Ib) as [j Ej].
  rewrite (code_nth F f i a N Ei), (code_nth F f j b N Ej) in E. assert (i = j) by lia. subst. congruence.
Qed.
