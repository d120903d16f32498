(* Properties C462-C467: the children of state machines. *)
From Verif Require Import Base Kid_spec Kid_model Kid_proofs.
Local Open Scope nat_scope.

Definition enough (h : history) (fuel : nat) : Prop := 2 + length h <= fuel.

Lemma way_nonempty child r l : way child r l -> exists v m, l = v :: m.
Proof. destruct 1; eauto. Qed.
Lemma way_ext (c1 c2 : nat -> nat -> Prop) : (forall p c, c1 p c <-> c2 p c) -> forall r l, way c1 r l -> way c2 r l.
Proof. intros E r l W. induction W as [|v w l W I C]; constructor; [exact I|apply E, C]. Qed.
Lemma way_kids gen h r l : way (fun p c => In c (kids (run gen h) p)) r l <-> way (child_of gen h) r l.
Proof. split; apply way_ext; intros p c; [|symmetry]; apply run_kids. Qed.
Lemma kids_nodup gen h p : NoDup (kids (run gen h) p).
Proof. apply asc_nodup, run_asc. Qed.

(* the walk over the children ends, whatever the hierarchy, circles included *)
Theorem C462_ends : forall gen h r, exists o, forall fuel, enough h fuel -> all_children fuel (run gen h) r = Some o.
Proof.
  intros gen h r.
  destruct (walk_stops (run gen h) r (kids_nodup gen h) (r :: map snd h)) with (fuel := 2 + length h) (q := [r]) (vis := @nil nat) (res := @nil nat)
    as (o & O).
  - intros p c C. apply run_kids in C. destruct C as [C _]. right. apply in_map_iff. exists (p, c). auto.
  - constructor.
  - intros x [].
  - intros x [<-|[]]. left. reflexivity.
  - cbn [length]. rewrite map_length. lia.
  - exists o. intros fuel F. apply O, F.
Qed.
Example C462_ex :
  all_children 4 (run (fun _ => 0) [(0, 1); (1, 0)]) 0 = Some Throw /\
  all_children 7 (run (fun _ => 0) [(0, 2); (0, 1); (1, 4); (2, 3); (9, 5)]) 0 = Some (Ok [0; 1; 2; 4; 3]).
Proof. split; reflexivity. Qed.

(* an answer lists the state machine and those below it, each once, every one after its parents *)
Theorem C463_answer : forall gen h r fuel l, all_children fuel (run gen h) r = Some (Ok l) ->
  NoDup l /\ (forall d, In d l <-> below (child_of gen h) r d) /\
  (forall p c, In p l -> child_of gen h p c -> before l p c).
Proof.
  intros gen h r fuel l H.
  destruct (walk_end (run gen h) r (kids_nodup gen h) fuel [] [[r]] [] (Ok l)) as [(D & I & E)|(E & _)].
  - apply inv_start.
  - cbn. tauto.
  - exact H.
  - assert (E' : l = map hd0 D) by congruence. subst l. clear E. split; [apply (i_heads _ _ _ _ I)|].
    assert (A := inv_end_all _ _ _ I).
    assert (Mem : forall d, In d (map hd0 D) <-> below (child_of gen h) r d).
    { intros d. split.
      - intros K. apply in_map_iff in K. destruct K as (p & <- & K).
        assert (W : way (fun p c => In c (kids (run gen h) p)) r p) by (apply (i_way _ _ _ _ I), in_app_iff; left; exact K).
        apply way_kids in W. destruct (way_nonempty _ _ _ W) as (v & m & ->). exists m. exact W.
      - intros (m & W). apply way_kids in W. apply A in W. apply in_map_iff. exists (d :: m). split; [reflexivity|exact W]. }
    split; [exact Mem|]. intros p c Hp Hc. apply Mem in Hp. destruct Hp as (m & W).
    assert (W' : way (child_of gen h) r (c :: p :: m)) by (constructor; assumption).
    apply way_kids in W'. apply A in W'. apply in_split in W'. destruct W' as (D1 & D2 & E).
    assert (K := i_order _ _ _ _ I _ _ _ _ _ E). apply in_split in K. destruct K as (D3 & D4 & E').
    exists (map hd0 D3), (map hd0 D4), (map hd0 D2). rewrite E, E'.
    rewrite <- app_assoc, !map_app. cbn [app map]. reflexivity.
  - discriminate.
Qed.
Example C463_ex :
  let h := [(0, 2); (0, 1); (1, 4); (2, 3); (9, 5)] in
  all_children 7 (run (fun _ => 0) h) 0 = Some (Ok [0; 1; 2; 4; 3]) /\
  child_of (fun _ => 0) h 2 3 /\ before [0; 1; 2; 4; 3] 2 3.
Proof.
  cbv zeta. split; [reflexivity|]. split.
  - split; [|reflexivity]. cbn. tauto.
  - exists [0; 1], [4], []. reflexivity.
Qed.

(* there is an answer exactly when no state machine can be reached in two ways *)
Theorem C464_iff : forall gen h r fuel, enough h fuel ->
  (tree_from (child_of gen h) r <-> exists l, all_children fuel (run gen h) r = Some (Ok l)) /\
  (~ tree_from (child_of gen h) r <-> all_children fuel (run gen h) r = Some Throw).
Proof.
  intros gen h r fuel F. destruct (C462_ends gen h r) as (o & O). specialize (O fuel F).
  destruct (walk_end (run gen h) r (kids_nodup gen h) fuel [] [[r]] [] o) as [(D & I & E)|(E & d & l1 & l2 & W1 & W2 & N)].
  - apply inv_start.
  - cbn. tauto.
  - exact O.
  - assert (T : tree_from (child_of gen h) r).
    { intros d l1 l2 W1 W2. apply way_kids in W1. apply way_kids in W2.
      assert (A := inv_end_all _ _ _ I). apply A in W1. apply A in W2.
      assert (K : d :: l1 = d :: l2) by (apply (nodup_map_inj _ _ hd0 D); [apply (i_heads _ _ _ _ I)|exact W1|exact W2|reflexivity]).
      congruence. }
    rewrite O, E. split; split; intros; eauto; [tauto|congruence].
  - assert (T : ~ tree_from (child_of gen h) r).
    { intros T. apply N. apply way_kids in W1. apply way_kids in W2. apply (T d); assumption. }
    rewrite O, E. split; split; intros; auto; [tauto|]. destruct H as (l & H). discriminate.
Qed.
(* so a circle below the state machine is always reported *)
Theorem C464_circle : forall gen h r v fuel, enough h fuel -> below (child_of gen h) r v -> circular (child_of gen h) v ->
  all_children fuel (run gen h) r = Some Throw.
Proof.
  intros gen h r v fuel F (l & W) (w & C & (m & B)). apply C464_iff; [exact F|]. intros T.
  assert (G : forall k, way (child_of gen h) w k -> way (child_of gen h) r (k ++ v :: l)).
  { intros k K. induction K as [|a b k K I C']; cbn; constructor; assumption. }
  apply G in B. assert (E := T v _ _ W B). apply (f_equal (@length nat)) in E. rewrite app_length in E. cbn in E. lia.
Qed.
Example C464_ex :
  enough [(0, 1); (1, 2); (2, 1)] 5 /\ below (child_of (fun _ => 0) [(0, 1); (1, 2); (2, 1)]) 0 1 /\
  circular (child_of (fun _ => 0) [(0, 1); (1, 2); (2, 1)]) 1.
Proof.
  split; [unfold enough; cbn; lia|]. split.
  - exists [0]. apply way_down; [constructor|]. split; cbn; auto.
  - exists 2. split; [split; cbn; auto|]. exists [2]. apply way_down; [constructor|]. split; cbn; auto.
Qed.

(* if no state machine is made a child twice and there is no circle, there is an answer, and the parent of every
   child is the state machine it was added to *)
Theorem C465_once : forall gen h r fuel, NoDup (map snd h) -> (forall v, ~ circular (child_of gen h) v) -> enough h fuel ->
  (exists l, all_children fuel (run gen h) r = Some (Ok l)) /\
  (forall p c, parent (run gen h) c = Some p <-> child_of gen h p c).
Proof.
  intros gen h r fuel N C F.
  assert (U : forall p q c, child_of gen h p c -> child_of gen h q c -> p = q).
  { intros p q c [A _] [B _]. assert (K := nodup_map_inj _ _ snd h _ _ N A B eq_refl). congruence. }
  split.
  - apply C464_iff; [exact F|].
    assert (NC : forall l, way (child_of gen h) r (r :: l) -> l = []).
    { intros l W.
      assert (G : forall k, way (child_of gen h) r k -> forall v m, k = v :: m -> m = [] \/
                  exists w, child_of gen h r w /\ below (child_of gen h) w v).
      { intros k K. induction K as [|a b k K I Cd]; intros v m E; inversion E; subst; [auto|]. right.
        destruct (I _ _ eq_refl) as [->|(w & W1 & (m' & W2))].
        - inversion K; subst. exists v. split; [exact Cd|]. exists []. constructor.
        - exists w. split; [exact W1|]. exists (a :: m'). constructor; assumption. }
      destruct (G _ W _ _ eq_refl) as [|X]; [assumption|]. exfalso. apply (C r). exact X. }
    assert (G : forall k1, way (child_of gen h) r k1 -> forall k2, way (child_of gen h) r k2 -> hd0 k1 = hd0 k2 -> k1 = k2).
    { intros k1 K1. induction K1 as [|a b k1 K1 I Cd]; intros k2 K2 E.
      - destruct (way_nonempty _ _ _ K2) as (v & m & ->). cbn in E. subst v. rewrite (NC _ K2). reflexivity.
      - destruct K2 as [|a' b' k2 K2 Cd'].
        + cbn in E. subst b. assert (X : a :: k1 = []) by (apply NC; constructor; assumption). discriminate.
        + cbn in E. subst b'. assert (a = a') by (eapply U; eassumption). subst a'. f_equal. apply I; [exact K2|reflexivity]. }
    intros d l1 l2 W1 W2. assert (E := G _ W1 _ W2 eq_refl). congruence.
  - intros p c. split; [apply run_parent|]. intros H. destruct (run_parent_some _ _ _ _ H) as (q & Q).
    rewrite Q. f_equal. apply (U q p c); [apply run_parent, Q|exact H].
Qed.
Example C465_ex :
  let h := [(0, 2); (0, 1); (1, 4); (2, 3)] in
  NoDup (map snd h) /\ (forall v, ~ circular (child_of (fun _ => 0) h) v) /\
  parent (run (fun _ => 0) h) 3 = Some 2.
Proof.
  cbv zeta. split; [|split; [|reflexivity]].
  - cbn. repeat constructor; cbn; intuition lia.
  - assert (L : forall p c, child_of (fun _ => 0) [(0, 2); (0, 1); (1, 4); (2, 3)] p c -> p < c).
    { intros p c [K _]. cbn in K. intuition; match goal with H : (_, _) = (_, _) |- _ => inversion H end; lia. }
    assert (B : forall r l, way (child_of (fun _ => 0) [(0, 2); (0, 1); (1, 4); (2, 3)]) r l -> r <= hd0 l).
    { intros r l W. induction W as [|v w l W I C]; cbn in *; [lia|]. apply L in C. lia. }
    intros v (w & C & (l & W)). apply L in C. apply B in W. cbn in W. lia.
Qed.

(* C466: a circular dependency is reported only when there is one.  Refuted: any state machine with two parents that are
   both below the root is taken for one *)
Theorem C466_shared_refuted :
  (forall (gen : nat -> nat) h r p q c fuel, enough h fuel -> p <> q ->
     below (child_of gen h) r p -> below (child_of gen h) r q -> child_of gen h p c -> child_of gen h q c ->
     all_children fuel (run gen h) r = Some Throw) /\
  ~ (forall (gen : nat -> nat) h r fuel, all_children fuel (run gen h) r = Some Throw ->
       exists v, circular (child_of gen h) v).
Proof.
  split.
  - intros gen h r p q c fuel F N (l & Wp) (m & Wq) Cp Cq. apply C464_iff; [exact F|]. intros T.
    assert (E : p :: l = q :: m) by (apply (T c); constructor; assumption). congruence.
  - intros H. specialize (H (fun _ => 0) [(0, 1); (0, 2); (1, 3); (2, 3)] 0 6 eq_refl).
    destruct H as (v & w & C & (l & W)).
    assert (L : forall p c, child_of (fun _ => 0) [(0, 1); (0, 2); (1, 3); (2, 3)] p c -> p < c).
    { intros p d [K _]. cbn in K. intuition; match goal with H : (_, _) = (_, _) |- _ => inversion H end; lia. }
    assert (B : forall r l, way (child_of (fun _ => 0) [(0, 1); (0, 2); (1, 3); (2, 3)]) r l -> r <= hd0 l).
    { intros r l' W'. induction W' as [|a b l' W' I C']; cbn in *; [lia|]. apply L in C'. lia. }
    apply L in C. apply B in W. cbn in W. lia.
Qed.

(* C467: the parent of a state machine is the one that has it as a child.  Refuted: adding it to another one changes its
   parent and leaves it a child of the first *)
Theorem C467_two_parents_refuted :
  (forall (gen : nat -> nat) h p q c, gen p = gen c -> gen q = gen c ->
     let s := run gen (h ++ [(p, c); (q, c)]) in
     parent s c = Some q /\ In c (kids s p) /\ In c (kids s q)) /\
  ~ (forall (gen : nat -> nat) h p c, In c (kids (run gen h) p) -> parent (run gen h) c = Some p).
Proof.
  split.
  - intros gen h p q c Gp Gq. cbv zeta. split.
    + change [(p, c); (q, c)] with ([(p, c)] ++ [(q, c)]). rewrite app_assoc, run_app. unfold step, add_child. cbn [fst snd].
      rewrite Gq, Nat.eqb_refl. cbn [parent]. rewrite Nat.eqb_refl. reflexivity.
    + split; apply run_kids; (split; [|assumption]); apply in_app_iff; cbn; auto.
  - intros H. specialize (H (fun _ => 0) [(0, 2); (1, 2)] 0 2). assert (K : Some 1 = Some 0) by (apply H; cbn; auto). discriminate.
Qed.
Example C466_C467_ex :
  all_children 6 (run (fun _ => 0) [(0, 1); (0, 2); (1, 3); (2, 3)]) 0 = Some Throw /\
  parent (run (fun _ => 0) [(0, 1); (0, 2); (1, 3); (2, 3)]) 3 = Some 2.
Proof. split; reflexivity. Qed.
Print Assumptions C462_ends.
Print Assumptions C463_answer.
Print Assumptions C464_iff.
Print Assumptions C464_circle.
Print Assumptions C465_once.
Print Assumptions C466_shared_refuted.
Print Assumptions C467_two_parents_refuted.
