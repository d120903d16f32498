From Verif Require Import Base Fso_spec Fso_model.
From Coq Require Import Permutation.
Local Open Scope list_scope.

Lemma find_none_iff : forall A (l : list (nat * A)) k, find_in l k = None <-> ~ In k (map fst l).
Proof.
  intros A l k. unfold find_in. induction l as [|[j a] l IH]; cbn; [split; [intros _ []|reflexivity]|]. destruct (Nat.eqb_spec j k) as [->|N]; cbn.
  - split; [discriminate|intros H; exfalso; apply H; left; reflexivity].
  - rewrite IH. split; intros H; [intros [X|X]; [exact (N X)|exact (H X)]|intros X; apply H; right; exact X].
Qed.
Lemma find_first : forall A (l : list (nat * A)) k a, find_in l k = Some a <-> first l k a.
Proof.
  intros A l k a. unfold find_in. induction l as [|[j b] l IH]; cbn; [split; [discriminate|intros (l1 & l2 & E & _); destruct l1; discriminate E]|].
  destruct (Nat.eqb_spec j k) as [->|N]; cbn.
  - split; [intros H; injection H as ->; exists [], l; split; [reflexivity|intros []]|]. intros (l1 & l2 & E & H). destruct l1 as [|[i c] l1]; injection E as; [congruence|]. exfalso. apply H. left. cbn. congruence.
  - rewrite IH. split; intros (l1 & l2 & E & H).
    + exists ((j, b) :: l1), l2. split; [rewrite E; reflexivity|]. intros [X|X]; [exact (N X)|exact (H X)].
    + destruct l1 as [|[i c] l1]; injection E as; [congruence|]. exists l1, l2. split; [assumption|]. intros X. apply H. right. exact X.
Qed.
Lemma find_snoc : forall A (l : list (nat * A)) k a j, find_in (l ++ [(k, a)]) j = match find_in l j with Some b => Some b | None => if Nat.eqb k j then Some a else None end.
Proof. intros A l k a j. unfold find_in. induction l as [|[i b] l IH]; cbn; [destruct (Nat.eqb k j); reflexivity|]. destruct (Nat.eqb i j); [reflexivity|exact IH]. Qed.
Lemma after_snoc : forall h a, after (h ++ [a]) = fst (run (after h) a).
Proof. intros h a. unfold after. rewrite fold_left_app. reflexivity. Qed.
Lemma nodup_snoc : forall (l : list nat) c, NoDup l -> ~ In c l -> NoDup (l ++ [c]).
Proof. intros l c Nd H. apply (Permutation_NoDup (Permutation_cons_append _ _)). constructor; assumption. Qed.

Lemma after_find : forall h, (forall v, find_in (s_outs (after h)) v = find_in (declares h) v) /\ (forall v, find_in (s_vals (after h)) v = find_in (gives h) v)
  /\ NoDup (map fst (s_outs (after h))) /\ NoDup (map fst (s_vals (after h))) /\ s_order (after h) = map fst (s_vals (after h)).
Proof.
  intros h. induction h as [|a h (A & B & C & D & E)] using rev_ind; [repeat split; constructor|]. rewrite after_snoc. unfold declares, gives. rewrite !flat_map_app. fold (declares h) (gives h). destruct a as [v d|v x]; cbn [flat_map run].
  - cbn [app]. rewrite !app_nil_r. unfold declare. destruct (find_in (s_outs (after h)) v) as [b|] eqn:F; cbn [fst s_outs s_vals s_order].
    + repeat split; try assumption. intros w. rewrite find_snoc, <- A. destruct (Nat.eqb_spec v w) as [<-|]; [rewrite F; reflexivity|]. destruct (find_in (s_outs (after h)) w); reflexivity.
    + repeat split; try assumption; [intros w; rewrite !find_snoc, <- A; reflexivity|]. rewrite map_app. apply nodup_snoc; [exact C|apply find_none_iff; exact F].
  - cbn [app]. rewrite !app_nil_r. unfold give. destruct (find_in (s_vals (after h)) v) as [b|] eqn:F; cbn [fst s_outs s_vals s_order].
    + repeat split; try assumption. intros w. rewrite find_snoc, <- B. destruct (Nat.eqb_spec v w) as [<-|]; [rewrite F; reflexivity|]. destruct (find_in (s_vals (after h)) w); reflexivity.
    + repeat split; try assumption; [intros w; rewrite !find_snoc, <- B; reflexivity| |]; rewrite map_app; [apply nodup_snoc; [exact D|apply find_none_iff; exact F]|rewrite E; reflexivity].
Qed.
Lemma find_perm : forall A (l m : list (nat * A)) k, Permutation l m -> NoDup (map fst l) -> find_in l k = find_in m k.
Proof.
  intros A l m k Pm Nd. destruct (find_in m k) as [a|] eqn:E.
  - apply find_first in E. destruct E as (l1 & l2 & -> & _). assert (Hi : In (k, a) l) by (apply (Permutation_in _ (Permutation_sym Pm)), in_or_app; right; left; reflexivity). clear Pm l1 l2.
    unfold find_in. induction l as [|[j b] l IH]; [destruct Hi|]. cbn in *. inversion Nd as [|x y N1 N2]; subst. destruct Hi as [Hi|Hi]; [injection Hi as -> ->; rewrite Nat.eqb_refl; reflexivity|].
    destruct (Nat.eqb_spec j k) as [->|]; [|exact (IH N2 Hi)]. exfalso. apply N1. change k with (fst (k, a)). apply in_map, Hi.
  - apply find_none_iff in E. apply find_none_iff. intros X. apply E. exact (Permutation_in _ (Permutation_map _ Pm) X).
Qed.
(* filling in: the values there are stay, the others become their defaults *)
Lemma fill_ok : forall outs s, NoDup (map fst outs) -> NoDup (map fst (s_vals s)) -> s_order s = map fst (s_vals s) ->
  let r := fill outs s in
  NoDup (map fst (s_vals (fst r))) /\ s_order (fst r) = map fst (s_vals (fst r)) /\ s_outs (fst r) = s_outs s /\
  ((exists v, find_in outs v = Some None /\ find_in (s_vals s) v = None) /\ snd r = Throw \/
   (forall v, find_in outs v = Some None -> find_in (s_vals s) v <> None) /\ snd r = Ok tt /\
   forall v, find_in (s_vals (fst r)) v = match find_in (s_vals s) v with Some x => Some x | None => match find_in outs v with Some d => d | None => None end end).
Proof.
  induction outs as [|[v d] outs IH]; intros s No Ns Or; cbv zeta.
  - cbn [fill fst snd]. repeat split; try assumption. right. split; [discriminate|]. split; [reflexivity|]. intros v. destruct (find_in (s_vals s) v); reflexivity.
  - inversion No as [|x y N1 N2]; subst. cbn [fill]. assert (Fv : forall w, find_in ((v, d) :: outs) w = if Nat.eqb v w then Some d else find_in outs w) by (intros w; unfold find_in; cbn; destruct (Nat.eqb v w); reflexivity).
    assert (Nv : find_in outs v = None) by (apply find_none_iff; exact N1). destruct (find_in (s_vals s) v) as [x|] eqn:F.
    + destruct (IH s N2 Ns Or) as (A & B & C & D). repeat split; try assumption. destruct D as [((w & W1 & W2) & D)|(D1 & D2 & D3)].
      * left. split; [|exact D]. exists w. rewrite Fv. destruct (Nat.eqb_spec v w) as [<-|]; [congruence|]. split; assumption.
      * right. split; [intros w; rewrite Fv; destruct (Nat.eqb_spec v w) as [<-|]; [congruence|apply D1]|]. split; [exact D2|]. intros w. rewrite D3, Fv. destruct (Nat.eqb_spec v w) as [<-|]; [rewrite F; reflexivity|reflexivity].
    + destruct d as [x|].
      * unfold give. rewrite F. set (s1 := {| s_outs := s_outs s; s_vals := s_vals s ++ [(v, x)]; s_order := s_order s ++ [v] |}).
        assert (F1 : forall w, find_in (s_vals s1) w = match find_in (s_vals s) w with Some b => Some b | None => if Nat.eqb v w then Some x else None end) by (intros w; apply find_snoc).
        destruct (IH s1 N2) as (A & B & C & D); [cbn; rewrite map_app; apply nodup_snoc; [exact Ns|apply find_none_iff; exact F]|cbn; rewrite map_app, Or; reflexivity|].
        repeat split; try assumption. destruct D as [((w & W1 & W2) & D)|(D1 & D2 & D3)].
        -- left. split; [|exact D]. exists w. rewrite Fv. rewrite F1 in W2. destruct (Nat.eqb_spec v w) as [<-|]; [congruence|]. split; [exact W1|]. destruct (find_in (s_vals s) w); [discriminate W2|reflexivity].
        -- right. split; [intros w; rewrite Fv; destruct (Nat.eqb_spec v w) as [<-|Nw]; [discriminate|]; intros X; specialize (D1 w X); rewrite F1 in D1; destruct (Nat.eqb_spec v w); [contradiction|]; destruct (find_in (s_vals s) w); congruence|].
           split; [exact D2|]. intros w. rewrite D3, F1, Fv. destruct (find_in (s_vals s) w) eqn:G; [reflexivity|]. destruct (Nat.eqb_spec v w) as [<-|]; reflexivity.
      * cbn [fst snd]. repeat split; try assumption. left. split; [|reflexivity]. exists v. rewrite Fv, Nat.eqb_refl. split; [reflexivity|exact F].
Qed.
Lemma find_in_In : forall A (l : list (nat * A)) k a, NoDup (map fst l) -> (find_in l k = Some a <-> In (k, a) l).
Proof.
  intros A l k a Nd. split.
  - intros H. apply find_first in H. destruct H as (l1 & l2 & -> & _). apply in_or_app. right. left. reflexivity.
  - intros Hi. unfold find_in. induction l as [|[j b] l IH]; [destruct Hi|]. cbn in *. inversion Nd as [|x y N1 N2]; subst. destruct Hi as [Hi|Hi]; [injection Hi as -> ->; rewrite Nat.eqb_refl; reflexivity|].
    destruct (Nat.eqb_spec j k) as [->|]; [|exact (IH N2 Hi)]. exfalso. apply N1. change k with (fst (k, a)). apply in_map, Hi.
Qed.
Lemma value_find : forall h v x, value h v x <-> match find_in (gives h) v with Some y => Some y | None => match find_in (declares h) v with Some d => d | None => None end end = Some x.
Proof.
  intros h v x. unfold value. rewrite <- find_first, <- find_none_iff, <- find_first. destruct (find_in (gives h) v) as [y|].
  - split; [intros [H|(H & _)]; [exact H|discriminate H]|intros H; left; exact H].
  - split; [intros [H|(_ & H)]; [discriminate H|rewrite H; reflexivity]|]. intros H. right. split; [reflexivity|]. destruct (find_in (declares h) v); [congruence|discriminate H].
Qed.
Lemma after_order : forall h, s_order (after h) = given_order h.
Proof.
  induction h as [|a h IH] using rev_ind; [reflexivity|]. destruct (after_find h) as (_ & B & _). rewrite after_snoc. unfold given_order, gives in *. rewrite flat_map_app. fold (gives h) in *. destruct a as [v d|v x]; cbn [flat_map run app].
  - rewrite !app_nil_r. unfold declare. destruct (find_in (s_outs (after h)) v); exact IH.
  - unfold give. rewrite B, map_app, rev_app_distr. cbn [map rev app fst nodup]. destruct (find_in (gives h) v) as [b|] eqn:F.
    + destruct (in_dec Nat.eq_dec v (rev (map fst (gives h)))) as [|N]; [exact IH|]. exfalso. rewrite <- in_rev in N. apply find_none_iff in N. congruence.
    + cbn [fst s_order]. destruct (in_dec Nat.eq_dec v (rev (map fst (gives h)))) as [Y|]; [exfalso; rewrite <- in_rev in Y; apply find_none_iff in F; exact (F Y)|]. cbn [rev]. rewrite IH. reflexivity.
Qed.
Lemma fill_order : forall outs s, exists t, s_order (fst (fill outs s)) = s_order s ++ t.
Proof.
  induction outs as [|[v d] outs IH]; intros s; cbn [fill]; [exists []; rewrite app_nil_r; reflexivity|]. destruct (find_in (s_vals s) v) eqn:F; [apply IH|].
  destruct d as [x|]; [|exists []; rewrite app_nil_r; reflexivity]. unfold give. rewrite F. destruct (IH {| s_outs := s_outs s; s_vals := s_vals s ++ [(v, x)]; s_order := s_order s ++ [v] |}) as (t & ->). exists (v :: t). cbn [s_order]. rewrite <- app_assoc. reflexivity.
Qed.
