From Verif Require Import Base Fso_spec Fso_model Fso_proofs.
From Coq Require Import Permutation.
Local Open Scope list_scope.

(* C524: whatever the calls were, and in whatever order the table of outputs is gone through, the check of a state passes just where every declared output
   has a value (the first it was given, or else the default of its first declaration) and every variable that was given a value is declared. *)
Theorem C524_passes : forall h outs, Permutation outs (s_outs (after h)) ->
  snd (check_outputs outs (after h)) =
    Ok tt <-> (forall v, In v (map fst (declares h)) -> exists x, value h v x) /\ (forall v, In v (map fst (gives h)) -> In v (map fst (declares h))).
Proof.
  intros h outs Pm. destruct (after_find h) as (A & B & C & D & E). assert (No : NoDup (map fst outs)) by (apply (Permutation_NoDup (Permutation_map fst (Permutation_sym Pm))); exact C).
  assert (Fo : forall v, find_in outs v = find_in (declares h) v) by (intros v; rewrite (find_perm _ outs _ v Pm No); apply A).
  assert (In_find : forall T (l : list (nat * T)) v, In v (map fst l) -> exists a, find_in l v = Some a) by (intros T l v H; destruct (find_in l v) as [a|] eqn:F; [exists a; reflexivity|]; apply find_none_iff in F; contradiction).
  assert (Find_in : forall T (l : list (nat * T)) v a, find_in l v = Some a -> In v (map fst l)) by (intros T l v a H; destruct (in_dec Nat.eq_dec v (map fst l)) as [|N]; [assumption|]; apply find_none_iff in N; congruence).
  unfold check_outputs. destruct (fill_ok outs (after h) No D E) as (F1 & F2 & F3 & F4). destruct (fill outs (after h)) as [s' o]. cbn [fst snd] in *.
  destruct F4 as [((w & W1 & W2) & ->)|(G1 & -> & G3)].
  - split; [discriminate|]. intros (H & _). rewrite Fo in W1. rewrite B in W2. destruct (H w (Find_in _ _ _ _ W1)) as (x & X). apply value_find in X. rewrite W2, W1 in X. discriminate X.
  - assert (Val : forall v, In v (map fst (declares h)) -> exists x, value h v x).
    { intros v H. apply In_find in H. destruct H as (d & H). destruct (find_in (gives h) v) as [y|] eqn:Y; [exists y; apply value_find; rewrite Y; reflexivity|]. destruct d as [x|]; [exists x; apply value_find; rewrite Y, H; reflexivity|].
      exfalso. apply (G1 v); [rewrite Fo; exact H|rewrite B; exact Y]. }
    destruct (forallb _ _) eqn:Fa; cbn [snd].
    + split; [|reflexivity]. intros _. split; [exact Val|]. intros v H. apply In_find in H. destruct H as (y & H). rewrite forallb_forall in Fa. assert (X : In (v, y) (s_vals s')) by (apply find_in_In; [exact F1|]; rewrite G3, B, H; reflexivity).
      specialize (Fa _ X). cbn [fst] in Fa. rewrite Fo in Fa. destruct (find_in (declares h) v) eqn:Q; [exact (Find_in _ _ _ _ Q)|discriminate Fa].
    + split; [discriminate|]. intros (_ & H). exfalso. assert (X : forallb (fun e => match find_in outs (fst e) with Some _ => true | None => false end) (s_vals s') = true); [|congruence].
      apply forallb_forall. intros [v y] Hi. cbn [fst]. apply find_in_In in Hi; [|exact F1]. rewrite G3, B, Fo in Hi. rewrite Fo. destruct (find_in (declares h) v) eqn:Q; [reflexivity|]. destruct (find_in (gives h) v) eqn:R; [|discriminate Hi].
      apply find_none_iff in Q. exfalso. apply Q, H. exact (Find_in _ _ _ _ R).
Qed.
(* ... otherwise it throws. *)
Theorem C524_throws : forall h outs, Permutation outs (s_outs (after h)) -> snd (check_outputs outs (after h)) <> Ok tt -> snd (check_outputs outs (after h)) = Throw.
Proof.
  intros h outs Pm H. destruct (after_find h) as (A & B & C & D & E). assert (No : NoDup (map fst outs)) by (apply (Permutation_NoDup (Permutation_map fst (Permutation_sym Pm))); exact C).
  unfold check_outputs in *. destruct (fill_ok outs (after h) No D E) as (_ & _ & _ & F4). destruct (fill outs (after h)) as [s' o]. cbn [fst snd] in *.
  destruct F4 as [(_ & ->)|(_ & -> & _)]; [reflexivity|]. destruct (forallb _ _); [exfalso; apply H; reflexivity|reflexivity].
Qed.
(* ... and what the state then assigns is the value of each output, once, the given ones first and in the order they were given. *)
Theorem C524_values : forall h outs s', Permutation outs (s_outs (after h)) -> check_outputs outs (after h) = (s', Ok tt) ->
  (forall v x, In (v, x) (s_vals s') <-> value h v x) /\ s_order s' = map fst (s_vals s') /\ NoDup (s_order s') /\ exists t, s_order s' = given_order h ++ t.
Proof.
  intros h outs s' Pm H. destruct (after_find h) as (A & B & C & D & E). assert (No : NoDup (map fst outs)) by (apply (Permutation_NoDup (Permutation_map fst (Permutation_sym Pm))); exact C).
  unfold check_outputs in H. destruct (fill_ok outs (after h) No D E) as (F1 & F2 & F3 & F4). destruct (fill_order outs (after h)) as (t & T). destruct (fill outs (after h)) as [s1 o]. cbn [fst snd] in *.
  destruct F4 as [(_ & ->)|(G1 & -> & G3)]; [discriminate H|]. destruct (forallb _ _); [|discriminate H]. injection H as <-. split; [|split; [exact F2|split; [rewrite F2; exact F1|exists t; rewrite <- after_order; exact T]]].
  intros v x. rewrite <- (find_in_In _ _ v x F1), G3, B, (find_perm _ outs _ v Pm No), A. symmetry. apply value_find.
Qed.
Example C524_ex : let h := [Declare 1 (Some 7); Declare 2 None; Give 2 5; Declare 3 (Some 8); Give 3 6]%nat in
  check_outputs (s_outs (after h)) (after h) = ({| s_outs := [(1, Some 7); (2, None); (3, Some 8)]; s_vals := [(2, 5); (3, 6); (1, 7)]; s_order := [2; 3; 1] |}, Ok tt)%nat.
Proof. reflexivity. Qed.
Example C524_ex_throws : let h := [Declare 1 (Some 7); Declare 2 None]%nat in snd (check_outputs (s_outs (after h)) (after h)) = Throw /\ let k := [Give 4 1]%nat in snd (check_outputs (s_outs (after k)) (after k)) = Throw.
Proof. split; reflexivity. Qed.

(* C525: a value for a variable that has one in the state is refused, whatever it is, and changes nothing; any other is taken. *)
Theorem C525_again : forall h v x, (In v (map fst (gives h)) -> run (after h) (Give v x) = (after h, Throw)) /\
  (~ In v (map fst (gives h)) -> snd (run (after h) (Give v x)) = Ok tt /\ s_vals (after (h ++ [Give v x])) = s_vals (after h) ++ [(v, x)]).
Proof.
  intros h v x. destruct (after_find h) as (_ & B & _). rewrite after_snoc. cbn [run]. unfold give. rewrite B. split; intros H.
  - destruct (find_in (gives h) v) eqn:F; [reflexivity|]. apply find_none_iff in F. contradiction.
  - apply find_none_iff in H. rewrite H. split; reflexivity.
Qed.
Example C525_ex : run (after [Give 1 2; Give 3 4]%nat) (Give 1 2) = (after [Give 1 2; Give 3 4]%nat, Throw).
Proof. reflexivity. Qed.

(* C526: declaring an output again changes nothing and is not refused; so a default that comes with a later declaration is lost. *)
Theorem C526_default_refuted :
  (forall h v d, In v (map fst (declares h)) -> run (after h) (Declare v d) = (after h, Ok tt)) /\
  ~ (forall h v x, (forall w, In w (map fst (declares h)) -> w = v) -> gives h = [] ->
       let h' := h ++ [Declare v (Some x)] in snd (check_outputs (s_outs (after h')) (after h')) = Ok tt).
Proof.
  split.
  - intros h v d H. destruct (after_find h) as (A & _). cbn [run]. unfold declare. rewrite A. destruct (find_in (declares h) v) eqn:F; [reflexivity|]. apply find_none_iff in F. contradiction.
  - intros H. specialize (H [Declare 1 None]%nat 1%nat 7%nat). cbn in H. assert (X : @Throw unit = Ok tt); [|discriminate X]. apply H; [intros w [<-|[]]; reflexivity|reflexivity].
Qed.
Example C526_ex : run (after [Declare 1 None]%nat) (Declare 1 (Some 7))%nat = (after [Declare 1 None]%nat, Ok tt).
Proof. reflexivity. Qed.

(* C527: where at most one declared output is without a value of its own, the order of the assignments does not depend on the table; with two it does. *)
Theorem C527_order_refuted :
  (forall h outs outs' s s', Permutation outs (s_outs (after h)) -> Permutation outs' (s_outs (after h)) ->
     check_outputs outs (after h) = (s, Ok tt) -> check_outputs outs' (after h) = (s', Ok tt) ->
     (forall v w, In v (map fst (declares h)) -> In w (map fst (declares h)) -> ~ In v (map fst (gives h)) -> ~ In w (map fst (gives h)) -> v = w) -> s_order s = s_order s') /\
  ~ (forall h outs outs' s s', Permutation outs (s_outs (after h)) -> Permutation outs' (s_outs (after h)) ->
     check_outputs outs (after h) = (s, Ok tt) -> check_outputs outs' (after h) = (s', Ok tt) -> s_order s = s_order s').
Proof.
  split.
  - intros h outs outs' s s' P1 P2 H1 H2 U. destruct (C524_values h outs s P1 H1) as (V1 & O1 & N1 & t1 & T1). destruct (C524_values h outs' s' P2 H2) as (V2 & O2 & N2 & t2 & T2).
    assert (Sm : forall v, In v (s_order s) <-> In v (s_order s')).
    { intros v. rewrite O1, O2, !in_map_iff. split; intros ([w x] & <- & Hi); exists (w, x); (split; [reflexivity|]); [apply V2, V1, Hi|apply V1, V2, Hi]. }
    assert (Gv : forall v, In v (given_order h) <-> In v (map fst (gives h))) by (intros v; unfold given_order; rewrite <- in_rev, nodup_In, <- in_rev; reflexivity).
    assert (Tl : forall sx tx (Ox : s_order sx = map fst (s_vals sx)) (Vx : forall v x, In (v, x) (s_vals sx) <-> value h v x) (Nx : NoDup (s_order sx)) (Tx : s_order sx = given_order h ++ tx) v,
      In v tx -> In v (map fst (declares h)) /\ ~ In v (map fst (gives h))).
    { intros sx tx Ox Vx Nx Tx v Hv. assert (Ng : ~ In v (given_order h)) by (intros X; rewrite Tx in Nx; apply in_split in Hv; destruct Hv as (a & b & ->); rewrite app_assoc in Nx; apply NoDup_remove_2 in Nx; apply Nx, in_or_app; left; apply in_or_app; left; exact X).
      rewrite Gv in Ng. split; [|exact Ng]. assert (Hs : In v (s_order sx)) by (rewrite Tx; apply in_or_app; right; exact Hv). rewrite Ox in Hs. apply in_map_iff in Hs. destruct Hs as ([w x] & Hw & Hi). cbn in Hw. subst w. apply Vx in Hi.
      destruct Hi as [(l1 & l2 & Hl & _)|(_ & l1 & l2 & Hl & _)]; [exfalso; apply Ng|]; rewrite Hl, map_app; apply in_or_app; right; left; reflexivity. }
    assert (Short : forall sx tx (Nx : NoDup (s_order sx)) (Tx : s_order sx = given_order h ++ tx), (forall v, In v tx -> In v (map fst (declares h)) /\ ~ In v (map fst (gives h))) -> tx = [] \/ exists v, tx = [v]).
    { intros sx tx Nx Tx Hx. destruct tx as [|a [|b tx]]; [left; reflexivity|right; exists a; reflexivity|]. exfalso. destruct (Hx a (or_introl eq_refl)) as (X1 & X2). destruct (Hx b (or_intror (or_introl eq_refl))) as (Y1 & Y2).
      specialize (U a b X1 Y1 X2 Y2). subst b. rewrite Tx in Nx. apply NoDup_remove_2 in Nx. apply Nx, in_or_app. right. left. reflexivity. }
    pose proof (Tl s t1 O1 V1 N1 T1) as L1. pose proof (Tl s' t2 O2 V2 N2 T2) as L2. rewrite T1, T2. f_equal.
    assert (Tr : forall v, In v t1 <-> In v t2).
    { intros v. specialize (Sm v). rewrite T1, T2, !in_app_iff, Gv in Sm. split; intros Hv; [destruct (L1 v Hv)|destruct (L2 v Hv)]; tauto. }
    destruct (Short s t1 N1 T1 L1) as [E1 | (a & E1)]; destruct (Short s' t2 N2 T2 L2) as [E2 | (b & E2)]; subst t1 t2; [reflexivity| | |].
    + destruct (proj2 (Tr b) (or_introl eq_refl)).
    + destruct (proj1 (Tr a) (or_introl eq_refl)).
    + destruct (proj1 (Tr a) (or_introl eq_refl)) as [<-|[]]. reflexivity.
  - intros H. specialize (H [Declare 1 (Some 7); Declare 2 (Some 8)]%nat [(1, Some 7); (2, Some 8)]%nat [(2, Some 8); (1, Some 7)]%nat _ _ (Permutation_refl _) (perm_swap _ _ _) eq_refl eq_refl). discriminate H.
Qed.
Example C527_ex : let h := [Declare 1 (Some 7); Declare 2 (Some 8); Give 2 5]%nat in
  s_order (fst (check_outputs [(2, Some 8); (1, Some 7)]%nat (after h))) = [2; 1]%nat /\ s_order (fst (check_outputs [(1, Some 7); (2, Some 8)]%nat (after h))) = [2; 1]%nat.
Proof. split; reflexivity. Qed.
Print Assumptions C524_passes.
Print Assumptions C524_throws.
Print Assumptions C524_values.
Print Assumptions C525_again.
Print Assumptions C526_default_refuted.
Print Assumptions C527_order_refuted.
