(* Theorems about the cases of switch statements: C428 - C433. *)
From Coq Require Import ZArith List Bool Arith Lia Sorting.Permutation Sorting.Sorted.
From Verif Require Import Base Sw_spec Sw_model.
Import ListNotations.

Lemma case_eqb_eq a b : case_eqb a b = true <-> a = b.
Proof. destruct a as [x|], b as [y|]; cbn; split; intros H; try discriminate; trivial; [apply Z.eqb_eq in H; congruence|]. injection H as ->. apply Z.eqb_refl. Qed.
Definition case_dec (a b : case) : {a = b} + {a <> b}. Proof. decide equality. apply Z.eq_dec. Defined.
Lemma case_eqb_refl a : case_eqb a a = true. Proof. apply case_eqb_eq. reflexivity. Qed.
Lemma case_eqb_neq a b : a <> b -> case_eqb a b = false.
Proof. intros N. destruct (case_eqb a b) eqn:E; [apply case_eqb_eq in E; contradiction|reflexivity]. Qed.
Lemma key_eqb_eq a b : key_eqb a b = true <-> a = b.
Proof. destruct a as [x|], b as [y|]; cbn; split; intros H; try discriminate; trivial; [apply Nat.eqb_eq in H; congruence|]. injection H as ->. apply Nat.eqb_refl. Qed.
Lemma under_app c a b : under c (a ++ b) = under c a ++ under c b.
Proof. unfold under. apply flat_map_app. Qed.
Lemma under_none c : forall h, ~ In c (map fst h) -> under c h = [].
Proof.
  induction h as [|[d s] h IH]; intros N; [reflexivity|]. cbn. cbn in N. rewrite case_eqb_neq by (intros E; apply N; left; exact E).
  cbn. apply IH. intros I. apply N. right; exact I.
Qed.

Section Props.
  Variable value : nat -> Z.
  Notation kv := (key_value value).
  Definition values (b : body) : list case := map (fun e => kv (fst e)) b.
  (* what a history of add_switch_case calls leaves, and the same history in terms of values *)
  Definition run (h : list (key * list nat)) : body := fold_left (fun b a => add_case value b (fst a) (snd a)) h [].
  Definition by_value (h : list (key * list nat)) : list (case * list nat) := map (fun a => (kv (fst a), snd a)) h.

  Lemma add_case_step c s b k stmts : add_case value ((c, s) :: b) k stmts =
    if case_eqb (kv c) (kv k) then (c, s ++ stmts) :: b else (c, s) :: add_case value b k stmts.
  Proof. destruct k as [x|], c as [y|]; reflexivity. Qed.
  Lemma add_values : forall b k s, values (add_case value b k s) = if in_dec case_dec (kv k) (values b) then values b else values b ++ [kv k].
  Proof.
    induction b as [|[c t] b IH]; intros k s; [reflexivity|]. rewrite add_case_step. destruct (case_eqb (kv c) (kv k)) eqn:E.
    - apply case_eqb_eq in E. destruct (in_dec _ _ _) as [J|J]; [reflexivity|]. destruct J. left. exact E.
    - assert (N : kv c <> kv k) by (intros X; apply case_eqb_eq in X; congruence).
      cbn [values map fst]. fold (values (add_case value b k s)). fold (values b). rewrite IH.
      destruct (in_dec _ (kv k) (values b)) as [J|J]; destruct (in_dec _ (kv k) (kv c :: values b)) as [J'|J']; trivial.
      + destruct J'; right; exact J.
      + destruct J' as [J'|J']; contradiction.
  Qed.
  Lemma add_in : forall b k s k' blk, NoDup (values b) -> In (k', blk) (add_case value b k s) ->
    (kv k' = kv k /\ ((exists old, In (k', old) b /\ blk = old ++ s) \/ (blk = s /\ k' = k /\ ~ In (kv k) (values b))))
    \/ (kv k' <> kv k /\ In (k', blk) b).
  Proof.
    induction b as [|[c t] b IH]; intros k s k' blk N H.
    - destruct H as [H|[]]. injection H as <- <-. left. split; [reflexivity|]. right. repeat split. intros [].
    - rewrite add_case_step in H. destruct (case_eqb (kv c) (kv k)) eqn:E.
      + apply case_eqb_eq in E. destruct H as [H|H].
        * injection H as <- <-. left. split; [exact E|]. left. exists t. split; [left; reflexivity|reflexivity].
        * right. split; [|right; exact H]. intros X. cbn in N. apply NoDup_cons_iff in N. destruct N as [N _]. apply N.
          rewrite E, <- X. unfold values. apply (in_map (fun e : key * list nat => kv (fst e)) b (k', blk) H).
      + assert (Nc : kv c <> kv k) by (intros X; apply case_eqb_eq in X; congruence). destruct H as [H|H].
        * injection H as <- <-. right. split; [exact Nc|left; reflexivity].
        * cbn in N. apply NoDup_cons_iff in N. destruct (IH _ _ _ _ (proj2 N) H) as [[A B]|[A B]].
          -- left. split; [exact A|]. destruct B as [(old & I & F)|(F & G & J)].
             ++ left. exists old. split; [right; exact I|exact F].
             ++ right. split; [exact F|]. split; [exact G|]. intros [X|X]; contradiction.
          -- right. split; [exact A|right; exact B].
  Qed.

  (* C428: a switch statement has one block for each value cases were added under, which holds what was added under
     that value, in the order it was added, under whichever constant object. *)
Theorem C428_cases : forall h,
    NoDup (values (run h))
    /\ (forall c, In c (values (run h)) <-> In c (map fst (by_value h)))
    /\ (forall k blk, In (k, blk) (run h) -> In k (map fst h) /\ blk = under (kv k) (by_value h)).
  Proof.
    induction h as [|[k s] h IH] using rev_ind.
    - cbn. split; [constructor|]. split; [reflexivity|]. intros k blk [].
    - destruct IH as (A & B & C). unfold run. rewrite fold_left_app. cbn [fold_left]. fold (run h). cbn [fst snd].
      split; [|split].
      + rewrite add_values. destruct (in_dec _ _ _) as [J|J]; [exact A|].
        apply (Permutation_NoDup (Permutation_cons_append (values (run h)) (kv k))). constructor; assumption.
      + intros c. rewrite add_values. unfold by_value. rewrite !map_app, in_app_iff. fold (by_value h). cbn [map fst In].
        destruct (in_dec _ _ _) as [J|J].
        * rewrite B in J. rewrite B. split; [intros X; left; exact X|]. intros [X|[X|[]]]; [exact X|]. rewrite <- X. exact J.
        * rewrite in_app_iff, B. reflexivity.
      + intros k' blk I. replace (by_value (h ++ [(k, s)])) with (by_value h ++ [(kv k, s)]) by (unfold by_value; rewrite map_app; reflexivity).
        rewrite under_app.
        assert (U : under (kv k') [(kv k, s)] = if case_eqb (kv k) (kv k') then s else []).
        { cbn. destruct (case_eqb (kv k) (kv k')); [apply app_nil_r|reflexivity]. }
        rewrite U. rewrite map_app. cbn [map fst].
        destruct (add_in _ _ _ _ _ A I) as [[E [(old & J & F)|(F & G & J)]]|[E J]].
        * destruct (C _ _ J) as [K L]. split; [apply in_app_iff; left; exact K|]. rewrite E, case_eqb_refl, <- E, F, L. reflexivity.
        * subst k'. split; [apply in_app_iff; right; left; reflexivity|]. rewrite case_eqb_refl, F.
          rewrite (under_none (kv k) (by_value h)); [reflexivity|]. rewrite <- B. exact J.
        * destruct (C _ _ J) as [K L]. split; [apply in_app_iff; left; exact K|]. rewrite case_eqb_neq by congruence. rewrite app_nil_r. exact L.
  Qed.
End Props.
Example C428_ex : (* constants 1 and 2 are both 5 *)
  let v := fun c => match c with 0 => 3%Z | _ => 5%Z end in
  run v [(Some 1, [10]); (None, [11]); (Some 0, [12]); (Some 2, [13; 14])] = [(Some 1, [10; 13; 14]); (None, [11]); (Some 0, [12])].
Proof. reflexivity. Qed.

(* -- the order of the children ------------------------------------------------------------------------------------ *)
Lemma sorted_perm_eq {A} (R : A -> A -> Prop) : (forall x y, R x y -> R y x -> False) ->
  forall l l', Permutation l l' -> StronglySorted R l -> StronglySorted R l' -> l = l'.
Proof.
  intros As. induction l as [|x l IH]; intros l' P S S'.
  - apply Permutation_nil in P. congruence.
  - destruct l' as [|y l']; [apply Permutation_sym, Permutation_nil in P; discriminate|].
    apply StronglySorted_inv in S. destruct S as [S F]. apply StronglySorted_inv in S'. destruct S' as [S' F'].
    assert (E : x = y).
    { destruct (Permutation_in x P (or_introl eq_refl)) as [E|I]; [congruence|].
      destruct (Permutation_in y (Permutation_sym P) (or_introl eq_refl)) as [E|J]; [exact E|].
      rewrite Forall_forall in F, F'. destruct (As _ _ (F _ J) (F' _ I)). }
    subst y. f_equal. apply IH; trivial. exact (Permutation_cons_inv P).
Qed.

Fixpoint ins (x : Z * list nat) (l : list (Z * list nat)) : list (Z * list nat) :=
  match l with [] => [x] | y :: l' => if Z.leb (fst x) (fst y) then x :: l else y :: ins x l' end.
Lemma ins_perm x : forall l, Permutation (x :: l) (ins x l).
Proof. induction l as [|y l IH]; cbn; [reflexivity|]. destruct (Z.leb _ _); [reflexivity|]. rewrite perm_swap. constructor. exact IH. Qed.
Notation le_key := (fun x y : Z * list nat => (fst x <= fst y)%Z).
Lemma ins_sorted x : forall l, StronglySorted le_key l -> StronglySorted le_key (ins x l).
Proof.
  induction l as [|y l IH]; intros S; cbn; [repeat constructor|]. apply StronglySorted_inv in S. destruct S as [S F].
  destruct (Z.leb_spec (fst x) (fst y)) as [L|L].
  - constructor; [constructor; assumption|]. constructor; [exact L|]. eapply Forall_impl; [|exact F]. cbn. intros a H. lia.
  - constructor; [exact (IH S)|]. apply (Permutation_Forall (ins_perm x l)). constructor; [cbn; lia|exact F].
Qed.
Lemma sort_exists : forall l, exists l', Permutation l l' /\ StronglySorted le_key l'.
Proof.
  induction l as [|x l (l' & P & S)]; [exists []; split; constructor|]. exists (ins x l'). split.
  - rewrite <- (ins_perm x l'). constructor. exact P.
  - apply ins_sorted, S.
Qed.

Section Order.
  Variable value : nat -> Z.
  Notation kv := (key_value value).

  Lemma key_before a b : (forall v, kv a = Some v \/ kv b = Some v -> int64 v) -> kv a <> kv b ->
    ~ (kv a = None /\ kv b = Some (-1)%Z) -> (sort_key value a <= sort_key value b)%Z -> before (kv a) (kv b).
  Proof.
    assert (P : (2 ^ 64 = 2 * 2 ^ 63)%Z) by reflexivity. assert (P0 : (0 < 2 ^ 63)%Z) by reflexivity.
    intros R N D L. unfold sort_key in L. destruct a as [x|], b as [y|]; cbn [key_value option_map before] in *.
    - assert (Rx := R (value x) (or_introl eq_refl)). assert (Ry := R (value y) (or_intror eq_refl)). unfold int64 in Rx, Ry.
      assert (Nv : value x <> value y) by congruence.
      assert (M : forall v, (- 2 ^ 63 <= v < 2 ^ 63)%Z -> (v mod 2 ^ 64 = if v <? 0 then v + 2 ^ 64 else v)%Z).
      { intros v H. destruct (Z.ltb_spec v 0).
        - rewrite <- (Z.mod_small (v + 2 ^ 64) (2 ^ 64)) by lia. rewrite <- Zplus_mod_idemp_r, Z_mod_same_full, Z.add_0_r. reflexivity.
        - apply Z.mod_small. lia. }
      rewrite (M _ Rx), (M _ Ry) in L. destruct (Z.ltb_spec (value x) 0), (Z.ltb_spec (value y) 0); lia.
    - exact I.
    - assert (Ry := R (value y) (or_intror eq_refl)). unfold int64 in Ry. apply D. split; [reflexivity|]. f_equal.
      pose proof (Z.mod_pos_bound (value y) (2 ^ 64) ltac:(lia)).
      pose proof (Z.div_mod (value y) (2 ^ 64) ltac:(lia)).
      assert (value y mod 2 ^ 64 = 2 ^ 64 - 1)%Z by lia. nia.
    - destruct (N eq_refl).
  Qed.
  Lemma before_asym a b : before a b -> before b a -> False.
  Proof. destruct a, b; cbn; try tauto. lia. Qed.

  Lemma sorted_before : forall l : body,
    NoDup (values value l) -> (forall v, In (Some v) (values value l) -> int64 v) ->
    ~ (In None (values value l) /\ In (Some (-1)%Z) (values value l)) ->
    StronglySorted le_key (map (fun e => (sort_key value (fst e), snd e)) l) ->
    StronglySorted (fun x y : key * list nat => before (kv (fst x)) (kv (fst y))) l.
  Proof.
    induction l as [|x l IH]; intros N R D S; [constructor|]. cbn [values map] in N, R, D. fold (values value l) in N, R, D.
    apply NoDup_cons_iff in N. destruct N as [N N']. apply StronglySorted_inv in S. destruct S as [S F].
    constructor.
    - apply IH; trivial. + intros v I. apply R. right; exact I. + intros [A B]. apply D. split; right; assumption.
    - rewrite Forall_forall in *. intros y I.
      assert (J : In (kv (fst y)) (values value l)) by (unfold values; apply (in_map (fun e : key * list nat => kv (fst e)) _ _ I)).
      apply key_before.
      + intros v [E|E]; apply R; rewrite <- E; [left; reflexivity|right; exact J].
      + intros E. apply N. rewrite E. exact J.
      + intros [A B]. apply D. rewrite <- A at 1. rewrite <- B. split; [left; reflexivity|right; exact J].
      + specialize (F (sort_key value (fst y), snd y)). cbn in F. apply F. apply (in_map (fun e : key * list nat => (sort_key value (fst e), snd e)) _ _ I).
  Qed.

  (* C429: the blocks are visited in an order that only the values of the cases decide: first those that are not
     negative, ascending, then the negative ones, then the default. *)
Theorem C429_order : forall b b', Permutation b b' -> NoDup (values value b) ->
    (forall v, In (Some v) (values value b) -> int64 v) ->
    ~ (In None (values value b) /\ In (Some (-1)%Z) (values value b)) ->
    exists l, Permutation b l /\ StronglySorted (fun x y => before (kv (fst x)) (kv (fst y))) l
      /\ (forall cs, children value b cs <-> cs = map snd l)
      /\ (forall cs, children value b' cs <-> cs = map snd l).
  Proof.
    intros b b' P N R D.
    assert (T : forall b1 m, Permutation b b1 -> Permutation (map (fun e : key * list nat => (sort_key value (fst e), snd e)) b1) m ->
              StronglySorted le_key m -> exists l, Permutation b l /\ m = map (fun e => (sort_key value (fst e), snd e)) l
                /\ StronglySorted (fun x y : key * list nat => before (kv (fst x)) (kv (fst y))) l).
    { intros b1 m P1 Pm Sm. apply Permutation_sym in Pm. apply Permutation_map_inv in Pm. destruct Pm as (l & -> & Pl).
      assert (Q : Permutation b l) by (rewrite P1; exact Pl). exists l. split; [exact Q|]. split; [reflexivity|].
      assert (V : Permutation (values value b) (values value l)) by (unfold values; apply Permutation_map, Q).
      apply sorted_before; trivial.
      - exact (Permutation_NoDup V N).
      - intros v I. apply R. exact (Permutation_in _ (Permutation_sym V) I).
      - intros [A B]. apply D. split; [exact (Permutation_in _ (Permutation_sym V) A)|exact (Permutation_in _ (Permutation_sym V) B)]. }
    destruct (sort_exists (map (fun e : key * list nat => (sort_key value (fst e), snd e)) b)) as (m & Pm & Sm).
    destruct (T b m (Permutation_refl _) Pm Sm) as (l & Pl & Em & Sl).
    assert (Ms : map snd m = map snd l) by (rewrite Em, map_map; reflexivity).
    assert (C : forall b1, Permutation b b1 -> forall cs, children value b1 cs <-> cs = map snd l).
    { intros b1 P1 cs. split.
      - intros (m1 & Pm1 & Sm1 & ->). destruct (T b1 m1 P1 Pm1 Sm1) as (l1 & Pl1 & -> & Sl1). rewrite map_map. cbn [snd]. f_equal.
        refine (sorted_perm_eq _ (fun x y : key * list nat => before_asym (kv (fst x)) (kv (fst y))) _ _ _ Sl1 Sl). rewrite <- Pl1. exact Pl.
      - intros ->. exists m. split; [|split; [exact Sm|congruence]]. rewrite <- Pm. apply Permutation_map, Permutation_sym, P1. }
    exists l. split; [exact Pl|]. split; [exact Sl|]. split; [exact (C b (Permutation_refl _))|exact (C b' P)].
  Qed.
End Order.
Example C429_ex : let v := fun c => match c with 0 => (-3)%Z | 1 => 5%Z | _ => 0%Z end in
  let b := [(None, [1]); (Some 0, [2]); (Some 1, [3]); (Some 2, [4])] in
  NoDup (values v b) /\ children v b [[4]; [3]; [2]; [1]].
Proof.
  cbn zeta. split; [unfold values; cbn; repeat constructor; cbn; intuition discriminate|].
  exists [((0)%Z, [4]); ((5)%Z, [3]); ((2 ^ 64 - 3)%Z, [2]); ((2 ^ 64 - 1)%Z, [1])]. split; [|split; [|reflexivity]].
  - cbn [map fst snd].
    exact (Permutation_rev [((2 ^ 64 - 1)%Z, [1]); ((2 ^ 64 - 3)%Z, [2]); (5%Z, [3]); (0%Z, [4])]).
  - repeat constructor; cbn; lia.
Qed.

(* C430: the order is not decided by the values when one case is -1 and there is a default: both count as the largest
   unsigned value, and either may come first. *)
Theorem C430_minus_one_refuted :
  (forall value c s t, value c = (-1)%Z -> children value [(Some c, s); (None, t)] [s; t] /\ children value [(Some c, s); (None, t)] [t; s])
  /\ ~ (forall value b cs cs', NoDup (values value b) -> (forall v, In (Some v) (values value b) -> int64 v) ->
          children value b cs -> children value b cs' -> cs = cs').
Proof.
  assert (A : forall value c s t, value c = (-1)%Z -> children value [(Some c, s); (None, t)] [s; t] /\ children value [(Some c, s); (None, t)] [t; s]).
  { intros value c s t E. assert (K : sort_key value (Some c) = (2 ^ 64 - 1)%Z) by (unfold sort_key; rewrite E; reflexivity).
    assert (K' : sort_key value None = (2 ^ 64 - 1)%Z) by reflexivity.
    split; [exists [((2 ^ 64 - 1)%Z, s); ((2 ^ 64 - 1)%Z, t)]|exists [((2 ^ 64 - 1)%Z, t); ((2 ^ 64 - 1)%Z, s)]];
      (split; [cbn [map fst snd]; rewrite K, K'|split; [|reflexivity]]).
    - apply Permutation_refl.
    - repeat constructor; cbn [fst]; apply Z.le_refl.
    - apply perm_swap.
    - repeat constructor; cbn [fst]; apply Z.le_refl. }
  split; [exact A|]. intros H. destruct (A (fun _ => (-1)%Z) 0 [1] [2] eq_refl) as [X Y].
  assert (E : [[1]; [2]] = [[2]; [1]]); [|discriminate].
  refine (H (fun _ => (-1)%Z) [(Some 0, [1]); (None, [2])] _ _ _ _ X Y).
  - unfold values; cbn; repeat constructor; cbn; intuition discriminate.
  - cbn. intros v [I|[I|[]]]; [|discriminate]. injection I as <-. unfold int64. lia.
Qed.

(* C431: removing a case by a constant of its value need not remove it: the object has to be the one the case was
   first added with. *)
Theorem C431_remove_refuted :
  (forall (b : body) k, ~ In k (map fst b) -> remove_case b k = b)
  /\ ~ (forall value h k, ~ In (key_value value k) (values value (remove_case (run value h) k))).
Proof.
  split.
  - intros b k N. unfold remove_case. induction b as [|[c s] b IH]; [reflexivity|]. cbn [filter fst]. cbn [map fst In] in N.
    destruct (key_eqb c k) eqn:E; [apply key_eqb_eq in E; destruct N; left; exact E|]. cbn [negb]. f_equal. apply IH. intros I. apply N. right; exact I.
  - intros H. apply (H (fun _ => 5%Z) [(Some 0, [7])] (Some 1)). left. reflexivity.
Qed.
(* ... with that object it and nothing else is removed. *)
Theorem C431_same_object : forall (b : body) k k' s,
  In (k', s) (remove_case b k) <-> In (k', s) b /\ k' <> k.
Proof.
  intros b k k' s. unfold remove_case. rewrite filter_In. cbn [fst]. split; intros [A B]; (split; [exact A|]).
  - intros E. apply key_eqb_eq in E. rewrite E in B. discriminate.
  - destruct (key_eqb k' k) eqn:E; [apply key_eqb_eq in E; contradiction|reflexivity].
Qed.

(* C432: several statements cannot always be added to a case at once: if the case was first added with another constant
   of the same value, they are put there and then an error is raised. *)
Lemma at_key_none b k : at_key b k = None <-> ~ In k (map fst b).
Proof.
  unfold at_key. split.
  - intros H I. apply in_map_iff in I. destruct I as ([c s] & E & I). destruct (find _ b) eqn:F; [discriminate|].
    apply (find_none _ _ F) in I. cbn in I, E. rewrite (proj2 (key_eqb_eq c k) E) in I. discriminate.
  - intros N. destruct (find _ b) as [[c s]|] eqn:F; [|reflexivity]. apply find_some in F. destruct F as [I E]. cbn in E. apply key_eqb_eq in E.
    destruct N. apply in_map_iff. exists (c, s). split; assumption.
Qed.
Lemma add_keys value : forall b k s, In (key_value value k) (values value b) -> map fst (add_case value b k s) = map fst b.
Proof.
  induction b as [|[c t] b IH]; intros k s I; [destruct I|]. rewrite add_case_step. destruct (case_eqb _ _) eqn:E; [reflexivity|].
  cbn [map fst]. f_equal. apply IH. destruct I as [I|I]; [|exact I]. cbn in I. apply case_eqb_eq in I. congruence.
Qed.
Lemma add_keys_all value k : forall l b, In (key_value value k) (values value b) ->
  map fst (fold_left (fun b s => add_case value b k s) l b) = map fst b.
Proof.
  induction l as [|s l IH]; intros b I; [reflexivity|]. cbn [fold_left].
  rewrite IH; [apply add_keys, I|]. rewrite add_values. destruct (in_dec _ _ _); [exact I|apply in_app_iff; left; exact I].
Qed.
Theorem C432_several_refuted :
  (forall value b k stmts, In (key_value value k) (values value b) -> ~ In k (map fst b) -> add_cases value b k stmts = Throw)
  /\ (forall value b k, ~ In k (map fst b) -> add_cases value b k [] = Throw)
  /\ ~ (forall value h k s, exists b' blk, add_cases value (run value h) k [s] = Ok (b', blk)).
Proof.
  assert (A : forall value b k stmts, In (key_value value k) (values value b) -> ~ In k (map fst b) -> add_cases value b k stmts = Throw).
  { intros value b k stmts I N. unfold add_cases. rewrite <- (add_keys_all value k stmts b I) in N. apply at_key_none in N. rewrite N. reflexivity. }
  split; [exact A|]. split.
  - intros value b k N. unfold add_cases. cbn [fold_left]. apply at_key_none in N. rewrite N. reflexivity.
  - intros H. destruct (H (fun _ => 5%Z) [(Some 0, [7])] (Some 1) [8]) as (b' & blk & E). discriminate.
Qed.
(* ... with the object the case was first added with, or a new value, the block comes back with the statements. *)
Theorem C432_own_object : forall value h k s stmts,
  In k (map fst (run value h)) \/ ~ In (key_value value k) (values value (run value h)) ->
  add_cases value (run value h) k (s :: stmts)
  = Ok (run value (h ++ map (pair k) (s :: stmts)), under (key_value value k) (by_value value h) ++ concat (s :: stmts)).
Proof.
  intros value h k s stmts H. unfold add_cases.
  assert (R : fold_left (fun b s => add_case value b k s) (s :: stmts) (run value h) = run value (h ++ map (pair k) (s :: stmts))).
  { unfold run. rewrite fold_left_app. generalize (fold_left (fun (b : body) (a : key * list nat) => add_case value b (fst a) (snd a)) h []).
    clear H. induction (s :: stmts) as [|x l IH]; intros b; [reflexivity|]. cbn. apply IH. }
  rewrite R.
  assert (Ik : In k (map fst (run value (h ++ map (pair k) (s :: stmts))))).
  { rewrite <- R. destruct (in_dec case_dec (key_value value k) (values value (run value h))) as [J|J].
    - destruct H as [H|H]; [|contradiction]. rewrite add_keys_all by exact J. exact H.
    - cbn [fold_left]. rewrite add_keys_all.
      + clear - J. revert J. generalize (run value h). induction b as [|[c t] b IH]; intros J; [left; reflexivity|].
        rewrite add_case_step. rewrite case_eqb_neq by (intros E; apply J; left; exact E). cbn [map fst]. right. apply IH.
        intros I. apply J. right; exact I.
      + rewrite add_values. destruct (in_dec _ _ _); [contradiction|]. apply in_app_iff. right; left; reflexivity. }
  destruct (at_key _ k) as [blk|] eqn:E.
  - unfold at_key in E. destruct (find _ _) as [[c t]|] eqn:F; [|discriminate]. injection E as <-. apply find_some in F. destruct F as [I E].
    cbn in E. apply key_eqb_eq in E. subst c. destruct (C428_cases value (h ++ map (pair k) (s :: stmts))) as (_ & _ & C).
    destruct (C _ _ I) as [_ ->]. f_equal. f_equal. unfold by_value. rewrite map_app, under_app. f_equal.
    clear. induction (s :: stmts) as [|x l IH]; [reflexivity|]. cbn. rewrite case_eqb_refl. f_equal. exact IH.
  - apply at_key_none in E. contradiction.
Qed.

(* C433: removing a statement takes it out of each block it is in, and changes nothing else. *)
Lemma remove_first_filter x : forall l, NoDup l -> remove_first l x = filter (fun y => negb (Nat.eqb y x)) l.
Proof.
  induction l as [|y l IH]; intros N; [reflexivity|]. apply NoDup_cons_iff in N. destruct N as [N N']. cbn. destruct (Nat.eqb_spec y x) as [->|E]; cbn.
  - symmetry. clear - N. induction l as [|z l IH]; [reflexivity|]. cbn. destruct (Nat.eqb_spec z x) as [->|E]; [destruct N; left; reflexivity|].
    cbn. f_equal. apply IH. intros I. apply N. right; exact I.
  - f_equal. apply IH, N'.
Qed.
Lemma remove_first_none x : forall l, ~ In x l -> remove_first l x = l.
Proof.
  induction l as [|y l IH]; intros N; [reflexivity|]. cbn. destruct (Nat.eqb_spec y x) as [->|E]; [destruct N; left; reflexivity|].
  f_equal. apply IH. intros I. apply N. right; exact I.
Qed.
Lemma remove_stmt_ok x : forall (todo done : body), NoDup (map fst (done ++ todo)) ->
  fold_left (fun b' e => if existsb (Nat.eqb x) (snd e) then remove_case_stmt b' (fst e) x else b') todo (done ++ todo)
  = done ++ map (fun e => (fst e, remove_first (snd e) x)) todo.
Proof.
  induction todo as [|[k s] todo IH]; intros done N; [reflexivity|]. cbn [fold_left map fst snd].
  assert (Nk : ~ In k (map fst done ++ map fst todo)).
  { rewrite map_app in N. cbn [map fst] in N. exact (NoDup_remove_2 _ _ _ N). }
  assert (Id : forall l : body, ~ In k (map fst l) -> remove_case_stmt l k x = l).
  { clear. unfold remove_case_stmt. induction l as [|[c t] l IH]; intros J; [reflexivity|]. cbn [map fst snd]. cbn [map fst In] in J.
    destruct (key_eqb c k) eqn:E; [apply key_eqb_eq in E; destruct J; left; exact E|]. f_equal. apply IH. intros I. apply J. right; exact I. }
  assert (St : (if existsb (Nat.eqb x) s then remove_case_stmt (done ++ (k, s) :: todo) k x else done ++ (k, s) :: todo)
             = (done ++ [(k, remove_first s x)]) ++ todo).
  { rewrite <- app_assoc. cbn [app]. destruct (existsb (Nat.eqb x) s) eqn:E.
    - assert (Ap : forall a c : body, remove_case_stmt (a ++ c) k x = remove_case_stmt a k x ++ remove_case_stmt c k x) by (intros; apply map_app).
      rewrite Ap. rewrite (Id done) by (intros I; apply Nk, in_app_iff; left; exact I). f_equal.
      change (remove_case_stmt ((k, s) :: todo) k x) with ((if key_eqb k k then (k, remove_first s x) else (k, s)) :: remove_case_stmt todo k x).
      rewrite (proj2 (key_eqb_eq k k) eq_refl). f_equal. apply Id. intros I. apply Nk, in_app_iff. right; exact I.
    - rewrite remove_first_none; [reflexivity|]. intros I. assert (existsb (Nat.eqb x) s = true) by (apply existsb_exists; exists x; split; [exact I|apply Nat.eqb_refl]). congruence. }
  rewrite St, IH; [rewrite <- app_assoc; reflexivity|]. rewrite <- app_assoc. cbn [app]. rewrite map_app in *. exact N.
Qed.
Theorem C433_remove_stmt : forall value h x, (forall k blk, In (k, blk) (run value h) -> NoDup blk) ->
  remove_stmt (run value h) x = map (fun e => (fst e, filter (fun y => negb (Nat.eqb y x)) (snd e))) (run value h).
Proof.
  intros value h x Nb. unfold remove_stmt.
  assert (N : NoDup (map fst (run value h))).
  { destruct (C428_cases value h) as (A & _). unfold values in A. rewrite <- (map_map fst (key_value value)) in A. exact (NoDup_map_inv _ _ A). }
  pose proof (remove_stmt_ok x (run value h) [] N) as Q. cbn [app] in Q. rewrite Q. apply map_ext_in. intros [k s] I. cbn [fst snd]. rewrite remove_first_filter; [reflexivity|exact (Nb _ _ I)].
Qed.
Example C433_ex : remove_stmt (run (fun c => Z.of_nat c) [(Some 1, [10; 11]); (None, [11; 12]); (Some 0, [12])]) 11
  = [(Some 1, [10]); (None, [12]); (Some 0, [12])].
Proof. reflexivity. Qed.
Print Assumptions C428_cases.
Print Assumptions C429_order.
Print Assumptions C430_minus_one_refuted.
Print Assumptions C431_remove_refuted.
Print Assumptions C431_same_object.
Print Assumptions C432_several_refuted.
Print Assumptions C432_own_object.
Print Assumptions C433_remove_stmt.
