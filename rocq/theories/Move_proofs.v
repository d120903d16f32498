From Verif Require Import Base SV_spec IR IRSem_spec IR_lemmas IfCase_proofs IR_frame Flow_spec Flow_proofs Design_spec Design_proofs Dce_spec Dce_model Dce_proofs
  Fan_spec Fan_model Fan_proofs Move_spec Move_model.
Local Open Scope Z_scope.

Section Move.
  Variables a b : var.
  Hypothesis Hab : a <> b.
  Notation change := (change a b).
  Notation ms := (move_stmt a b).

  Lemma root_evars : forall e x, root e = Some x -> evars e = [x].
  Proof. induction e; cbn; intros x0 E; try discriminate; auto. now injection E as ->. Qed.
  Lemma rooted_iff : forall e, rooted a e = true <-> root e = Some a.
  Proof.
    intros e. unfold rooted. destruct (root e) as [x|]; [|split; discriminate]. rewrite Nat.eqb_eq. split; congruence.
  Qed.
  Lemma in_place_reads : forall e x, In x (evars (in_place a b e)) <-> (x <> a /\ In x (evars e)) \/ (x = b /\ In a (evars e)).
  Proof.
    induction e; intros x0; cbn [in_place evars]; rewrite ?in_app_iff, ?IHe, ?IHe1, ?IHe2, ?IHe3; try (cbn; tauto).
    cbn. destruct (Nat.eqb_spec x a) as [->|N]; cbn; intuition congruence.
  Qed.
  Lemma in_place_none : forall e, ~ In a (evars e) -> in_place a b e = e.
  Proof.
    induction e; cbn [in_place evars]; rewrite ?in_app_iff; intros N; try (now rewrite ?IHe, ?IHe1, ?IHe2, ?IHe3 by tauto).
    destruct (Nat.eqb_spec x a) as [->|]; [|reflexivity]. exfalso. apply N. now left.
  Qed.

  Definition twice (l : list expr) : Prop := exists l1 l2 l3, l = l1 ++ EVar a :: l2 ++ EVar a :: l3.
  Lemma twice_snoc : forall l y, twice (l ++ [y]) <-> twice l \/ (y = EVar a /\ In (EVar a) l).
  Proof.
    intros l y. split.
    - intros (l1 & l2 & l3 & E). destruct (exists_last (l := EVar a :: l3)) as (m & z & Em); [discriminate|].
      assert (l ++ [y] = (l1 ++ EVar a :: l2 ++ m) ++ [z]) as E2.
      { rewrite E, <- app_assoc. cbn. rewrite <- app_assoc, <- Em. reflexivity. }
      apply app_inj_tail in E2. destruct E2 as [-> ->]. destruct m as [|m0 m].
      + right. cbn in Em. injection Em as <- _. split; [reflexivity|]. rewrite app_nil_r. apply in_or_app. right. now left.
      + left. cbn in Em. injection Em as <- _. exists l1, l2, m. reflexivity.
    - intros [(l1 & l2 & l3 & ->)|[-> I]].
      + exists l1, l2, (l3 ++ [y]). rewrite <- app_assoc. cbn. now rewrite <- app_assoc.
      + apply in_split in I. destruct I as (l1 & l2 & ->). exists l1, l2, []. now rewrite <- app_assoc.
  Qed.
  Definition bad (l : list expr) : Prop := (exists p, In p l /\ root p = Some a /\ p <> EVar a) \/ twice l \/ exists p, In p l /\ hides a p.
  Lemma bad_snoc : forall l y, bad (l ++ [y]) <-> bad l \/ (root y = Some a /\ y <> EVar a) \/ (y = EVar a /\ In (EVar a) l) \/ hides a y.
  Proof.
    intros l y. unfold bad. rewrite twice_snoc. split.
    - intros [(p & I & R)|[[Tw|Q]|(p & I & Hp)]]; auto 6.
      + apply in_app_or in I. destruct I as [I|[<-|[]]]; eauto.
      + apply in_app_or in I. destruct I as [I|[<-|[]]]; eauto 6.
    - intros [[(p & I & R)|[Tw|(p & I & Hp)]]|[R|[Q|Hy]]]; auto.
      + left. exists p. split; [apply in_or_app; auto|exact R].
      + right. right. exists p. split; [apply in_or_app; auto|exact Hp].
      + left. exists y. split; [apply in_or_app; right; now left|exact R].
      + right. right. exists y. split; [apply in_or_app; right; now left|exact Hy].
  Qed.
  Lemma bad_one : forall p, bad [p] <-> (root p = Some a /\ p <> EVar a) \/ hides a p.
  Proof.
    intros p. split.
    - intros [(q & [<-|[]] & R)|[(l1 & l2 & l3 & E)|(q & [<-|[]] & X)]]; auto. apply (f_equal (@List.length expr)) in E. rewrite app_length in E. cbn in E. rewrite app_length in E. cbn in E. lia.
    - intros [R|X]; [left|right; right]; exists p; (split; [now left|assumption]).
  Qed.
  Lemma hides_concat : forall x y, hides a (EConcat x y) <-> bad (members (EConcat x y)).
  Proof.
    intros x y. split.
    - intros Hh. inversion Hh; subst; unfold bad, twice; eauto 8.
    - intros [(p & I & R & N)|[(l1 & l2 & l3 & E)|(p & I & Hp)]]; [eapply hd_member_slice; eauto|eapply hd_member_twice; eauto|eapply hd_member; eauto].
  Qed.
  Definition spine (x : expr) : expr * bool := match x with ESlice _ _ _ => (x, false) | _ => change x end.
  Definition part (y : expr) (f : bool) : expr * bool :=
    match y with
    | EVar v => if Nat.eqb v a && negb f then (EVar b, true) else (y, f)
    | ESlice _ _ _ => (y, f)
    | _ => (fst (change y), f)
    end.
  Lemma change_concat : forall x y, change (EConcat x y) = (EConcat (fst (spine x)) (fst (part y (snd (spine x)))), snd (part y (snd (spine x)))).
  Proof.
    intros x y. cbn [Move_model.change]. fold (spine x). destruct (spine x) as [x' f]. cbn [fst snd]. fold (part y f). destruct (part y f) as [y' f']. reflexivity.
  Qed.
  Lemma flag : forall e, snd (change e) = true <-> In (EVar a) (members e).
  Proof.
    induction e; try (cbn; split; [discriminate|intros [X|[]]; discriminate]).
    - cbn. destruct (Nat.eqb_spec x a) as [E0|N]; cbn; [subst; split; auto|]. split; [discriminate|]. intros [X|[]]. congruence.
    - rewrite change_concat. cbn [snd members]. rewrite in_app_iff.
      assert (snd (spine e1) = true <-> In (EVar a) (members e1)) as A by (destruct e1; exact IHe1).
      rewrite <- A. destruct (snd (spine e1)).
      + assert (snd (part e2 true) = true) as -> by (destruct e2; try reflexivity; cbn; now rewrite andb_false_r). intuition.
      + destruct e2; cbn; try (split; [discriminate|intros [X|[X|[]]]; discriminate]). destruct (Nat.eqb_spec x a) as [->|N]; cbn; split; auto; try discriminate. intros [X|[X|[]]]; congruence.
    - cbn. destruct e; cbn; split; try discriminate; intros [X|[]]; discriminate.
  Qed.
  Lemma hides_in : forall e, hides a e -> In a (evars e).
  Proof.
    assert (forall e p, In p (members e) -> incl (evars p) (evars e)) as K.
    { induction e; intros p0 I; cbn in I; try (destruct I as [<-|[]]; intros z Z0; exact Z0). apply in_app_or in I. cbn. destruct I as [I|[<-|[]]]; intros z Z0; apply in_or_app; [left|now right].
      now apply (IHe1 p0). }
    induction 1; try (cbn [evars]; rewrite ?in_app_iff; now auto).
    - cbn [evars]. rewrite (root_evars x a H). now left.
    - cbn [evars]. rewrite (root_evars c a H). now left.
    - apply (K _ p H). rewrite (root_evars p a H0). now left.
    - assert (In (EVar a) (members (EConcat x y))) as I by (rewrite H; apply in_or_app; right; now left). apply (K _ _ I). now left.
    - exact (K _ p H a IHhides).
  Qed.
  Lemma change_reads : forall e, In a (evars (fst (change e))) <-> hides a e.
  Proof.
    induction e.
    - cbn. destruct (Nat.eqb_spec x a) as [->|N]; cbn; (split; [intros [X|[]]; congruence|intros X; inversion X]).
    - cbn. split; [intros []|intros X; inversion X].
    - cbn. rewrite IHe. split; [apply hd_un|intros X; inversion X; assumption].
    - cbn. rewrite in_app_iff, IHe1, IHe2. split; [intros [X|X]; [now apply hd_left|now apply hd_right]|intros X; inversion X; auto].
    - cbn [Move_model.change fst evars]. rewrite !in_app_iff, IHe2, IHe3. split.
      + intros [X|[X|X]]; [|now apply hd_then|now apply hd_else]. destruct e1; try (apply hd_test; now apply IHe1).
        cbn in X. destruct (rooted a (ESlice e1 hi lo)) eqn:R.
        * apply rooted_iff in R. apply hd_test_slice; [exact R|discriminate].
        * apply hd_test. apply hd_sliced; [|exact X]. intros R1. assert (rooted a (ESlice e1 hi lo) = true) as R2 by (apply rooted_iff; exact R1). congruence.
      + intros X. inversion X as [| | | | |? ? ? R N|? ? ? X0|? ? ? X0|? ? ? X0| | | |]; subst; auto.
        * left. destruct e1; try discriminate; [cbn in R; congruence|]. rewrite (root_evars _ _ R). now left.
        * left. destruct e1; try (now apply IHe1). now apply hides_in.
    - cbn. unfold slice_to. destruct (rooted a (ESlice e hi lo)) eqn:R.
      + apply rooted_iff in R. cbn [in_place evars]. rewrite in_place_reads. cbn in R. split; [intros [[X _]|[X _]]; congruence|]. intros X. inversion X; congruence.
      + assert (root e <> Some a) as N by (intros X; assert (rooted a (ESlice e hi lo) = true) as Y by (apply rooted_iff; exact X); congruence).
        cbn [evars]. split; [intros X; now apply hd_sliced|]. intros X. inversion X; assumption.
    - rewrite hides_concat, change_concat. cbn [fst evars members]. rewrite in_app_iff, bad_snoc.
      assert (snd (spine e1) = true <-> In (EVar a) (members e1)) as F.
      { destruct e1; try apply (flag _). cbn. split; [discriminate|intros [X|[]]; discriminate]. }
      assert (In a (evars (fst (spine e1))) <-> bad (members e1)) as S1.
      { destruct e1; cbn [spine]; try (rewrite IHe1); try apply hides_concat; cbn [members]; rewrite bad_one.
        all: try (cbn [root]; split; [now auto|]; intros [[R N]|X]; [cbn in R; congruence|exact X]).
        cbn [fst]. split.
        - intros X. destruct (rooted a (ESlice e1 hi lo)) eqn:R.
          + apply rooted_iff in R. left. split; [exact R|discriminate].
          + right. apply hd_sliced; [|exact X]. intros R1. assert (rooted a (ESlice e1 hi lo) = true) as R2 by (apply rooted_iff; exact R1). congruence.
        - intros [[R N]|X]; [rewrite (root_evars _ _ R); now left|]. now apply hides_in in X. }
      rewrite S1. apply or_iff_compat_l. destruct e2; cbn [part fst].
      + destruct (Nat.eqb_spec x a) as [->|N]; cbn [andb].
        * destruct (snd (spine e1)); cbn.
          -- split; [intros _|auto]. right. left. split; [reflexivity|]. now apply F.
          -- split; [intros [X|[]]; congruence|]. intros [[_ X]|[[_ X]|X]]; [congruence|apply F in X; discriminate|inversion X].
        * cbn. split; [intros [X|[]]; congruence|]. intros [[R _]|[[X _]|X]]; [congruence|congruence|inversion X].
      + cbn. split; [intros []|]. intros [[R _]|[[X _]|X]]; [discriminate|discriminate|inversion X].
      + rewrite IHe2. split; [auto|]. intros [[R _]|[[X _]|X]]; [discriminate|discriminate|exact X].
      + rewrite IHe2. split; [auto|]. intros [[R _]|[[X _]|X]]; [discriminate|discriminate|exact X].
      + rewrite IHe2. split; [auto|]. intros [[R _]|[[X _]|X]]; [discriminate|discriminate|exact X].
      + split.
        * intros X. destruct (rooted a (ESlice e2 hi lo)) eqn:R.
          -- apply rooted_iff in R. left. split; [exact R|discriminate].
          -- right. right. apply hd_sliced; [|exact X]. intros R1. assert (rooted a (ESlice e2 hi lo) = true) as R2 by (apply rooted_iff; exact R1). congruence.
        * intros [[R _]|[[X _]|X]]; [rewrite (root_evars _ _ R); now left|discriminate|now apply hides_in in X].
      + rewrite IHe2. split; [auto|]. intros [[R _]|[[X _]|X]]; [discriminate|discriminate|exact X].
      + rewrite IHe2. split; [auto|]. intros [[R _]|[[X _]|X]]; [discriminate|discriminate|exact X].
    - cbn [Move_model.change]. destruct e; try (cbn [fst evars] in *; rewrite IHe; split; [apply hd_extend|intros X; inversion X; [discriminate|assumption]]).
      + cbn. split; [intros [->|[]]; now apply hd_extended|]. intros X. inversion X as [? ? R|? ? X0| | | | | | | | | | |]; subst; [cbn in R; injection R as ->; now left|inversion X0].
      + cbn [fst evars]. split.
        * intros X. destruct (rooted a (ESlice e hi lo)) eqn:R.
          -- apply rooted_iff in R. now apply hd_extended.
          -- apply hd_extend. apply hd_sliced; [|exact X]. intros R1. assert (rooted a (ESlice e hi lo) = true) as R2 by (apply rooted_iff; exact R1). congruence.
        * intros X. exact (hides_in _ X).
  Qed.
  (* what is not hidden moves *)
  Lemma change_moves : forall e, ~ hides a e -> fst (change e) = in_place a b e.
  Proof.
    assert (forall e, ~ hides a (ESlice e 0 0) -> forall hi lo, root (ESlice e hi lo) <> Some a -> in_place a b (ESlice e hi lo) = ESlice e hi lo) as SL.
    { intros e N hi lo R. apply in_place_none. intros I. apply N. now apply hd_sliced. }
    assert (forall e hi lo, ~ hides a (ESlice e hi lo) -> root (ESlice e hi lo) <> Some a -> in_place a b (ESlice e hi lo) = ESlice e hi lo) as SL2.
    { intros e hi lo N R. apply in_place_none. intros I. apply N. now apply hd_sliced. }
    clear SL. induction e; intros N.
    - cbn. now destruct (Nat.eqb x a).
    - reflexivity.
    - cbn. rewrite IHe; [reflexivity|]. intros X; apply N; now apply hd_un.
    - cbn. rewrite IHe1, IHe2; [reflexivity| |]; intros X; apply N; [now apply hd_right|now apply hd_left].
    - cbn [Move_model.change fst in_place]. rewrite IHe2 by (intros X; apply N; now apply hd_then). rewrite IHe3 by (intros X; apply N; now apply hd_else).
      f_equal. destruct e1; try (apply IHe1; intros X; apply N; now apply hd_test). symmetry. apply SL2; [intros X; apply N; now apply hd_test|].
      intros R. apply N. apply hd_test_slice; [exact R|discriminate].
    - cbn. unfold slice_to. destruct (rooted a (ESlice e hi lo)) eqn:R; [reflexivity|]. symmetry. apply SL2; [exact N|]. intros X. apply rooted_iff in X. congruence.
    - rewrite hides_concat in N. rewrite change_concat. cbn [fst in_place members] in *. rewrite bad_snoc in N.
      assert (snd (spine e1) = true <-> In (EVar a) (members e1)) as F.
      { destruct e1; try apply (flag _). cbn. split; [discriminate|intros [X|[]]; discriminate]. }
      assert (fst (spine e1) = in_place a b e1) as ->.
      { destruct e1; cbn [spine]; try (apply IHe1; intros X; apply N; left; first [now apply hides_concat | right; right; eexists; split; [now left|exact X]]).
        cbn [fst]. symmetry. apply SL2.
        - intros X. apply N. left. right. right. eexists. split; [now left|exact X].
        - intros X. apply N. left. left. eexists. split; [now left|]. split; [exact X|discriminate]. }
      f_equal. destruct e2; cbn [part fst]; try (apply IHe2; intros X; apply N; auto).
      + cbn [in_place]. destruct (Nat.eqb_spec x a) as [->|]; [|reflexivity]. cbn. destruct (snd (spine e1)); [|reflexivity]. exfalso. apply N. right. right. left. split; [reflexivity|]. now apply F.
      + symmetry. apply SL2; intros X; apply N; [tauto|]. right. left. split; [exact X|discriminate].
    - cbn [Move_model.change in_place]. destruct e; try (cbn [fst]; rewrite IHe; [reflexivity|]; intros X; apply N; now apply hd_extend).
      + cbn. destruct (Nat.eqb_spec x a) as [->|]; [|reflexivity]. exfalso. apply N. now apply hd_extended.
      + cbn [fst]. f_equal. symmetry. apply SL2; [intros X; apply N; now apply hd_extend|]. intros X. apply N. now apply hd_extended.
  Qed.

  (* some of the uses of a are now uses of b *)
  Inductive partly : expr -> expr -> Prop :=
  | py_here : partly (EVar a) (EVar b)
  | py_var x : partly (EVar x) (EVar x)
  | py_const v w s : partly (EConst v w s) (EConst v w s)
  | py_un op x x' : partly x x' -> partly (EUn op x) (EUn op x')
  | py_bin op x x' y y' : partly x x' -> partly y y' -> partly (EBin op x y) (EBin op x' y')
  | py_cond c c' x x' y y' : partly c c' -> partly x x' -> partly y y' -> partly (ECond c x y) (ECond c' x' y')
  | py_slice x x' hi lo : partly x x' -> partly (ESlice x hi lo) (ESlice x' hi lo)
  | py_concat x x' y y' : partly x x' -> partly y y' -> partly (EConcat x y) (EConcat x' y')
  | py_extend x x' w : partly x x' -> partly (EExtend x w) (EExtend x' w).
  Lemma partly_refl : forall e, partly e e.
  Proof. induction e; constructor; auto. Qed.
  Lemma partly_all : forall e, partly e (in_place a b e).
  Proof. induction e; cbn; try (constructor; auto; fail). destruct (Nat.eqb_spec x a) as [->|]; constructor. Qed.
  Lemma partly_change : forall e, partly e (fst (change e)).
  Proof.
    assert (forall e, partly e (slice_to a b e)) as SL by (intros e; unfold slice_to; destruct (rooted a e); [apply partly_all|apply partly_refl]).
    induction e.
    - cbn. destruct (Nat.eqb_spec x a) as [->|]; constructor.
    - constructor.
    - cbn. constructor. exact IHe.
    - cbn. constructor; assumption.
    - cbn [Move_model.change fst]. constructor; auto. destruct e1; auto. apply partly_refl.
    - apply SL.
    - rewrite change_concat. cbn [fst]. constructor.
      + destruct e1; cbn [spine fst]; auto. apply partly_refl.
      + destruct e2; cbn [part fst]; auto; [|apply partly_refl]. destruct (Nat.eqb_spec x a) as [->|]; cbn; [|constructor]. destruct (snd (spine e1)); constructor.
    - cbn [Move_model.change]. destruct e; cbn [fst]; try (constructor; exact IHe); apply partly_refl.
  Qed.
  Lemma partly_reads : forall e e' x, partly e e' -> x <> a -> x <> b -> In x (evars e') <-> In x (evars e).
  Proof. intros e e' x Pa Na Nb. induction Pa; cbn [evars]; rewrite ?in_app_iff; try tauto. cbn. intuition congruence. Qed.
  Lemma partly_sub : forall e e' x, partly e e' -> In x (evars e') -> In x (evars e) \/ x = b.
  Proof.
    intros e e' x Pa. induction Pa; cbn [evars]; rewrite ?in_app_iff; try tauto. cbn. intuition.
  Qed.
  Lemma partly_b : forall e e', partly e e' -> In b (evars e) -> In b (evars e').
  Proof. intros e e' Pa. induction Pa; cbn [evars]; rewrite ?in_app_iff; try tauto. cbn. intuition. Qed.
  Lemma partly_type : forall G e e', G a = G b -> partly e e' -> ewidth G e' = ewidth G e /\ esigned G e' = esigned G e.
  Proof.
    intros G e e' E Pa. induction Pa; cbn; try (now rewrite E); try tauto; repeat match goal with H : _ /\ _ |- _ => destruct H end; split; try congruence.
    - destruct (is_red op); congruence.
    - destruct (is_rel op); congruence.
  Qed.
  Lemma partly_ev : forall G r e e', G a = G b -> r a = r b -> partly e e' -> ev G r e' = ev G r e.
  Proof.
    intros G r e e' E Er Pa. induction Pa; cbn [ev]; try reflexivity.
    - now rewrite E, Er.
    - destruct (partly_type G _ _ E Pa) as [-> _]. now rewrite IHPa.
    - destruct (partly_type G _ _ E Pa1) as [-> ->]. destruct (partly_type G _ _ E Pa2) as [_ ->]. now rewrite IHPa1, IHPa2.
    - now rewrite IHPa1, IHPa2, IHPa3.
    - now rewrite IHPa.
    - destruct (partly_type G _ _ E Pa2) as [-> _]. now rewrite IHPa1, IHPa2.
    - destruct (partly_type G _ _ E Pa) as [-> ->]. now rewrite IHPa.
  Qed.
  Lemma right_partly : forall e, partly e (right a b e).
  Proof.
    intros e. unfold right, set_right. destruct e; try apply partly_change.
    - destruct (Nat.eqb_spec x a) as [->|]; constructor.
    - destruct (rooted a (ESlice e hi lo)) eqn:R; [|apply partly_refl]. unfold slice_to. rewrite R. apply partly_all.
  Qed.
  Lemma test_partly : forall e, partly e (test a b e).
  Proof. intros e. unfold test. destruct e; try apply right_partly; apply partly_refl. Qed.

  (* ---- statements ---- *)
  Definition moved_test (e : expr) : expr := if mem a (evars e) then test a b e else e.
  Lemma moved_test_partly : forall e, partly e (moved_test e).
  Proof. intros e. unfold moved_test. destruct (mem a (evars e)); [apply test_partly|apply partly_refl]. Qed.
  Definition moved_right (k : akind) (l : lhs) (e : expr) : expr := if uses a (SAssign k l e) then right a b e else e.
  Lemma moved_right_partly : forall k l e, partly e (moved_right k l e).
  Proof. intros k l e. unfold moved_right. destruct (uses a _); [apply right_partly|apply partly_refl]. Qed.
  Lemma ms_assign : forall k l e, ms (SAssign k l e) = SAssign k l (moved_right k l e).
  Proof. intros k l e. unfold moved_right. cbn [move_stmt]. now destruct (uses a _). Qed.
  Lemma ms_inside : forall s l, inside s (map ms l) -> exists s0, inside s0 l /\ s = ms s0.
  Proof.
    intros s l H. remember (map ms l) as m eqn:E. revert l E. induction H as [m I|m c t f I _ IH|m c t f I _ IH|m e cs d k bd I J _ IH|m e cs bd I _ IH|m i u v st bd I _ IH|m bd I _ IH]; intros l ->.
    - apply in_map_iff in I. destruct I as (s0 & <- & I). exists s0. split; [now apply in_here|reflexivity].
    - apply in_map_iff in I. destruct I as (s0 & E & I). destruct s0 as [k0 l0 e0| | | | | | |]; try discriminate; [rewrite ms_assign in E; discriminate|]. cbn in E. injection E as _ <- <-.
      destruct (IH _ eq_refl) as (s1 & I1 & ->). exists s1. split; [|reflexivity]. eapply in_then; eauto.
    - apply in_map_iff in I. destruct I as (s0 & E & I). destruct s0 as [k0 l0 e0| | | | | | |]; try discriminate; [rewrite ms_assign in E; discriminate|]. cbn in E. injection E as _ <- <-.
      destruct (IH _ eq_refl) as (s1 & I1 & ->). exists s1. split; [|reflexivity]. eapply in_else; eauto.
    - apply in_map_iff in I. destruct I as (s0 & E & I). destruct s0 as [k0 l0 e0| |e0 cs0 d0| | | | |]; try discriminate; [rewrite ms_assign in E; discriminate|]. cbn in E. injection E as _ <- <-.
      apply in_map_iff in J. destruct J as ([k0 b0] & E & J). cbn in E. injection E as <- <-.
      destruct (IH _ eq_refl) as (s1 & I1 & ->). exists s1. split; [|reflexivity]. eapply in_case; eauto.
    - apply in_map_iff in I. destruct I as (s0 & E & I). destruct s0 as [k0 l0 e0| |e0 cs0 d0| | | | |]; try discriminate; [rewrite ms_assign in E; discriminate|]. cbn in E. destruct d0 as [b0|]; [|discriminate].
      injection E as _ <- <-. destruct (IH _ eq_refl) as (s1 & I1 & ->). exists s1. split; [|reflexivity]. eapply in_default; eauto.
    - apply in_map_iff in I. destruct I as (s0 & E & I). destruct s0 as [k0 l0 e0| | | | | | |]; try discriminate; [rewrite ms_assign in E; discriminate|]. cbn in E. injection E as -> -> -> -> <-.
      destruct (IH _ eq_refl) as (s1 & I1 & ->). exists s1. split; [|reflexivity]. eapply in_for; eauto.
    - apply in_map_iff in I. destruct I as (s0 & E & I). destruct s0 as [k0 l0 e0| | | | | | |]; try discriminate; [rewrite ms_assign in E; discriminate|]. cbn in E. injection E as <-.
      destruct (IH _ eq_refl) as (s1 & I1 & ->). exists s1. split; [|reflexivity]. eapply in_block; eauto.
  Qed.
  Lemma inside_ms : forall s l, inside s l -> inside (ms s) (map ms l).
  Proof.
    intros s l H. induction H as [l I|l c t f I _ IH|l c t f I _ IH|l e cs d k bd I J _ IH|l e cs bd I _ IH|l i u v st bd I _ IH|l bd I _ IH];
      apply (in_map ms) in I.
    - now apply in_here.
    - eapply in_then; [exact I|exact IH].
    - eapply in_else; [exact I|exact IH].
    - eapply (in_case _ _ _ _ _ k (map ms bd)); [exact I| |exact IH]. apply in_map_iff. exists (k, bd). auto.
    - eapply in_default; [exact I|exact IH].
    - eapply in_for; [exact I|exact IH].
    - eapply in_block; [exact I|exact IH].
  Qed.
  Lemma stmt_reads : forall x s, reads_stmt x s <-> In x (stmt_sinks s).
  Proof. intros x s. symmetry. apply reads_sinks. Qed.
  Lemma uses_iff : forall s, uses a s = true <-> reads_stmt a s.
  Proof. intros s. unfold uses. rewrite mem_In. symmetry. apply stmt_reads. Qed.
  (* which statements still read a *)
  Lemma right_stays : forall e, ~ elsewhere a e -> In a (evars (right a b e)) <-> hides a e.
  Proof.
    intros e N. unfold right, set_right. destruct e; try apply change_reads; try (cbn in N; tauto).
    - cbn in N. destruct (Nat.eqb_spec x a) as [->|Nx]; [|tauto]. cbn. split; [intros [X|[]]; congruence|intros X; inversion X].
    - cbn in N. destruct (rooted a (ESlice e hi lo)) eqn:R.
      + apply (change_reads (ESlice e hi lo)).
      + exfalso. apply N. intros R1. assert (rooted a (ESlice e hi lo) = true) as R2 by (apply rooted_iff; exact R1). congruence.
  Qed.
  Lemma fails_iff : forall s, fails a b s = true <-> stuck a s.
  Proof.
    assert (forall e, match set_right a b e with Throw => true | _ => false end = true <-> elsewhere a e) as K.
    { intros e. unfold set_right. destruct e; cbn; try (split; [discriminate|tauto]); try tauto.
      - destruct (Nat.eqb_spec x a) as [E0|E0]; split; intros X; try discriminate; try reflexivity; try exact E0; congruence.
      - destruct (rooted a (ESlice e hi lo)) eqn:R; split; try discriminate; auto.
        + intros N. exfalso. apply N. now apply rooted_iff in R.
        + intros _ X. assert (rooted a (ESlice e hi lo) = true) as R2 by (apply rooted_iff; exact X). congruence. }
    intros s. unfold fails. rewrite andb_true_iff, uses_iff. destruct s; cbn [right_of]; try rewrite K.
    - split; [intros [R E]; inversion R as [? ? ? R0| | |]; subst; now constructor|]. intros X. inversion X; subst. split; [constructor; assumption|assumption].
    - split; [intros [R E]; inversion R; subst; now constructor|]. intros X. inversion X; subst. split; [constructor; assumption|assumption].
    - split; [intros [R E]; inversion R; subst; now constructor|]. intros X. inversion X; subst. split; [constructor; assumption|assumption].
    - split; [intros [_ X]; discriminate|intros X; inversion X].
    - split; [intros [_ X]; discriminate|intros X; inversion X].
    - split; [intros [R E]; inversion R; subst; now constructor|]. intros X. inversion X; subst. split; [constructor; assumption|assumption].
    - split; [intros [_ X]; discriminate|intros X; inversion X].
    - split; [intros [_ X]; discriminate|intros X; inversion X].
  Qed.
  Lemma test_stays : forall e, ~ (In a (evars e) /\ elsewhere a e) -> In a (evars (moved_test e)) <-> root e = Some a \/ hides a e.
  Proof.
    intros e N. unfold moved_test. destruct (mem a (evars e)) eqn:M.
    - apply mem_In in M. assert (~ elsewhere a e) as N1 by tauto. unfold test. destruct e; try (rewrite (right_stays _ N1); cbn [root]; split; [auto|intros [X|X]; [discriminate|exact X]]).
      + cbn in *. destruct M as [->|[]]. tauto.
      + cbn [evars]. split; [|intros _; exact M]. intros _. left. destruct (rooted a (ESlice e hi lo)) eqn:R; [now apply rooted_iff in R|]. exfalso. apply N1. cbn. intros X.
        assert (rooted a (ESlice e hi lo) = true) as R2 by (apply rooted_iff; exact X). congruence.
    - apply mem_false in M. split; [tauto|]. intros [X|X]; exfalso; apply M; [rewrite (root_evars _ _ X); now left|now apply hides_in].
  Qed.
  Lemma stmt_stays : forall s, ~ stuck a s -> reads_stmt a (ms s) <-> holds a s.
  Proof.
    intros s N. destruct s as [k l e|c t f|e cs dd|i u v st bd|bd|e| |k].
    - rewrite ms_assign. assert (In a (lhs_reads l) \/ In a (evars (moved_right k l e)) <-> In a (lhs_reads l) \/ hides a e) as K.
      { destruct (in_dec Nat.eq_dec a (lhs_reads l)) as [I|I]; [tauto|]. apply or_iff_compat_l. unfold moved_right, uses. destruct (mem a (stmt_sinks (SAssign k l e))) eqn:M.
        - apply mem_In in M. apply right_stays. intros X. apply N. cbn in M. apply in_app_or in M. constructor; [exact M|exact X].
        - apply mem_false in M. cbn in M. rewrite in_app_iff in M. split; [tauto|]. intros X. apply hides_in in X. tauto. }
      split; intros X; inversion X; subst; [|constructor; apply K; auto|constructor; apply K; auto].
      match goal with H0 : _ \/ _ |- _ => apply K in H0 as [H0|H0] end; [now apply ho_index|now apply ho_assign].
    - assert (~ (In a (evars c) /\ elsewhere a c)) as N1 by (intros [X Y]; apply N; now constructor). pose proof (test_stays c N1) as K.
      cbn [move_stmt]. fold (moved_test c). split; intros X; inversion X; subst; constructor; now apply K.
    - assert (~ (In a (evars e) /\ elsewhere a e)) as N1 by (intros [X Y]; apply N; now constructor). pose proof (test_stays e N1) as K.
      cbn [move_stmt]. fold (moved_test e). split; intros X; inversion X; subst; constructor; now apply K.
    - cbn. split; intros X; inversion X.
    - cbn. split; intros X; inversion X.
    - assert (~ (In a (evars e) /\ elsewhere a e)) as N1 by (intros [X Y]; apply N; now constructor). pose proof (test_stays e N1) as K.
      cbn [move_stmt]. fold (moved_test e). split; intros X; inversion X; subst; constructor; now apply K.
    - cbn. split; intros X; inversion X.
    - cbn. split; intros X; inversion X.
  Qed.
  Lemma move_body : forall p, body_of (move_proc a b p) = map ms (body_of p).
  Proof. intros [l e|l|evs l]; cbn [move_proc body_of map]; try reflexivity. rewrite ms_assign. unfold moved_right. destruct (uses a _); reflexivity. Qed.
  Lemma move_events : forall p, events_of (move_proc a b p) = events_of p.
  Proof. intros [l e|l|evs l]; cbn [move_proc events_of]; try reflexivity. destruct (uses a _); reflexivity. Qed.
  Lemma ms_assigns : forall x l, assigns x (map ms l) <-> assigns x l.
  Proof.
    intros x l. split.
    - intros (k & lh & e & I & E). apply ms_inside in I. destruct I as (s0 & I & E0). destruct s0 as [k0 l0 e0| | | | | | |]; try discriminate.
      rewrite ms_assign in E0. injection E0 as -> -> ->. exists k0, l0, e0. auto.
    - intros (k & lh & e & I & E). apply inside_ms in I. rewrite ms_assign in I. exists k, lh, (moved_right k lh e). auto.
  Qed.
  (* what is read otherwise *)
  Lemma stmt_others : forall x s, x <> a -> ~ stuck a s -> ~ holds a s -> reads_stmt x (ms s) <-> reads_stmt x s \/ (x = b /\ reads_stmt a s).
  Proof.
    assert (forall e x, x <> a -> In a (evars e) -> ~ elsewhere a e -> ~ hides a e -> In x (evars (right a b e)) <-> In x (evars e) \/ (x = b /\ In a (evars e))) as R0.
    { intros e x Nx I Ne Nh. assert (right a b e = in_place a b e) as ->.
      { unfold right, set_right. destruct e; try (now apply change_moves); cbn in Ne; try tauto.
        - destruct (Nat.eqb_spec x0 a) as [->|]; [cbn; now rewrite Nat.eqb_refl|tauto].
        - destruct (rooted a (ESlice e hi lo)) eqn:R; [unfold slice_to; now rewrite R|]. exfalso. apply Ne. intros X.
          assert (rooted a (ESlice e hi lo) = true) as R2 by (apply rooted_iff; exact X). congruence. }
      rewrite in_place_reads. tauto. }
    assert (forall e x, x <> a -> ~ (In a (evars e) /\ elsewhere a e) -> root e <> Some a -> ~ hides a e -> In x (evars (moved_test e)) <-> In x (evars e) \/ (x = b /\ In a (evars e))) as T0.
    { intros e x Nx Ne Nr Nh. unfold moved_test. destruct (mem a (evars e)) eqn:M; [|apply mem_false in M; tauto]. apply mem_In in M. assert (~ elsewhere a e) as N1 by tauto. unfold test.
      destruct e; try (now apply R0); cbn in *; [destruct M as [->|[]]; congruence|tauto]. }
    intros x s Nx Ns Nh. destruct s as [k l e|c t f|e cs dd|i u v st bd|bd|e| |k].
    - rewrite ms_assign. assert (In x (evars (moved_right k l e)) <-> In x (evars e) \/ (x = b /\ In a (evars e))) as K.
      { unfold moved_right, uses. destruct (mem a (stmt_sinks (SAssign k l e))) eqn:M.
        - apply mem_In in M. cbn in M. apply in_app_or in M. destruct M as [M|M]; [exfalso; apply Nh; now apply ho_index|]. apply R0; auto; intros X; [apply Ns; constructor; auto|apply Nh; now apply ho_assign].
        - apply mem_false in M. cbn in M. rewrite in_app_iff in M. tauto. }
      assert (~ In a (lhs_reads l)) as Nl by (intros X; apply Nh; now apply ho_index).
      split.
      + intros X. inversion X as [? ? ? H0| | |]; subst. rewrite K in H0. destruct H0 as [H0|[H0|[-> H0]]]; [left; constructor; auto|left; constructor; auto|right; split; [reflexivity|constructor; auto]].
      + intros [X|[-> X]]; inversion X as [? ? ? H0| | |]; subst; constructor; rewrite K; tauto.
    - cbn [move_stmt]. fold (moved_test c). assert (~ (In a (evars c) /\ elsewhere a c)) as N1 by (intros [X Y]; apply Ns; now constructor).
      assert (root c <> Some a) as N2 by (intros X; apply Nh; constructor; auto). assert (~ hides a c) as N3 by (intros X; apply Nh; constructor; auto). pose proof (T0 c x Nx N1 N2 N3) as K.
      split; [intros X; inversion X; subst|intros [X|[-> X]]; inversion X; subst; constructor; apply K; auto].
      match goal with H0 : In x _ |- _ => apply K in H0; destruct H0 as [H0|[-> H0]] end; [left; now constructor|right; split; [reflexivity|now constructor]].
    - cbn [move_stmt]. fold (moved_test e). assert (~ (In a (evars e) /\ elsewhere a e)) as N1 by (intros [X Y]; apply Ns; now constructor).
      assert (root e <> Some a) as N2 by (intros X; apply Nh; constructor; auto). assert (~ hides a e) as N3 by (intros X; apply Nh; constructor; auto). pose proof (T0 e x Nx N1 N2 N3) as K.
      split; [intros X; inversion X; subst|intros [X|[-> X]]; inversion X; subst; constructor; apply K; auto].
      match goal with H0 : In x _ |- _ => apply K in H0; destruct H0 as [H0|[-> H0]] end; [left; now constructor|right; split; [reflexivity|now constructor]].
    - cbn. split; [intros X; inversion X|intros [X|[_ X]]; inversion X].
    - cbn. split; [intros X; inversion X|intros [X|[_ X]]; inversion X].
    - cbn [move_stmt]. fold (moved_test e). assert (~ (In a (evars e) /\ elsewhere a e)) as N1 by (intros [X Y]; apply Ns; now constructor).
      assert (root e <> Some a) as N2 by (intros X; apply Nh; constructor; auto). assert (~ hides a e) as N3 by (intros X; apply Nh; constructor; auto). pose proof (T0 e x Nx N1 N2 N3) as K.
      split; [intros X; inversion X; subst|intros [X|[-> X]]; inversion X; subst; constructor; apply K; auto].
      match goal with H0 : In x _ |- _ => apply K in H0; destruct H0 as [H0|[-> H0]] end; [left; now constructor|right; split; [reflexivity|now constructor]].
    - cbn. split; [intros X; inversion X|intros [X|[_ X]]; inversion X].
    - cbn. split; [intros X; inversion X|intros [X|[_ X]]; inversion X].
  Qed.
  Lemma move_item_moved : forall g it, i_gen it = g -> (forall s, inside s (body_of (i_proc it)) -> reads_stmt a s -> ~ holds a s /\ ~ stuck a s) -> moved a b it (move_item a b g it).
  Proof.
    intros g it Eg Hs. unfold move_item. rewrite Eg, Nat.eqb_refl. constructor; cbn [i_id i_gen i_proc]; auto using move_events.
    - intros x. rewrite move_body. apply ms_assigns.
    - intros x. rewrite move_body.
      assert (forall s, inside s (body_of (i_proc it)) -> ~ holds a s /\ ~ stuck a s) as Hs2.
      { intros s I. split; intros X; (assert (reads_stmt a s) as R; [|destruct (Hs s I R); contradiction]).
        - inversion X; subst; constructor; auto; try (right; now apply hides_in); match goal with H0 : _ \/ _ |- _ => destruct H0 as [H0|H0] end; try (now apply hides_in); rewrite (root_evars _ _ H); now left.
        - inversion X; subst; constructor; auto. }
      split.
      + intros (s & I & R). apply ms_inside in I. destruct I as (s0 & I & ->). destruct (Hs2 s0 I) as [A B]. destruct (Nat.eq_dec x a) as [->|Nx].
        * exfalso. apply A. now apply stmt_stays.
        * apply stmt_others in R; auto. destruct R as [R|[-> R]]; [left; split; [exact Nx|exists s0; auto]|right; split; [reflexivity|exists s0; auto]].
      + intros [[Nx (s & I & R)]|[-> (s & I & R)]]; destruct (Hs2 s I) as [A B]; exists (ms s); (split; [now apply inside_ms|]); apply stmt_others; auto.
  Qed.

  (* ---- what a process does ---- *)
  Variable G : tenv.
  Hypothesis HG : G a = G b.
  Definition eqv (st : pstate) : Prop := st_cur st a = st_cur st b.
  Definition steady (l : list stmt) : Prop := ~ changes_now a l /\ ~ changes_now b l.
  Definition QM (s : stmt) : Prop := steady [s] -> forall st, eqv st -> exec G (ms s) st = exec G s st.
  Lemma eqv_exec : forall s st, steady [s] -> eqv st -> eqv (exec G s st).
  Proof. intros s st [Na Nb] E. unfold eqv. rewrite (exec_frame G a s Na st), (exec_frame G b s Nb st). exact E. Qed.
  Lemma eqv_run : forall l st, steady l -> eqv st -> eqv (run G l st).
  Proof. intros l st [Na Nb] E. unfold eqv. rewrite (run_frame G a l Na st), (run_frame G b l Nb st). exact E. Qed.
  Lemma changes_sub : forall x l l', (forall s, inside s l -> inside s l') -> changes_now x l -> changes_now x l'.
  Proof. intros x l l' Hi [(k & lh & e & I & N & E)|(u & v & st & bd & I)]; [left; exists k, lh, e; auto|right; exists u, v, st, bd; auto]. Qed.
  Lemma steady_sub : forall l l', (forall s, inside s l -> inside s l') -> steady l' -> steady l.
  Proof. intros l l' Hi [Na Nb]. split; intros X; [apply Na|apply Nb]; eapply changes_sub; eauto. Qed.
  Lemma ms_run_aux : forall l, Forall QM l -> steady l -> forall st, eqv st -> run G (map ms l) st = run G l st.
  Proof.
    induction 1 as [|s r Hs _ IH]; intros F st E; [reflexivity|]. cbn [map]. rewrite !run_cons.
    assert (steady [s]) as F1 by (eapply steady_sub; [|exact F]; intros y; apply ins_hd). assert (steady r) as F2 by (eapply steady_sub; [|exact F]; intros y; apply ins_tl).
    rewrite (Hs F1 st E). destruct (st_status (exec G s st)); auto. apply IH; auto. now apply eqv_exec.
  Qed.
  Lemma ms_exec : forall s, QM s.
  Proof.
    induction s as [k l e|c t f Ht Hf|e cs d Hcs Hd|i u v sp body Hb|body Hb|e| |k] using stmt_ind'; intros F st E; try reflexivity.
    - rewrite ms_assign. cbn [exec]. unfold do_assign. now rewrite (partly_ev G (st_cur st) e _ HG E (moved_right_partly k l e)).
    - cbn [move_stmt]. fold (moved_test c). rewrite !exec_if. unfold truth. rewrite (partly_ev G (st_cur st) c _ HG E (moved_test_partly c)).
      destruct (negb _); apply ms_run_aux; auto; (eapply steady_sub; [|exact F]; intros y Hy); [now apply ins_then|now apply ins_else].
    - cbn [move_stmt]. fold (moved_test e). rewrite !exec_switch, (partly_ev G (st_cur st) e _ HG E (moved_test_partly e)). destruct (partly_type G _ _ HG (moved_test_partly e)) as [-> _].
      assert (forall k l, In (k, l) cs -> steady l) as N1 by (intros k l X; eapply steady_sub; [|exact F]; intros y Hy; eapply ins_case; eauto).
      assert (forall l, d = Some l -> steady l) as N2 by (intros l ->; eapply steady_sub; [|exact F]; intros y Hy; now apply ins_def).
      generalize (ev G (st_cur st) e) (ewidth G e). intros z w. clear F.
      induction Hcs as [|[k l] r Hb Hr IH]; cbn [map fst snd pick].
      + destruct d as [l|]; [|reflexivity]. apply ms_run_aux; [now apply Hd|now apply N2|exact E].
      + destruct (z =? enc w k); [apply ms_run_aux; auto; apply (N1 k); now left|]. apply IH. intros k1 b1 I1. apply (N1 k1). now right.
    - cbn [move_stmt]. rewrite !exec_for. assert (steady body) as N by (eapply steady_sub; [|exact F]; intros y Hy; now apply ins_for).
      assert (i <> a /\ i <> b) as [Na Nb] by (destruct F as [F1 F2]; split; intros ->; [apply F1|apply F2]; right; do 4 eexists; apply inside_self).
      clear F. revert st E. induction (for_values u v sp) as [|z vs IH]; intros st E; [reflexivity|]. cbn [loop].
      set (s1 := {| st_cur := upd (st_cur st) i _; st_nba := _; st_status := _ |}).
      assert (eqv s1) as E1 by (unfold eqv, s1, upd; cbn [st_cur]; destruct (Nat.eqb_spec a i); [congruence|]; destruct (Nat.eqb_spec b i); [congruence|exact E]).
      rewrite (ms_run_aux body Hb N s1 E1). destruct (st_status (run G body s1)); auto. apply IH. now apply eqv_run.
    - cbn [move_stmt]. rewrite !exec_block. apply ms_run_aux; auto. eapply steady_sub; [|exact F]. intros y Hy. now apply ins_block.
    - cbn [move_stmt]. fold (moved_test e). cbn [exec]. now rewrite (partly_ev G (st_cur st) e _ HG E (moved_test_partly e)).
  Qed.
  Lemma ms_run : forall l st, steady l -> eqv st -> run G (map ms l) st = run G l st.
  Proof. intros l st F E. apply ms_run_aux; auto. apply Forall_forall. intros; apply ms_exec. Qed.
  (* a process that does not use a stays *)
  Lemma ms_none : forall s, ~ reads a [s] -> ms s = s.
  Proof using.
    clear. assert (forall l l' : list stmt, (forall y, inside y l -> inside y l') -> ~ reads a l' -> ~ reads a l) as Sub.
    { intros l l' Hi N (y & I & R). apply N. exists y. auto. }
    assert (forall l, Forall (fun s => ~ reads a [s] -> ms s = s) l -> ~ reads a l -> map ms l = l) as L.
    { induction 1 as [|s r Hs _ IH]; intros N; [reflexivity|]. cbn [map]. f_equal; [apply Hs|apply IH]; (eapply Sub; [|exact N]); intros y; [apply ins_hd|apply ins_tl]. }
    assert (forall e, ~ In a (evars e) -> moved_test e = e) as T0 by (intros e N; unfold moved_test; now rewrite (proj2 (mem_false _ _) N)).
    induction s as [k l e|c t f Ht Hf|e cs d Hcs Hd|i u v sp body Hb|body Hb|e| |k] using stmt_ind'; intros N; try reflexivity.
    - cbn [move_stmt]. destruct (uses a (SAssign k l e)) eqn:U; [|reflexivity]. apply uses_iff in U. exfalso. apply N. exists (SAssign k l e). split; [apply inside_self|exact U].
    - cbn [move_stmt]. fold (moved_test c). rewrite T0 by (intros X; apply N; exists (SIf c t f); split; [apply inside_self|now constructor]).
      rewrite (L t Ht), (L f Hf); [reflexivity| |]; (eapply Sub; [|exact N]); intros y Hy; [now apply ins_else|now apply ins_then].
    - cbn [move_stmt]. fold (moved_test e). rewrite T0 by (intros X; apply N; exists (SSwitch e cs d); split; [apply inside_self|now constructor]). f_equal.
      + assert (forall k l, In (k, l) cs -> ~ reads a l) as N1 by (intros k l X; eapply Sub; [|exact N]; intros y Hy; eapply ins_case; eauto). clear N Hd T0.
        induction Hcs as [|[k l] r Hb Hr IH]; [reflexivity|]. cbn [map fst snd]. rewrite (L l Hb) by (apply (N1 k); now left). f_equal. apply IH. intros k1 l1 I. apply (N1 k1). now right.
      + destruct d as [l|]; [|reflexivity]. f_equal. apply L; [now apply Hd|]. eapply Sub; [|exact N]. intros y Hy. now apply ins_def.
    - cbn [move_stmt]. rewrite L; auto. eapply Sub; [|exact N]. intros y Hy. now apply ins_for.
    - cbn [move_stmt]. rewrite L; auto. eapply Sub; [|exact N]. intros y Hy. now apply ins_block.
    - cbn [move_stmt]. fold (moved_test e). rewrite T0; [reflexivity|]. intros X; apply N; exists (SReturn e); split; [apply inside_self|now constructor].
  Qed.
  Lemma ms_none_body : forall l, ~ reads a l -> map ms l = l.
  Proof using.
    clear. induction l as [|s r IH]; intros N; [reflexivity|]. cbn [map]. rewrite ms_none, IH; [reflexivity| |]; intros (y & I & R); apply N; exists y; (split; [|exact R]); [now apply ins_tl|now apply ins_hd].
  Qed.
End Move.

(* designs whose processes do the same in the states that occur go through the same states *)
Record alike (G : tenv) (P : venv -> Prop) (it it' : item) : Prop := {
  al_events : events_of (i_proc it') = events_of (i_proc it);
  al_assigns : forall x, assigns x (body_of (i_proc it')) <-> assigns x (body_of (i_proc it));
  al_run : forall r, P r -> run G (body_of (i_proc it')) (start_state r) = run G (body_of (i_proc it)) (start_state r) }.
Section Alike.
  Variables (G : tenv) (P : venv -> Prop) (d d' : design).
  Hypothesis HA : Forall2 (alike G P) d d'.
  Hypothesis HP : forall r, in_range G r -> settled G d r -> P r.
  Hypothesis HP' : forall r, in_range G r -> settled G d' r -> P r.
  Lemma alike_in : forall it, In it d -> exists it', In it' d' /\ alike G P it it'.
  Proof using HA. clear HP HP'. pose proof HA as HA0. clear HA. induction HA0 as [|x y l l' Hx _ IH]; intros it J; [destruct J|]. destruct J as [<-|I]; [eexists; split; [now left|exact Hx]|]. destruct (IH it I) as (z & Iz & Hz). exists z. split; [now right|exact Hz]. Qed.
  Lemma alike_in' : forall it', In it' d' -> exists it, In it d /\ alike G P it it'.
  Proof using HA. clear HP HP'. pose proof HA as HA0. clear HA. induction HA0 as [|x y l l' Hx _ IH]; intros it J; [destruct J|]. destruct J as [<-|I]; [eexists; split; [now left|exact Hx]|]. destruct (IH it I) as (z & Iz & Hz). exists z. split; [now right|exact Hz]. Qed.
  Lemma alike_settled : forall r, in_range G r -> settled G d r <-> settled G d' r.
  Proof.
    intros r R. split; intros S0 it I E x.
    - destruct (alike_in' it I) as (it0 & I0 & A). unfold activate. rewrite (al_run _ _ _ _ A r (HP r R S0)). apply (S0 it0 I0). now rewrite <- (al_events _ _ _ _ A).
    - destruct (alike_in it I) as (it0 & I0 & A). unfold activate. rewrite <- (al_run _ _ _ _ A r (HP' r R S0)). apply (S0 it0 I0). now rewrite (al_events _ _ _ _ A).
  Qed.
  Lemma alike_queue : forall r r', P r -> flat_map (fun it => queued G it r) (fired G d' r r') = flat_map (fun it => queued G it r) (fired G d r r').
  Proof using HA.
    clear HP HP'. intros r r' Pr. unfold fired. pose proof HA as HA0. clear HA. induction HA0 as [|x y l l' Hx _ IH]; [reflexivity|]. cbn [filter]. rewrite (al_events _ _ _ _ Hx).
    destruct (existsb _ _); [|exact IH]. cbn [flat_map]. rewrite IH. f_equal. unfold queued. now rewrite (al_run _ _ _ _ Hx r Pr).
  Qed.
  Lemma alike_clocked : forall x, clocked d x <-> clocked d' x.
  Proof.
    intros x. split; intros (it & I & E & As).
    - destruct (alike_in it I) as (it0 & I0 & A). exists it0. split; [exact I0|]. split; [now rewrite (al_events _ _ _ _ A)|]. now apply (al_assigns _ _ _ _ A).
    - destruct (alike_in' it I) as (it0 & I0 & A). exists it0. split; [exact I0|]. split; [now rewrite <- (al_events _ _ _ _ A)|]. now apply (al_assigns _ _ _ _ A).
  Qed.
  Lemma alike_settled_last : forall h r l, h = r :: l -> history G d h -> settled G d r.
  Proof. intros h r l E Hh. destruct Hh as [r0 S0|r0 r1 l0 _ [S0 _]]; injection E as <- _; exact S0. Qed.
  Lemma alike_history : forall h, Forall (in_range G) h -> history G d h <-> history G d' h.
  Proof.
    intros h R. split; intros Hh.
    - induction Hh as [r S0|r r' l Hh IH [S0 N]].
      + apply h_first. inversion R; subst. now apply alike_settled.
      + inversion R as [|? ? R1 Rl]; subst. inversion Rl as [|? ? R2 _]; subst. apply h_next; [now apply IH|]. split; [now apply alike_settled|]. intros x C. rewrite alike_queue.
        * apply N. now apply alike_clocked.
        * apply HP; [exact R2|]. eapply alike_settled_last; [reflexivity|exact Hh].
    - induction Hh as [r S0|r r' l Hh IH [S0 N]].
      + apply h_first. inversion R; subst. now apply alike_settled.
      + inversion R as [|? ? R1 Rl]; subst. inversion Rl as [|? ? R2 _]; subst. specialize (IH Rl). apply h_next; [exact IH|]. split; [now apply alike_settled|]. intros x C. rewrite <- alike_queue.
        * apply N. now apply alike_clocked.
        * apply HP; [exact R2|]. eapply alike_settled_last; [reflexivity|exact IH].
  Qed.
End Alike.
