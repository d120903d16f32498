From Coq Require Import Permutation Sorted.
From Verif Require Import Base Num_model Decl_model Decl_proofs Call_spec Call_model.
Local Open Scope list_scope.

Section MapLemmas.
Context {V : Type}.
Implicit Types l : list (string * V).
Lemma find_in : forall l n v, find n l = Some v -> In (n, v) l.
Proof.
  induction l as [|(m, w) l IH]; cbn; intros n v H; [discriminate|]. destruct (String.eqb_spec n m); [injection H as ->; subst; now left|right; auto].
Qed.
Lemma find_none : forall l n, find n l = None <-> ~ In n (map fst l).
Proof.
  induction l as [|(m, w) l IH]; cbn; intros n; [tauto|]. destruct (String.eqb_spec n m); [subst; split; [discriminate|tauto]|].
  rewrite IH. split; [intros H [->|K]; auto|tauto].
Qed.
Lemma find_some : forall l n, In n (map fst l) -> exists v, find n l = Some v.
Proof. intros l n H. destruct (find n l) eqn:E; [eauto|]. now apply find_none in E. Qed.
Lemma find_nodup : forall l n v, NoDup (map fst l) -> In (n, v) l -> find n l = Some v.
Proof.
  induction l as [|(m, w) l IH]; cbn; intros n v N H; [easy|]. inversion N; subst. destruct H as [H|H].
  - injection H as -> ->. now rewrite String.eqb_refl.
  - destruct (String.eqb_spec n m); [|auto]. subst. exfalso. apply H2. change m with (fst (m, v)). now apply in_map.
Qed.
Lemma emplace_nodup : forall l n v, NoDup (map fst l) -> NoDup (map fst (emplace n v l)).
Proof.
  intros l n v N. unfold emplace. destruct (find n l) eqn:E; [exact N|]. rewrite map_app. apply nodup_app2; [exact N|repeat constructor; auto|].
  cbn. apply find_none in E. intros x H [<-|[]]. auto.
Qed.
Lemma emplace_names : forall l n v m, In m (map fst (emplace n v l)) <-> m = n \/ In m (map fst l).
Proof.
  intros l n v m. unfold emplace. destruct (find n l) eqn:E.
  - apply find_in in E. split; [auto|]. intros [->|H]; [|exact H]. change n with (fst (n, v0)). now apply in_map.
  - rewrite map_app, in_app_iff. cbn. intuition auto.
Qed.
Lemma find_emplace : forall l n v m, find m (emplace n v l) = match find m l with Some w => Some w | None => if String.eqb m n then Some v else None end.
Proof.
  intros l n v m. unfold emplace. destruct (find n l) eqn:E.
  - destruct (find m l) eqn:F; [reflexivity|]. destruct (String.eqb_spec m n); [congruence|reflexivity].
  - clear E. induction l as [|(k, w) l IH]; cbn; [reflexivity|]. destruct (String.eqb m k); [reflexivity|apply IH].
Qed.
Lemma in_order_perm : forall l, Permutation l (in_order l).
Proof. intros. apply ssort_perm. Qed.
End MapLemmas.

Lemma str_total : forall a b, str_ltb a b = false -> str_ltb b a = false -> a = b.
Proof.
  induction a as [|x a IH]; intros [|y b]; cbn [str_ltb]; try discriminate; auto.
  rewrite !orb_false_iff, !Nat.ltb_ge. intros [H K] [H' K']. assert (E : Ascii.nat_of_ascii x = Ascii.nat_of_ascii y) by lia.
  rewrite E, Nat.eqb_refl in *. cbn in *. f_equal; [|auto].
  rewrite <- (Ascii.ascii_nat_embedding x), <- (Ascii.ascii_nat_embedding y). now rewrite E.
Qed.
(* a sorted list is determined by its elements *)
Lemma sorted_unique {A} (R : A -> A -> Prop) : forall l l', StronglySorted R l -> StronglySorted R l' -> Permutation l l' ->
  (forall a b, In a l -> In b l -> R a b -> R b a -> a = b) -> l = l'.
Proof.
  induction l as [|a l IH]; intros l' S1 S2 P AS.
  - now apply Permutation_nil in P.
  - destruct l' as [|b l']; [symmetry in P; now apply Permutation_nil in P|].
    assert (E : a = b).
    { assert (Ha : In a (b :: l')) by (eapply Permutation_in; [exact P|now left]).
      assert (Hb : In b (a :: l)) by (eapply Permutation_in; [symmetry; exact P|now left]).
      destruct Ha as [->|Ha]; [reflexivity|]. destruct Hb as [->|Hb]; [reflexivity|].
      apply StronglySorted_inv in S1 as [_ F1]. apply StronglySorted_inv in S2 as [_ F2].
      rewrite Forall_forall in F1, F2. apply AS; [now left|now right|now apply F1|now apply F2]. }
    subst b. f_equal. apply IH.
    + now apply StronglySorted_inv in S1.
    + now apply StronglySorted_inv in S2.
    + eapply Permutation_cons_inv; exact P.
    + intros x y Hx Hy. apply AS; now right.
Qed.
Lemma sorted_map {A B} (f : A -> B) (R : B -> B -> Prop) : forall l, StronglySorted (fun a b => R (f a) (f b)) l -> StronglySorted R (map f l).
Proof.
  induction l as [|a l IH]; intros H; cbn; [constructor|]. apply StronglySorted_inv in H as [H F]. constructor; [auto|].
  rewrite Forall_map. exact F.
Qed.
Lemma sorted_map_in {A B} (f : A -> B) (R : B -> B -> Prop) (Q : A -> A -> Prop) : forall l,
  (forall a b, In a l -> In b l -> Q a b -> R (f a) (f b)) -> StronglySorted Q l -> StronglySorted R (map f l).
Proof.
  induction l as [|a l IH]; intros I H; cbn; [constructor|]. apply StronglySorted_inv in H as [H F]. constructor.
  - apply IH; [|exact H]. intros x y Hx Hy. apply I; now right.
  - rewrite Forall_map. rewrite Forall_forall in F |- *. intros x Hx. apply I; [now left|now right|auto].
Qed.
Lemma in_order_sorted {V} : forall l : list (string * V), StronglySorted (leq str_ltb) (map fst (in_order l)).
Proof.
  intros l. apply (sorted_map fst (leq str_ltb)). unfold in_order.
  refine (ssort_sorted (fun a b : string * V => str_ltb (fst a) (fst b)) _ _ l).
  - intros a b. apply str_asym.
  - intros a b c. apply str_neg.
Qed.
Lemma in_order_unique {V W} : forall (l : list (string * V)) (l' : list (string * W)), Permutation (map fst l) (map fst l') ->
  map fst (in_order l) = map fst (in_order l').
Proof.
  intros l l' P. apply (sorted_unique (leq str_ltb)); try apply in_order_sorted.
  - transitivity (map fst l'); [|apply Permutation_map, in_order_perm]. transitivity (map fst l); [|exact P].
    symmetry. apply Permutation_map, in_order_perm.
  - intros a b _ _ H K. now apply str_total.
Qed.
Definition kleq {A} (key : A -> nat) (a b : A) := (key a <= key b)%nat.
Lemma sort_by_sorted {A} (key : A -> nat) : forall l, StronglySorted (kleq key) (sort_by key l).
Proof.
  intros l. assert (H : StronglySorted (leq (fun a b => Nat.ltb (key a) (key b))) (sort_by key l)).
  { refine (ssort_sorted _ _ _ l).
    - intros a b. rewrite Nat.ltb_lt, Nat.ltb_ge. lia.
    - intros a b c. rewrite !Nat.ltb_lt. lia. }
  induction H; constructor; auto. eapply Forall_impl; [|exact H0]. intros b. unfold leq, kleq. rewrite Nat.ltb_ge. auto.
Qed.
Lemma sort_by_perm {A} (key : A -> nat) l : Permutation l (sort_by key l).
Proof. apply ssort_perm. Qed.
Lemma sort_by_unique {A} (key : A -> nat) : forall l l', StronglySorted (kleq key) l' -> Permutation l l' ->
  (forall a b, In a l -> In b l -> key a = key b -> a = b) -> sort_by key l = l'.
Proof.
  intros l l' Sd P I. apply (sorted_unique (kleq key)); [apply sort_by_sorted|exact Sd| |].
  - transitivity l; [symmetry; apply sort_by_perm|exact P].
  - intros a b Ha Hb H K. apply I; [| |unfold kleq in *; lia]; (eapply Permutation_in; [symmetry; apply sort_by_perm|]; eassumption).
Qed.

(* histories of functions *)
Definition finv (f : func) : Prop :=
  NoDup (map fst (fn_ports f)) /\ NoDup (map fst (fn_order f)) /\ incl (map fst (fn_order f)) (map fst (fn_ports f)) /\
  (fn_dpi f = true -> incl (map fst (fn_ports f)) (map fst (fn_order f))).
Lemma fstep_inv : forall f x g, finv f -> fop_ok (fn_dpi f) x -> fstep f x = Ok g -> finv g /\ fn_dpi g = fn_dpi f /\ fn_name g = fn_name f.
Proof.
  intros f x g (N & M & I & D) Ox H. destruct x as [d n w s|o|v|b|b|w]; cbn in H.
  - injection H as <-. split; [|split; reflexivity]. unfold finv, add_port. cbn. split; [now apply emplace_nodup|].
    destruct (fn_dpi f) eqn:E.
    + split; [now apply emplace_nodup|]. split; [|intros _]; intros m; rewrite !emplace_names; (intros [->|K]; [auto|right; first [now apply I|now apply D]]).
    + split; [exact M|]. split; [|discriminate]. intros m K. rewrite emplace_names. right. now apply I.
  - unfold set_port_ordering in H. destruct (negb _) eqn:E; [discriminate|]. destruct (existsb _ o) eqn:X; [discriminate|]. injection H as <-.
    split; [|split; reflexivity]. cbn in Ox. unfold finv. cbn. split; [exact N|]. split; [exact Ox|].
    assert (J : incl (map fst o) (map fst (fn_ports f))).
    { intros n Hn. apply in_map_iff in Hn as ((m, i) & <- & Hm). cbn. destruct (find m (fn_ports f)) eqn:F.
      - apply find_in in F. change m with (fst (m, f0)). now apply in_map.
      - exfalso. assert (K : existsb (fun e => match find (fst e) (fn_ports f) with None => true | _ => false end) o = true).
        { apply existsb_exists. exists (m, i). cbn. rewrite F. auto. } congruence. }
    split; [exact J|]. intros _. apply negb_false_iff, Nat.eqb_eq in E. apply (NoDup_length_incl Ox); [rewrite !map_length; lia|exact J].
  - unfold add_return in H. destruct (assignable _ v); [|discriminate]. injection H as <-. repeat split; auto.
  - injection H as <-. repeat split; auto.
  - injection H as <-. repeat split; auto.
  - injection H as <-. repeat split; auto.
Qed.
Lemma fsteps_inv : forall l f g, finv f -> Forall (fop_ok (fn_dpi f)) l -> fsteps f l = Ok g -> finv g /\ fn_dpi g = fn_dpi f /\ fn_name g = fn_name f.
Proof.
  induction l as [|x l IH]; cbn; intros f g I F H; [injection H as <-; auto|]. apply obind_Ok in H as (h & Hh & H). inversion F; subst.
  destruct (fstep_inv f x h I H2 Hh) as (Ih & Dh & Nh). rewrite <- Dh in H3. destruct (IH h g Ih H3 H) as (A & B & C). rewrite B, C. auto.
Qed.
Lemma new_inv : forall dpi n, finv (new_func dpi n).
Proof. intros. unfold finv, new_func. cbn. repeat split; try constructor; try apply incl_refl. easy. Qed.
Lemma built_inv : forall dpi n l f, Forall (fop_ok dpi) l -> fsteps (new_func dpi n) l = Ok f -> finv f.
Proof. intros dpi n l f F H. now apply (fsteps_inv l (new_func dpi n) f (new_inv dpi n) F H). Qed.

Lemma key_of_in : forall o n i, NoDup (map fst o) -> In (n, i) o -> key_of o n = i.
Proof. intros o n i N H. unfold key_of. now rewrite (find_nodup o n i N H). Qed.
Lemma key_inj : forall o a b, NoDup (map snd o) -> In a (map fst o) -> In b (map fst o) -> key_of o a = key_of o b -> a = b.
Proof.
  intros o a b N Ha Hb. unfold key_of. destruct (find_some o a Ha) as (i & Ei). destruct (find_some o b Hb) as (j & Ej). rewrite Ei, Ej. intros ->.
  apply find_in in Ei, Ej. clear Ha Hb. induction o as [|(m, k) o IH]; cbn in *; [easy|]. inversion N; subst.
  destruct Ei as [E|E], Ej as [F|F].
  - congruence.
  - injection E as <- <-. exfalso. apply H1. change k with (snd (b, k)). now apply in_map.
  - injection F as <- <-. exfalso. apply H1. change k with (snd (a, k)). now apply in_map.
  - now apply IH.
Qed.
Lemma indexing_ok : forall o args acc, (forall e, In e args -> In (fst e) (map fst o)) ->
  exists ix, indexing o args acc = Ok ix /\
    forall t, find t ix = match find t acc with Some i => Some i | None => find t (map (fun e => (ac_text (snd e), key_of o (fst e))) args) end.
Proof.
  induction args as [|(n, a) r IH]; intros acc H; cbn.
  - exists acc. split; [reflexivity|]. intros t. now destruct (find t acc).
  - destruct (find_some o n (H (n, a) (or_introl eq_refl))) as (i & Ei). rewrite Ei.
    destruct (IH (emplace (ac_text a) i acc)) as (ix & E & F). { intros e He. apply H. now right. }
    exists ix. split; [exact E|]. intros t. rewrite F, find_emplace. unfold key_of at 2. rewrite Ei.
    destruct (find t acc); [reflexivity|]. destruct (String.eqb t (ac_text a)); reflexivity.
Qed.
Lemma Forall2_map_self {A B C} (P : B -> C -> Prop) (f : A -> B) (g : A -> C) : forall l, (forall a, In a l -> P (f a) (g a)) -> Forall2 P (map f l) (map g l).
Proof. induction l as [|a l IH]; intros H; cbn; constructor; [apply H; now left|apply IH; intros; apply H; now right]. Qed.

(* arguments reach the formals of their names *)
Definition declared_order (f : func) : list string :=
  let names := map fst (in_order (fn_ports f)) in match fn_order f with [] => names | o => sort_by (key_of o) names end.
Lemma passes_ok : forall f args, finv f -> NoDup (map snd (fn_order f)) -> (fn_order f <> [] -> incl (map fst (fn_ports f)) (map fst (fn_order f))) ->
  NoDup (map fst args) -> (forall n, In n (map fst args) <-> In n (map fst (fn_ports f))) ->
  fn_order f = [] \/ NoDup (map (fun e => ac_text (snd e)) args) ->
  exists ts, arg_texts f args = Ok ts /\ passes (declared_order f) (fun n => find n args) ts.
Proof.
  intros f args (N & M & I & D) K Cov Na Same T.
  assert (P : Permutation (map fst args) (map fst (fn_ports f))) by (apply NoDup_Permutation; auto).
  assert (E : map fst (in_order args) = map fst (in_order (fn_ports f))) by now apply in_order_unique.
  assert (Fd : forall e, In e (in_order args) -> exists a, find (fst e) args = Some a /\ ac_text a = ac_text (snd e)).
  { intros (n, a) H. exists a. split; [|reflexivity]. apply find_nodup; [exact Na|]. eapply Permutation_in; [symmetry; apply in_order_perm|exact H]. }
  unfold arg_texts, declared_order. destruct (fn_order f) as [|e0 o0] eqn:Eo.
  - eexists. split; [reflexivity|]. rewrite <- E. apply Forall2_map_self. exact Fd.
  - rewrite <- Eo in *. set (o := fn_order f) in *. destruct T as [T|T]; [congruence|]. assert (One : o <> []) by congruence.
    assert (Ho : forall e, In e (in_order args) -> In (fst e) (map fst o)).
    { intros e H. apply (Cov One). apply Same. apply in_map. eapply Permutation_in; [symmetry; apply in_order_perm|exact H]. }
    destruct (indexing_ok o (in_order args) [] Ho) as (ix & Ei & Fi). cbn in Fi.
    set (txt := fun e : string * actual => ac_text (snd e)) in *.
    assert (Nt : NoDup (map txt (in_order args))) by (eapply Permutation_NoDup; [apply Permutation_map, in_order_perm|exact T]).
    assert (Kx : forall e, In e (in_order args) -> key_of ix (txt e) = key_of o (fst e)).
    { intros e H. unfold key_of at 1. rewrite Fi. rewrite (find_nodup _ (txt e) (key_of o (fst e))); [reflexivity| |].
      - rewrite map_map. exact Nt.
      - apply in_map_iff. exists e. auto. }
    set (sorted := sort_by (fun e : string * actual => key_of o (fst e)) (in_order args)).
    assert (Ps : Permutation (in_order args) sorted) by apply sort_by_perm.
    assert (Ss : StronglySorted (kleq (fun e : string * actual => key_of o (fst e))) sorted) by apply sort_by_sorted.
    assert (L1 : sort_by (key_of o) (map fst (in_order (fn_ports f))) = map fst sorted).
    { apply sort_by_unique.
      - apply (sorted_map fst (kleq (key_of o))). exact Ss.
      - rewrite <- E. now apply Permutation_map.
      - rewrite <- E. intros a b Ha Hb. apply key_inj; [exact K| |]; [apply in_map_iff in Ha as (e & <- & H)|apply in_map_iff in Hb as (e & <- & H)]; now apply Ho. }
    assert (L2 : sort_by (key_of ix) (map txt (in_order args)) = map txt sorted).
    { apply sort_by_unique.
      - eapply sorted_map_in; [|exact Ss]. intros a b Ha Hb. unfold kleq. rewrite !Kx; auto; (eapply Permutation_in; [symmetry; exact Ps|]; assumption).
      - now apply Permutation_map.
      - intros a b Ha Hb. apply in_map_iff in Ha as (x & <- & Hx). apply in_map_iff in Hb as (y & <- & Hy). rewrite (Kx x Hx), (Kx y Hy). intros Q.
        apply key_inj in Q; [|exact K|auto|auto]. unfold txt. f_equal.
        destruct x as (n, a), y as (m, b). cbn in Q. subst m.
        assert (find n args = Some a) by (apply find_nodup; [exact Na|eapply Permutation_in; [symmetry; apply in_order_perm|exact Hx]]).
        assert (find n args = Some b) by (apply find_nodup; [exact Na|eapply Permutation_in; [symmetry; apply in_order_perm|exact Hy]]).
        cbn. congruence. }
    exists (map txt sorted). split; [|rewrite L1; apply Forall2_map_self; intros e H; apply Fd; eapply Permutation_in; [symmetry; exact Ps|exact H]].
    rewrite Eo. rewrite <- Eo. fold o. rewrite Ei. cbn. now rewrite L2.
Qed.

(* DPI *)
Lemma visit_keep : forall l seen out n r, dpi_visit seen l = Ok out -> find n seen = Some r -> find n out = Some r.
Proof.
  induction l as [|f l IH]; cbn; intros seen out n r H E; [congruence|]. destruct (find (fn_name f) seen) as [ref|] eqn:F.
  - destruct (agrees ref f); [|discriminate]. eauto.
  - apply (IH _ _ _ _ H). rewrite find_emplace, E. reflexivity.
Qed.
Lemma visit_all : forall l seen out f, dpi_visit seen l = Ok out -> In f l ->
  exists r, find (fn_name f) out = Some r /\ (r = f \/ agrees r f = true).
Proof.
  induction l as [|g l IH]; cbn; intros seen out f H I; [easy|]. destruct (find (fn_name g) seen) as [ref|] eqn:F.
  - destruct (agrees ref g) eqn:Ag; [|discriminate]. destruct I as [->|I]; [|eauto]. exists ref. split; [|auto]. now apply (visit_keep l seen).
  - destruct I as [->|I]; [|eauto]. exists f. split; [|auto]. apply (visit_keep l _ _ _ _ H). rewrite find_emplace, F. now rewrite String.eqb_refl.
Qed.
Lemma visit_from : forall l seen out, dpi_visit seen l = Ok out -> NoDup (map fst seen) ->
  (forall n r, In (n, r) seen -> fn_name r = n) -> NoDup (map fst out) /\ (forall n r, In (n, r) out -> fn_name r = n /\ (In (n, r) seen \/ In r l)).
Proof.
  induction l as [|g l IH]; cbn; intros seen out H N K; [injection H as <-; split; [exact N|]; intros n r Hr; split; [now apply K|now left]|].
  destruct (find (fn_name g) seen) as [ref|] eqn:F.
  - destruct (agrees ref g) eqn:Ag; [|discriminate]. destruct (IH _ _ H N K) as (A & B). split; [exact A|]. intros n r Hr.
    destruct (B n r Hr) as (X & [Y|Y]); auto.
  - assert (K' : forall n r, In (n, r) (emplace (fn_name g) g seen) -> fn_name r = n /\ (In (n, r) seen \/ r = g)).
    { intros n r. unfold emplace. rewrite F, in_app_iff. intros [X|[X|[]]]; [split; [now apply K|auto]|]. injection X as <- <-. auto. }
    destruct (IH _ _ H (emplace_nodup _ _ _ N)) as (A & B). { intros n r X. apply (K' n r X). }
    split; [exact A|]. intros n r Hr. destruct (B n r Hr) as (X & [Y|Y]); split; auto. destruct (K' n r Y) as (_ & [Zs | ->]); auto.
Qed.
Lemma omapM_in {A B} (f : A -> outcome B) : forall l r, omapM f l = Ok r -> Forall2 (fun a b => f a = Ok b) l r.
Proof.
  induction l as [|a l IH]; cbn; intros r H; [injection H as <-; constructor|]. apply obind_Ok in H as (b & Hb & H).
  apply obind_Ok in H as (s & Hs & H). injection H as <-. constructor; auto.
Qed.
Lemma Forall2_in_l {A B} (R : A -> B -> Prop) : forall l r a, Forall2 R l r -> In a l -> exists b, In b r /\ R a b.
Proof. intros l r a H. induction H; intros I; [easy|]. destruct I as [->|I]; [exists y; split; [now left|auto]|]. destruct (IHForall2 I) as (b & Hb & K). exists b. split; [now right|auto]. Qed.
Lemma dir_eqb_eq : forall a b, dir_eqb a b = true -> a = b.
Proof. intros [] []; cbn; congruence. Qed.
Definition attr_of (f : func) : attr := if fn_pure f then APure else if fn_context f then AContext else APlain.
Lemma import_ok : forall f i, finv f -> import_of f = Ok i -> imports i (fn_name f) (attr_of f) (fn_ports f).
Proof.
  intros f i (N & _) H. unfold import_of in H. destruct (_ && _); [discriminate|]. injection H as <-. unfold imports. cbn. split; [reflexivity|]. split; [reflexivity|].
  assert (Q : Permutation (map fst (fn_ports f)) (sort_by (key_of (fn_order f)) (map fst (in_order (fn_ports f))))).
  { etransitivity; [apply Permutation_map, in_order_perm|apply sort_by_perm]. }
  assert (Pn : forall n, port_name (import_port f n) = n) by (intros n; unfold import_port; destruct (find n (fn_ports f)); reflexivity).
  split.
  - rewrite map_map. rewrite (map_ext _ (fun n => n) Pn), map_id. now symmetry.
  - intros n d t s H. apply in_map_iff in H as (m & E & Hm). assert (Im : In m (map fst (fn_ports f))) by (eapply Permutation_in; [symmetry; exact Q|exact Hm]).
    unfold import_port in E. destruct (find_some (fn_ports f) m Im) as (p & Ep). rewrite Ep in E. injection E as <- <- <- <-.
    exists p. split; [now apply find_in|auto].
Qed.
Lemma agrees_imports : forall r f i, finv r -> finv f -> agrees r f = true -> imports i (fn_name f) (attr_of r) (fn_ports r) -> imports i (fn_name f) (attr_of f) (fn_ports f).
Proof.
  intros r f i (Nr & _) (Nf & _) H (A & B & C & D). unfold agrees in H. repeat apply andb_true_iff in H as [H ?]. apply Nat.eqb_eq in H.
  apply Bool.eqb_prop in H0, H1. rewrite forallb_forall in H2.
  assert (Pt : forall n p, In (n, p) (fn_ports r) -> exists q, In (n, q) (fn_ports f) /\ fo_dir q = fo_dir p /\ fo_signed q = fo_signed p).
  { intros n p Hp. specialize (H2 _ Hp). unfold same_port in H2. cbn in H2. destruct (find n (fn_ports f)) as [q|] eqn:E; [|discriminate].
    apply andb_true_iff in H2 as [X Y]. apply Bool.eqb_prop in X. apply dir_eqb_eq in Y. exists q. split; [now apply find_in|auto]. }
  split; [exact A|]. split; [unfold attr_of in *; now rewrite H0, H1|]. split.
  - rewrite C. apply NoDup_Permutation_bis; [exact Nr|rewrite !map_length; lia|]. intros n Hn. apply in_map_iff in Hn as ((m, p) & <- & Hp).
    destruct (Pt m p Hp) as (q & Hq & _). change (fst (m, p)) with (fst (m, q)). now apply in_map.
  - intros n d t s Hn. destruct (D n d t s Hn) as (p & Hp & <- & <-). destruct (Pt n p Hp) as (q & Hq & X & Y). exists q. auto.
Qed.
