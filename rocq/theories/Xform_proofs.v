From Verif Require Import Base SV_spec IR IRSem_spec IR_lemmas Xform_spec Xform_model.
From Coq Require Import Permutation Sorted.
Local Open Scope Z_scope.

(* ---- kinds ---- *)
Section fix_type.
  Variables (ty : akind) (check : bool).
  Definition bad (k : akind) : bool := match k with Undefined => false | _ => negb (if akind_eq_dec k ty then true else false) end.
  Fixpoint decide (s : stmt) : stmt :=
    match s with
    | SAssign k l e => SAssign (resolve ty k) l e
    | SIf c t f => SIf c (map decide t) (map decide f)
    | SSwitch e cs d => SSwitch e (map (fun c => (fst c, map decide (snd c))) cs) (match d with Some b => Some (map decide b) | None => None end)
    | SFor i a b st body => SFor i a b st (map decide body)
    | SBlock body => SBlock (map decide body)
    | s => s
    end.
  Definition verdict {A} (ks : list akind) (x : A) : outcome A := if check && existsb bad ks then Throw else Ok x.
  Lemma verdict_two : forall A B C k1 k2 (a : A) (b : B) (f : A -> B -> C),
    (olet x := verdict k1 a in olet y := verdict k2 b in Ok (f x y)) = verdict (k1 ++ k2) (f a b).
  Proof.
    intros. unfold verdict. rewrite existsb_app. destruct check; cbn; [|reflexivity].
    destruct (existsb bad k1); cbn; [reflexivity|]. destruct (existsb bad k2); reflexivity.
  Qed.
  Lemma verdict_one : forall A B k (a : A) (f : A -> B), (olet x := verdict k a in Ok (f x)) = verdict k (f a).
  Proof. intros. unfold verdict. destruct (check && existsb bad k); reflexivity. Qed.
  Lemma fix_list : forall l, Forall (fun s => fix_stmt ty check s = verdict (kinds_s s) (decide s)) l ->
    fix_stmts ty check l = verdict (kinds l) (map decide l).
  Proof.
    induction 1 as [|s r Hs _ IH]; cbn [fix_stmts].
    - unfold verdict. cbn. now rewrite andb_false_r.
    - rewrite Hs, IH, verdict_two. reflexivity.
  Qed.
  Lemma fix_cases_ok : forall l, Forall (fun c => Forall (fun s => fix_stmt ty check s = verdict (kinds_s s) (decide s)) (snd c)) l ->
    fix_cases ty check l = verdict (flat_map (fun c => flat_map kinds_s (snd c)) l) (map (fun c => (fst c, map decide (snd c))) l).
  Proof.
    induction 1 as [|c r Hc _ IH]; cbn [fix_cases].
    - unfold verdict. cbn. now rewrite andb_false_r.
    - rewrite fix_list by assumption. rewrite IH. rewrite (verdict_two _ _ _ _ _ _ _ (fun a b => (fst c, a) :: b)). reflexivity.
  Qed.
  Lemma fix_ok : forall s, fix_stmt ty check s = verdict (kinds_s s) (decide s).
  Proof.
    induction s using stmt_ind'.
    - cbn [fix_stmt kinds_s decide]. unfold verdict. cbn [existsb]. rewrite orb_false_r. destruct k; cbn [fix_kind bad resolve]; rewrite ?andb_false_r; try reflexivity;
        match goal with |- context [check && ?b] => destruct (check && b); reflexivity end.
    - change (fix_stmt ty check (SIf c t f)) with
        (olet a := fix_stmts ty check t in olet b := fix_stmts ty check f in Ok (SIf c a b)).
      rewrite !fix_list by assumption. apply (verdict_two _ _ _ _ _ _ _ (fun a b => SIf c a b)).
    - change (fix_stmt ty check (SSwitch e cs d)) with
        (olet cs' := fix_cases ty check cs in
         match d with None => Ok (SSwitch e cs' None) | Some b => olet b' := fix_stmts ty check b in Ok (SSwitch e cs' (Some b')) end).
      rewrite fix_cases_ok by assumption. cbn [kinds_s decide]. destruct d as [b|].
      + rewrite (fix_list b) by auto. apply (verdict_two _ _ _ _ _ _ _ (fun a b => SSwitch e a (Some b))).
      + rewrite app_nil_r. apply (verdict_one _ _ _ _ (fun a => SSwitch e a None)).
    - change (fix_stmt ty check (SFor i a b s body)) with (olet x := fix_stmts ty check body in Ok (SFor i a b s x)).
      rewrite fix_list by assumption. apply verdict_one.
    - change (fix_stmt ty check (SBlock body)) with (olet x := fix_stmts ty check body in Ok (SBlock x)).
      rewrite fix_list by assumption. apply verdict_one.
    - cbn. unfold verdict. cbn. now rewrite andb_false_r.
    - cbn. unfold verdict. cbn. now rewrite andb_false_r.
    - cbn. unfold verdict. cbn. now rewrite andb_false_r.
  Qed.
  Lemma fixes_ok : forall l, fix_stmts ty check l = verdict (kinds l) (map decide l).
  Proof. intros. apply fix_list, Forall_forall. intros s _. apply fix_ok. Qed.
End fix_type.
Lemma flat_map_map : forall (A B C : Type) (f : B -> list C) (g : A -> B) l, flat_map f (map g l) = flat_map (fun x => f (g x)) l.
Proof. induction l; cbn; congruence. Qed.
Lemma map_flat_map : forall (A B C : Type) (f : B -> C) (g : A -> list B) l, map f (flat_map g l) = flat_map (fun x => map f (g x)) l.
Proof. induction l; cbn; [reflexivity|]. rewrite map_app. congruence. Qed.
Lemma flat_map_in : forall (A B : Type) (f g : A -> list B) l, Forall (fun x => f x = g x) l -> flat_map f l = flat_map g l.
Proof. induction 1; cbn; congruence. Qed.
Lemma map_in : forall (A B : Type) (f g : A -> B) l, Forall (fun x => f x = g x) l -> map f l = map g l.
Proof. induction 1; cbn; congruence. Qed.
Lemma kinds_decide_s : forall ty s, kinds_s (decide ty s) = map (resolve ty) (kinds_s s).
Proof.
  intros ty. induction s using stmt_ind'; cbn [decide kinds_s]; try reflexivity.
  - rewrite map_app, !flat_map_map, !map_flat_map. f_equal; now apply flat_map_in.
  - rewrite map_app, flat_map_map, map_flat_map. f_equal.
    + apply flat_map_in. rewrite Forall_forall in *. intros c Hc. cbn [snd]. rewrite flat_map_map, map_flat_map. apply flat_map_in, H, Hc.
    + destruct d as [b|]; [|reflexivity]. rewrite flat_map_map, map_flat_map. apply flat_map_in, H0. reflexivity.
  - rewrite flat_map_map, map_flat_map. now apply flat_map_in.
  - rewrite flat_map_map, map_flat_map. now apply flat_map_in.
Qed.
Lemma kinds_decide : forall ty l, kinds (map (decide ty) l) = map (resolve ty) (kinds l).
Proof. intros. unfold kinds. rewrite flat_map_map, map_flat_map. apply flat_map_in, Forall_forall. intros s _. apply kinds_decide_s. Qed.
Lemma forget_decide_s : forall ty s, forget (decide ty s) = forget s.
Proof.
  intros ty. induction s using stmt_ind'; cbn [decide forget]; try reflexivity.
  - rewrite !map_map. f_equal; now apply map_in.
  - rewrite map_map. f_equal.
    + apply map_in. rewrite Forall_forall in *. intros c Hc. cbn [fst snd]. rewrite map_map. f_equal. apply map_in, H, Hc.
    + destruct d as [b|]; [|reflexivity]. rewrite map_map. f_equal. apply map_in, H0. reflexivity.
  - rewrite map_map. f_equal. now apply map_in.
  - rewrite map_map. f_equal. now apply map_in.
Qed.
Lemma forget_decide : forall ty l, map forget (map (decide ty) l) = map forget l.
Proof. intros. rewrite map_map. apply map_in, Forall_forall. intros s _. apply forget_decide_s. Qed.
(* deciding twice *)
Lemma decide_twice_s : forall a b s, a <> Undefined -> decide b (decide a s) = decide a s.
Proof.
  intros a b s Ha. induction s using stmt_ind'; cbn [decide]; try reflexivity.
  - destruct k; cbn; [reflexivity|reflexivity|]. destruct a; [reflexivity|reflexivity|congruence].
  - rewrite !map_map. f_equal; now apply map_in.
  - rewrite map_map. f_equal.
    + apply map_in. rewrite Forall_forall in *. intros c Hc. cbn [fst snd]. rewrite map_map. f_equal. apply map_in, H, Hc.
    + destruct d as [b0|]; [|reflexivity]. rewrite map_map. f_equal. apply map_in, H0. reflexivity.
  - rewrite map_map. f_equal. now apply map_in.
  - rewrite map_map. f_equal. now apply map_in.
Qed.
Definition item_type (i : item) : akind := match required i with Some ty => ty | None => Blocking end.
Definition item_decide (i : item) : item :=
  match i with
  | IAssign k l e => IAssign (resolve Blocking k) l e
  | IBlock b => IBlock (with_body b (map (decide (item_type i)) (b_body b)))
  | i => i
  end.
Definition conflictb (i : item) : bool := match required i with Some ty => existsb (bad ty) (item_kinds i) | None => false end.
Lemma bad_iff : forall ty k, bad ty k = true <-> k <> Undefined /\ k <> ty.
Proof.
  intros ty k. unfold bad. destruct k, ty; cbn; split; try discriminate; try reflexivity; try (intros [? ?]; congruence); intros _; split; discriminate.
Qed.
Lemma conflict_iff : forall i, conflictb i = true <-> conflict i.
Proof.
  intros i. unfold conflictb, conflict. destruct (required i) as [ty|]; [|split; [discriminate|intros (ty & k & H & _); discriminate]].
  rewrite existsb_exists. split.
  - intros (k & J & B). apply bad_iff in B as [B1 B2]. exists ty, k. auto.
  - intros (ty' & k & E & J & B1 & B2). injection E as <-. exists k. split; [assumption|]. now apply bad_iff.
Qed.
Lemma required_ne : forall i, item_type i <> Undefined.
Proof. intros [|b| |]; unfold item_type; cbn; try discriminate. destruct (b_kind b); try discriminate. destruct (b_unchecked b); discriminate. Qed.
Lemma fix_item : forall i, (olet a := fix_block i in fix_rest a) = if conflictb i then Throw else Ok (item_decide i).
Proof.
  intros [k l e|b|m|o]; try reflexivity.
  { cbn. destruct k; reflexivity. }
  unfold conflictb, fix_block. cbn [required item_kinds item_decide].
  assert (forall b x, fix_rest (IBlock (with_body b x)) = Ok (IBlock (with_body b (map (decide Blocking) x)))) as R.
  { intros b' x. cbn [fix_rest with_body b_body]. rewrite fixes_ok. unfold verdict. reflexivity. }
  assert (forall ty, ty <> Undefined -> (olet a := olet x := fix_stmts ty true (b_body b) in Ok (IBlock (with_body b x)) in fix_rest a)
     = if existsb (bad ty) (kinds (b_body b)) then Throw else Ok (IBlock (with_body b (map (decide ty) (b_body b))))) as S.
  { intros ty Ht. rewrite fixes_ok. unfold verdict. cbn [andb]. destruct (existsb (bad ty) (kinds (b_body b))); [reflexivity|].
    cbn [obind]. rewrite R. rewrite map_map. do 3 f_equal. apply map_in, Forall_forall. intros s _. now apply decide_twice_s. }
  assert (forall i, i = IBlock b -> fix_rest i = Ok (IBlock (with_body b (map (decide Blocking) (b_body b))))) as T.
  { intros i ->. cbn [fix_rest]. rewrite fixes_ok. reflexivity. }
  unfold item_type. cbn [required].
  destruct (b_kind b); cbn [obind]; try (apply S; discriminate); try (now apply T).
  destruct (b_unchecked b); cbn [obind]; [now apply T|apply S; discriminate].
Qed.
Lemma omapM_seq : forall (A B C : Type) (f : A -> outcome B) (g : B -> outcome C) (h : A -> C) (t : A -> bool) l,
  (forall a, (olet b := f a in g b) = if t a then Throw else Ok (h a)) -> (forall a, f a <> UB) ->
  (olet m := omapM f l in omapM g m) = if existsb t l then Throw else Ok (map h l).
Proof.
  intros A B C f g h t l H U.
  assert (forall a, (t a = true /\ (f a = Throw \/ exists b, f a = Ok b /\ g b = Throw)) \/ (t a = false /\ exists b, f a = Ok b /\ g b = Ok (h a))) as Cs.
  { intros a. specialize (H a). specialize (U a). destruct (f a) as [b| |] eqn:E; cbn [obind] in H; [|left; split; [destruct (t a); [reflexivity|discriminate]|auto]|congruence].
    destruct (t a); [left|right]; split; eauto. }
  induction l as [|a r IH]; [reflexivity|]. cbn [omapM existsb map].
  destruct (Cs a) as [[T [E|(b & E & Eg)]]|[T (b & E & Eg)]]; rewrite E, T; cbn [obind orb].
  - reflexivity.
  - destruct (omapM f r) as [s| |] eqn:Er; cbn [obind omapM]; [now rewrite Eg|reflexivity|].
    exfalso. clear - U Er. revert Er. induction r as [|x r IH]; cbn [omapM]; [discriminate|]. specialize (U x). destruct (f x); cbn [obind]; try congruence.
    destruct (omapM f r); cbn [obind]; congruence.
  - destruct (omapM f r) as [s| |] eqn:Er; cbn [obind omapM] in *.
    + rewrite Eg. cbn [obind]. rewrite IH. destruct (existsb t r); reflexivity.
    + destruct (existsb t r); [reflexivity|discriminate].
    + destruct (existsb t r); discriminate.
Qed.
Lemma fix_types : forall m, fix_assignment_type m = if existsb conflictb m then Throw else Ok (map item_decide m).
Proof.
  intros m. apply omapM_seq; [apply fix_item|]. intros [k l e|b|n|o]; try discriminate. unfold fix_block.
  assert (forall ty, (olet x := fix_stmts ty true (b_body b) in Ok (IBlock (with_body b x))) <> UB) as S.
  { intros ty. rewrite fixes_ok. unfold verdict. destruct (true && _); discriminate. }
  destruct (b_kind b); try discriminate; auto. destruct (b_unchecked b); [discriminate|auto].
Qed.

(* ---- sorting ---- *)
Lemma filter_app' : forall (A : Type) (f : A -> bool) a b, filter f (a ++ b) = filter f a ++ filter f b.
Proof. induction a; cbn; intros; [reflexivity|]. destruct (f a); cbn; congruence. Qed.
Lemma filter_filter : forall (A : Type) (f g : A -> bool) l, filter f (filter g l) = filter (fun x => g x && f x) l.
Proof. induction l; cbn; [reflexivity|]. destruct (g a); cbn; [destruct (f a)|]; congruence. Qed.
Lemma filter_eq : forall (A : Type) (f g : A -> bool) l, (forall x, In x l -> f x = g x) -> filter f l = filter g l.
Proof. induction l; cbn; intros H; [reflexivity|]. rewrite (H a) by auto. rewrite IHl by auto. reflexivity. Qed.
Lemma filter_none : forall (A : Type) (f : A -> bool) l, (forall x, In x l -> f x = false) -> filter f l = [].
Proof. induction l; cbn; intros H; [reflexivity|]. rewrite (H a) by auto. auto. Qed.
Lemma sorted_app : forall (A : Type) (R : A -> A -> Prop) a b, StronglySorted R a -> StronglySorted R b ->
  (forall x y, In x a -> In y b -> R x y) -> StronglySorted R (a ++ b).
Proof.
  induction a; cbn; intros b Sa Sb H; [assumption|]. inversion Sa; subst. constructor; [apply IHa; auto|].
  apply Forall_app. split; [assumption|]. apply Forall_forall. auto.
Qed.
Section ranks.
  Variables (A : Type) (rank : A -> nat).
  Definition at_rank (r : nat) (a : A) : bool := Nat.eqb (rank a) r.
  (* the lists of each rank, from r on *)
  Fixpoint buckets (n r : nat) (l : list A) : list A :=
    match n with O => [] | S k => filter (at_rank r) l ++ buckets k (S r) l end.
  Lemma buckets_in : forall n r l x, In x (buckets n r l) -> (r <= rank x < r + n)%nat /\ In x l.
  Proof.
    induction n; cbn; intros r l x H; [destruct H|]. apply in_app_or in H as [H|H].
    - apply filter_In in H as [H E]. apply Nat.eqb_eq in E. split; [lia|assumption].
    - apply IHn in H. intuition lia.
  Qed.
  Lemma buckets_sorted : forall n r l, StronglySorted (fun a b => (rank a <= rank b)%nat) (buckets n r l).
  Proof.
    induction n; cbn; intros r l; [constructor|]. apply sorted_app.
    - induction l; cbn; [constructor|]. destruct (at_rank r a) eqn:E; [|assumption]. constructor; [assumption|].
      apply Forall_forall. intros y Hy. apply filter_In in Hy as [_ Ey]. unfold at_rank in *. apply Nat.eqb_eq in E, Ey. lia.
    - apply IHn.
    - intros x y Hx Hy. apply filter_In in Hx as [_ E]. apply Nat.eqb_eq in E. apply buckets_in in Hy. lia.
  Qed.
  Lemma buckets_filter : forall n r l k, (r <= k < r + n)%nat -> filter (at_rank k) (buckets n r l) = filter (at_rank k) l.
  Proof.
    induction n; cbn [buckets]; intros r l k H; [lia|]. rewrite filter_app', filter_filter.
    destruct (Nat.eq_dec k r) as [->|D].
    - rewrite (filter_none _ _ (buckets n (S r) l)).
      + rewrite app_nil_r. apply filter_eq. intros x _. apply andb_diag.
      + intros x Hx. apply buckets_in in Hx. apply Nat.eqb_neq. lia.
    - rewrite (filter_none _ (fun x => at_rank r x && at_rank k x)).
      + apply IHn. lia.
      + intros x _. unfold at_rank. destruct (Nat.eqb_spec (rank x) r); [|reflexivity]. apply Nat.eqb_neq. lia.
  Qed.
  Lemma buckets_perm : forall n l, (forall x, In x l -> (rank x < n)%nat) -> Permutation l (buckets n 0 l).
  Proof.
    intros n l. revert n. induction l as [|a l IH]; intros n H.
    - assert (forall n r, buckets n r [] = []) as -> by (induction n0; cbn; auto). constructor.
    - assert (forall n r, (r <= rank a < r + n)%nat -> Permutation (a :: buckets n r l) (buckets n r (a :: l))) as Ins.
      { clear. induction n; intros r Hr; [lia|]. cbn [buckets filter]. destruct (at_rank r a) eqn:E.
        - cbn [app]. constructor. apply Permutation_app_head. unfold at_rank in E. apply Nat.eqb_eq in E.
          assert (forall n r, (rank a < r)%nat -> buckets n r (a :: l) = buckets n r l) as ->; [|reflexivity|lia].
          clear. induction n; intros r Hr; cbn [buckets filter]; [reflexivity|]. unfold at_rank at 1.
          destruct (Nat.eqb_spec (rank a) r); [lia|]. rewrite IHn by lia. reflexivity.
        - unfold at_rank in E. apply Nat.eqb_neq in E. rewrite <- (IHn (S r)) by lia. apply Permutation_middle. }
      rewrite <- Ins by (pose proof (H a (or_introl eq_refl)); lia). constructor. apply IH. auto using in_cons.
  Qed.
  Lemma buckets_ok : forall n l, (forall x, In x l -> (rank x < n)%nat) -> stably_sorted rank l (buckets n 0 l).
  Proof.
    intros n l H. split; [now apply buckets_perm|]. split; [apply buckets_sorted|]. intros r. change (fun a => Nat.eqb (rank a) r) with (at_rank r).
    destruct (Nat.lt_ge_cases r n) as [L|L]; [apply buckets_filter; lia|].
    rewrite !filter_none; [reflexivity| |]; intros x Hx; apply Nat.eqb_neq.
    - specialize (H x Hx). lia.
    - apply buckets_in in Hx. lia.
  Qed.
End ranks.
Lemma sort_buckets : forall m, forallb sortable m = true -> sort_stmts m = Ok (buckets item item_rank 5 0 m).
Proof.
  intros m H. unfold sort_stmts. rewrite H. f_equal. cbn [buckets]. rewrite app_nil_r. rewrite forallb_forall in H.
  repeat (f_equal; [apply filter_eq; intros x Hx; specialize (H x Hx); destruct x as [| [[] ] | | ]; cbn in *; try discriminate; reflexivity|]).
  apply filter_eq; intros x Hx; specialize (H x Hx); destruct x as [| [[] ] | | ]; cbn in *; try discriminate; reflexivity.
Qed.
Lemma insert_spec : forall x l, StronglySorted (fun a b => (get_order a <= get_order b)%nat) l ->
  Permutation (x :: l) (insert_item x l) /\ StronglySorted (fun a b => (get_order a <= get_order b)%nat) (insert_item x l)
  /\ forall r, filter (fun a => Nat.eqb (get_order a) r) (insert_item x l) = filter (fun a => Nat.eqb (get_order a) r) (x :: l).
Proof.
  induction l as [|y r IH]; intros S; cbn [insert_item].
  - split; [reflexivity|]. split; [repeat constructor|reflexivity].
  - inversion S as [|? ? Sr Fy]; subst. destruct (Nat.ltb_spec (get_order y) (get_order x)) as [L|L].
    + destruct (IH Sr) as (P & So & F). split; [rewrite <- P; apply perm_swap|]. split.
      * constructor; [assumption|]. apply (Permutation_Forall P). constructor; [lia|assumption].
      * intros k. cbn [filter]. rewrite F. cbn [filter]. destruct (Nat.eqb_spec (get_order y) k), (Nat.eqb_spec (get_order x) k); try reflexivity. lia.
    + split; [reflexivity|]. split; [|reflexivity]. constructor; [assumption|]. constructor; [lia|].
      rewrite Forall_forall in *. intros z Hz. specialize (Fy z Hz). lia.
Qed.
Lemma sort_initial_ok : forall m, stably_sorted get_order m (sort_initial m).
Proof.
  induction m as [|x r (P & S & F)]; cbn [sort_initial]; [split; [constructor|split; [constructor|reflexivity]]|].
  destruct (insert_spec x (sort_initial r) S) as (P' & S' & F'). split; [rewrite <- P'; now constructor|]. split; [exact S'|].
  intros k. rewrite F'. cbn [filter]. rewrite F. reflexivity.
Qed.

(* ---- stripping ---- *)
Section strip.
  Variable p : stmt -> bool.
  Lemma strip_if : forall c t f, strip_stmt p (SIf c t f) = SIf c (strip_body p t) (strip_body p f).
  Proof. reflexivity. Qed.
  Lemma strip_switch : forall e cs d, strip_stmt p (SSwitch e cs d) =
    SSwitch e (map (fun c => (fst c, strip_body p (snd c))) cs) (match d with Some b => Some (strip_body p b) | None => None end).
  Proof. reflexivity. Qed.
  Lemma strip_list : forall l, Forall (fun s => strip_in p s (strip_stmt p s)) l -> stripped p l (strip_body p l).
  Proof.
    induction 1 as [|s r Hs _ IH]; cbn [strip_body]; [constructor|].
    destruct (p s) eqn:E; [now apply st_drop|now apply st_keep].
  Qed.
  Lemma strip_one : forall s, strip_in p s (strip_stmt p s).
  Proof.
    induction s using stmt_ind'; try constructor; try (now apply strip_list).
    rewrite strip_switch.
    assert (strip_cs p cs (map (fun c => (fst c, strip_body p (snd c))) cs)) as C.
    { induction H as [|[v b] r Hb _ IH]; cbn; constructor; [|assumption]. now apply strip_list. }
    destruct d as [b|]; constructor; auto. apply strip_list. auto.
  Qed.
  Lemma strip_all : forall l, stripped p l (strip_body p l).
  Proof. intros. apply strip_list, Forall_forall. intros s _. apply strip_one. Qed.
End strip.
Scheme stripped_min := Minimality for stripped Sort Prop
  with strip_in_min := Minimality for strip_in Sort Prop
  with strip_cs_min := Minimality for strip_cs Sort Prop.
Combined Scheme strip_ind3 from stripped_min, strip_in_min, strip_cs_min.
(* removing statements without an effect changes nothing *)
Lemma stripped_exec : forall G p, (forall s, p s = true -> exists o, s = SOther o) ->
  (forall l l', stripped p l l' -> forall st, st_status st = Running -> run G l' st = run G l st) /\
  (forall s s', strip_in p s s' -> forall st, st_status st = Running -> exec G s' st = exec G s st) /\
  (forall cs cs', strip_cs p cs cs' -> forall v w d d' st, st_status st = Running ->
     (match d, d' with Some a, Some b => run G b st = run G a st | None, None => True | _, _ => False end) ->
     pick G v w cs' d' st = pick G v w cs d st).
Proof.
  intros G p Hp. apply strip_ind3.
  - reflexivity.
  - intros s l l' Ps _ IH st Hs. destruct (Hp s Ps) as [o ->]. cbn [run]. cbn [exec]. rewrite Hs. auto.
  - intros s s' l l' _ _ IH1 _ IH2 st Hs. cbn [run]. rewrite IH1 by assumption. destruct (st_status (exec G s st)) eqn:E; auto.
  - intros c t t' f f' _ IH1 _ IH2 st Hs. rewrite !exec_if. destruct (truth G (st_cur st) c); auto.
  - intros e cs cs' _ IH st Hs. rewrite !exec_switch. now apply IH.
  - intros e cs cs' d d' _ IH _ IH2 st Hs. rewrite !exec_switch. apply IH; auto.
  - intros i a b st0 body body' _ IH st Hs. rewrite !exec_for.
    revert st Hs. induction (for_values a b st0) as [|v vs IHv]; intros st Hs; [reflexivity|]. cbn [loop].
    rewrite IH by exact Hs. match goal with |- context [run G body ?x] => set (s1 := run G body x) end.
    destruct (st_status s1) eqn:E; auto.
  - intros body body' _ IH st Hs. rewrite !exec_block. auto.
  - reflexivity.
  - reflexivity.
  - reflexivity.
  - reflexivity.
  - intros v w d d' st Hs H. cbn [pick]. destruct d, d'; auto; contradiction.
  - intros v b b' l l' _ IH1 _ IH2 v0 w d d' st Hs H. cbn [pick fst snd]. destruct (v0 =? _); auto.
Qed.
(* ---- deferred removal ---- *)
Lemma memb_in : forall x l, memb x l = true <-> In x l.
Proof.
  intros. unfold memb. rewrite existsb_exists. split.
  - intros (y & H & E). apply Nat.eqb_eq in E. now subst.
  - intros H. exists x. split; [assumption|apply Nat.eqb_refl].
Qed.
Lemma remove_first_filter : forall x l, NoDup l -> remove_first x l = filter (fun y => negb (Nat.eqb x y)) l.
Proof.
  induction l as [|y r IH]; cbn; intros N; [reflexivity|]. inversion N; subst. destruct (Nat.eqb_spec x y) as [->|D]; cbn.
  - symmetry. rewrite (filter_eq _ _ (fun _ => true)).
    + clear. induction r; cbn; congruence.
    + intros z Hz. destruct (Nat.eqb_spec y z) as [->|]; [contradiction|reflexivity].
  - now rewrite IH.
Qed.
Lemma remove_first_nodup : forall x l, NoDup l -> NoDup (remove_first x l).
Proof. intros x l N. rewrite remove_first_filter by assumption. now apply NoDup_filter. Qed.
Lemma deferred_ok : forall rs l c, NoDup l ->
  clear_cache (fold_left edit_cached (map Remove rs) (l, c)) = filter (fun x => negb (memb x c)) (fold_left edit_now (map Remove rs) l).
Proof.
  induction rs as [|x r IH]; intros l c N; [reflexivity|]. cbn [map fold_left edit_cached edit_now fst snd].
  assert (forall l c, fst (fold_left edit_cached (map Remove r) (l, c)) = l) as Fst.
  { clear. induction r; intros; cbn; [reflexivity|]. apply IHr. }
  rewrite (IH l (x :: c) N).
  assert (forall rs l, NoDup l -> fold_left edit_now (map Remove rs) l = filter (fun y => negb (memb y rs)) l) as Now.
  { clear. induction rs as [|a rs IH]; intros l N; cbn [map fold_left edit_now].
    - symmetry. clear. induction l as [|a l IH]; [reflexivity|]. change (a :: filter (fun y => negb (memb y [])) l = a :: l). now rewrite IH.
    - rewrite IH by now apply remove_first_nodup. rewrite remove_first_filter by assumption. rewrite filter_filter. apply filter_eq.
      intros y _. unfold memb. cbn [existsb]. rewrite negb_orb, (Nat.eqb_sym y a). reflexivity. }
  rewrite !Now by (auto using remove_first_nodup). rewrite remove_first_filter by assumption. rewrite !filter_filter. apply filter_eq.
  intros y _. unfold memb. cbn [existsb]. rewrite negb_orb, (Nat.eqb_sym y x). destruct (Nat.eqb x y), (existsb (Nat.eqb y) r), (existsb (Nat.eqb y) c); reflexivity.
Qed.

(* ---- whole modules ---- *)
Lemma strip_nop : forall p l, Forall (fun s => p s = false) l -> map (strip_stmt p) l = strip_body p l.
Proof. induction 1 as [|s r H _ IH]; cbn [map strip_body]; [reflexivity|]. rewrite H, IH. reflexivity. Qed.
Definition skipped (i : item) : Prop := match i with IBlock b => match b_kind b with KComb | KSeq => False | _ => True end | _ => False end.
Lemma strip_items_ok : forall p m,
  (forall b, In (IBlock b) m -> skipped (IBlock b) -> Forall (fun s => p s = false) (b_body b)) ->
  items_stripped p m (strip_items p m).
Proof.
  intros p m. unfold strip_items. induction m as [|i m IH]; intros H; [constructor|].
  assert (items_stripped p m (map (fun i => match i with IBlock b => IBlock (strip_block p b) | i => i end)
      (filter (fun i => match i with IOther o => negb (p (SOther o)) | _ => true end) m))) as R by (apply IH; auto using in_cons).
  destruct i as [k l e|b|n|o]; cbn [filter map]; try (constructor; assumption).
  - assert (strip_block p b = {| b_kind := b_kind b; b_events := b_events b; b_unchecked := b_unchecked b; b_body := strip_body p (b_body b) |}) as ->.
    { pose proof (H b (or_introl eq_refl)) as Hb. unfold strip_block, with_body. cbn [skipped] in Hb. destruct (b_kind b) eqn:K; try reflexivity;
        rewrite strip_nop by (apply Hb; exact I); reflexivity. }
    apply is_block; [apply strip_all|assumption].
  - destruct (p (SOther o)) eqn:E; cbn [negb]; [now apply is_drop|cbn [map]; now apply is_other].
Qed.
Definition only_other (p : stmt -> bool) : Prop := forall s, p s = true -> exists o, s = SOther o.
Lemma stripped_clean : forall p, only_other p ->
  (forall l l', stripped p l l' -> forall s, inside s l' -> p s = false) /\
  (forall s s', strip_in p s s' -> p s = false -> forall x, inside x [s'] -> p x = false) /\
  (forall cs cs', strip_cs p cs cs' -> forall k b, In (k, b) cs' -> forall s, inside s b -> p s = false).
Proof.
  intros p Hp.
  assert (forall s, (forall o, s <> SOther o) -> p s = false) as NO.
  { intros s N. destruct (p s) eqn:E; [|reflexivity]. destruct (Hp s E) as [o ->]. destruct (N o eq_refl). }
  assert (forall x (s : stmt), inside x [s] -> x = s \/
     (exists c t f, s = SIf c t f /\ (inside x t \/ inside x f)) \/
     (exists e cs d, s = SSwitch e cs d /\ ((exists k b, In (k, b) cs /\ inside x b) \/ exists b, d = Some b /\ inside x b)) \/
     (exists i a b st body, s = SFor i a b st body /\ inside x body) \/ (exists body, s = SBlock body /\ inside x body)) as Inv.
  { intros x s H. inversion H as [l J|l c t f J J2|l c t f J J2|l e cs d k b J J2 J3|l e cs b J J2|l i a b st body J J2|l body J J2]; subst; (destruct J as [<-|[]] || destruct J as [->|[]]).
    - now left.
    - right; left. eauto 8.
    - right; left. eauto 8.
    - right; right; left. do 3 eexists; split; [reflexivity|]. left; eauto.
    - right; right; left. do 3 eexists; split; [reflexivity|]. right; eauto.
    - right; right; right; left. do 5 eexists; split; [reflexivity|assumption].
    - right; right; right; right. eexists; split; [reflexivity|assumption]. }
  assert (forall x s l, inside x (s :: l) -> inside x [s] \/ inside x l) as Sp.
  { intros x s l H. inversion H as [l0 J|l0 c t f J J2|l0 c t f J J2|l0 e cs d k b J J2 J3|l0 e cs b J J2|l0 i a b st body J J2|l0 body J J2]; subst; (destruct J as [<-|J] || destruct J as [->|J]).
    - left. apply in_here. now left. - right. now apply in_here.
    - left. eapply in_then; [now left|assumption]. - right. eapply in_then; eassumption.
    - left. eapply in_else; [now left|assumption]. - right. eapply in_else; eassumption.
    - left. eapply in_case; [now left|eassumption|assumption]. - right. eapply in_case; eassumption.
    - left. eapply in_default; [now left|eassumption]. - right. eapply in_default; eassumption.
    - left. eapply in_for; [now left|eassumption]. - right. eapply in_for; eassumption.
    - left. eapply in_block; [now left|eassumption]. - right. eapply in_block; eassumption. }
  assert (forall x, inside x [] -> False) as Nil by (intros x H; inversion H as [l0 J|l0 c t f J J2|l0 c t f J J2|l0 e cs d k b J J2 J3|l0 e cs b J J2|l0 i a b st body J J2|l0 body J J2]; destruct J).
  apply strip_ind3.
  - intros s H. destruct (Nil s H).
  - auto.
  - intros s s' l l' Ps _ IH1 _ IH2 x H. apply Sp in H as [H|H]; auto.
  - intros c t t' f f' _ IH1 _ IH2 Ps x H. apply Inv in H as [->|[(c0 & t0 & f0 & E & J)|[(e0 & cs0 & d0 & E & J)|[(i0 & a0 & b0 & st0 & bo & E & J)|(bo & E & J)]]]]; try discriminate.
    + now apply NO. + injection E as <- <- <-. destruct J; auto.
  - intros e cs cs' _ IH Ps x H. apply Inv in H as [->|[(c0 & t0 & f0 & E & J)|[(e0 & cs0 & d0 & E & J)|[(i0 & a0 & b0 & st0 & bo & E & J)|(bo & E & J)]]]]; try discriminate.
    + now apply NO. + injection E as <- <- <-. destruct J as [(k & b & J1 & J2)|(b & J1 & _)]; [eapply IH; eassumption|discriminate].
  - intros e cs cs' d d' _ IH _ IHd Ps x H. apply Inv in H as [->|[(c0 & t0 & f0 & E & J)|[(e0 & cs0 & d0 & E & J)|[(i0 & a0 & b0 & st0 & bo & E & J)|(bo & E & J)]]]]; try discriminate.
    + now apply NO. + injection E as <- <- <-. destruct J as [(k & b & J1 & J2)|(b & J1 & J2)]; [eapply IH; eassumption|]. injection J1 as <-. auto.
  - intros i a b st body body' _ IH Ps x H. apply Inv in H as [->|[(c0 & t0 & f0 & E & J)|[(e0 & cs0 & d0 & E & J)|[(i0 & a0 & b0 & st0 & bo & E & J)|(bo & E & J)]]]]; try discriminate.
    + now apply NO. + injection E as <- <- <- <- <-. auto.
  - intros body body' _ IH Ps x H. apply Inv in H as [->|[(c0 & t0 & f0 & E & J)|[(e0 & cs0 & d0 & E & J)|[(i0 & a0 & b0 & st0 & bo & E & J)|(bo & E & J)]]]]; try discriminate.
    + now apply NO. + injection E as <-. auto.
  - intros k l e Ps x H. apply Inv in H as [->|[(c0 & t0 & f0 & E & J)|[(e0 & cs0 & d0 & E & J)|[(i0 & a0 & b0 & st0 & bo & E & J)|(bo & E & J)]]]]; try discriminate. exact Ps.
  - intros e Ps x H. apply Inv in H as [->|[(c0 & t0 & f0 & E & J)|[(e0 & cs0 & d0 & E & J)|[(i0 & a0 & b0 & st0 & bo & E & J)|(bo & E & J)]]]]; try discriminate. exact Ps.
  - intros Ps x H. apply Inv in H as [->|[(c0 & t0 & f0 & E & J)|[(e0 & cs0 & d0 & E & J)|[(i0 & a0 & b0 & st0 & bo & E & J)|(bo & E & J)]]]]; try discriminate. exact Ps.
  - intros o Ps x H. apply Inv in H as [->|[(c0 & t0 & f0 & E & J)|[(e0 & cs0 & d0 & E & J)|[(i0 & a0 & b0 & st0 & bo & E & J)|(bo & E & J)]]]]; try discriminate. exact Ps.
  - intros k b [].
  - intros v b b' l l' _ IH1 _ IH2 k b0 [E|J] s Hs; [injection E as <- <-; auto|eapply IH2; eassumption].
Qed.
