(* Theorems about the variables of the debug database: C450 - C455. *)
From Coq Require Import String.
From Verif Require Import Base Num_spec Num_model Num_proofs Util_spec Util_model Util_proofs Dvar_spec Dvar_model.
Local Open Scope string_scope.
Local Open Scope Z_scope.

Lemma sapp_assoc (a b c : string) : (a ++ b) ++ c = a ++ b ++ c.
Proof. induction a; cbn; congruence. Qed.
Lemma sapp_nil (a : string) : a ++ "" = a. Proof. induction a; cbn; congruence. Qed.
Lemma sapp_inv (a b c : string) : a ++ b = a ++ c -> b = c.
Proof. induction a as [|x a IH]; cbn; intros E; [exact E|]. apply IH. congruence. Qed.
Lemma dotted_eq : forall ix n, dotted n ix = n ++ dots ix.
Proof. unfold dotted. induction ix as [|i ix IH]; intros n; cbn [fold_left dots]; [now rewrite sapp_nil|]. rewrite IH, !sapp_assoc. reflexivity. Qed.
Lemma indexed_eq : forall ix n, indexed n ix = n ++ brackets ix.
Proof. unfold indexed. induction ix as [|i ix IH]; intros n; cbn [fold_left brackets]; [now rewrite sapp_nil|]. rewrite IH, !sapp_assoc. reflexivity. Qed.
Lemma dots_stop ix : stops 10 (dots ix). Proof. destruct ix; exact I. Qed.
Lemma dec_sep : forall i j a b, 0 <= i -> 0 <= j -> stops 10 a -> stops 10 b -> dec i ++ a = dec j ++ b -> i = j /\ a = b.
Proof.
  intros i j a b Hi Hj A B E. unfold dec in E. pose proof (read_print 10 i a ltac:(lia) Hi A) as R1. pose proof (read_print 10 j b ltac:(lia) Hj B) as R2.
  rewrite E, R2 in R1. injection R1 as <- <-. auto.
Qed.
Lemma dots_inj : forall a b, Forall (fun i => 0 <= i) a -> Forall (fun i => 0 <= i) b -> dots a = dots b -> a = b.
Proof.
  induction a as [|i a IH]; intros [|j b] Fa Fb E; try reflexivity; try discriminate. inversion Fa; inversion Fb; subst.
  cbn [dots] in E. injection E as E. apply dec_sep in E; try assumption; try apply dots_stop. destruct E as [-> E]. f_equal. auto.
Qed.
Lemma brackets_inj : forall a b, Forall (fun i => 0 <= i) a -> Forall (fun i => 0 <= i) b -> brackets a = brackets b -> a = b.
Proof.
  induction a as [|i a IH]; intros [|j b] Fa Fb E; try reflexivity; try discriminate. inversion Fa; inversion Fb; subst.
  cbn [brackets] in E. injection E as E. apply dec_sep in E; try assumption; try exact I. destruct E as [-> E]. injection E as E. f_equal. auto.
Qed.
Lemma valid_nonneg dims ix : valid_index dims ix -> Forall (fun i => 0 <= i) ix.
Proof. induction 1; constructor; trivial; lia. Qed.
Lemma slices_nodup dims : Forall (fun d => 0 < d) dims -> NoDup (get_flatten_slices dims).
Proof.
  intros P. pose proof (flatten_sorted dims P) as S.
  assert (X : forall a, ~ lex_lt a a) by (induction a as [|x a IH]; cbn; [tauto|intros [L|[_ L]]; [lia|exact (IH L)]]).
  induction S as [|a l S IH F]; constructor; trivial. intros I. rewrite Forall_forall in F. exact (X a (F a I)).
Qed.
Lemma NoDup_map_on {A B} (f : A -> B) l : (forall x y, In x l -> In y l -> f x = f y -> x = y) -> NoDup l -> NoDup (map f l).
Proof.
  intros H N. induction N as [|x l NI N IH]; cbn [map]; constructor.
  - rewrite in_map_iff. intros (y & E & I). rewrite (H y x) in I; trivial; [exact (NI I)|right; exact I|left; reflexivity].
  - apply IH. intros a b Ia Ib. apply H; right; assumption.
Qed.

(* C450: for an array the database holds exactly its elements, each under its own name and each once: a.1.2 is a[1][2].
   For a struct it holds exactly the members. *)
Lemma array_is dims : an_array dims -> is_array dims = true.
Proof. intros [(a & b & r & ->)|(d & -> & L)]; unfold is_array; [reflexivity|]. cbn. apply Z.ltb_lt, L. Qed.
Lemma scalar_is dims : scalar dims -> is_array dims = false.
Proof. intros (d & -> & L). unfold is_array. cbn. apply Z.ltb_ge, L. Qed.

Lemma scalar1 : scalar [1].
Proof. exists 1. split; [reflexivity|lia]. Qed.
Theorem C450_elements : forall v name, an_array (v_dims v) -> Forall (fun d => 0 < d) (v_dims v) ->
  exists l, create_variables v name = Ok l
  /\ (forall e, In e l <-> exists ix, valid_index (v_dims v) ix /\ e = (name ++ dots ix, v_text v ++ brackets ix, ""))
  /\ NoDup (map e_name l) /\ NoDup (map e_value l).
Proof.
  intros v name A P. unfold create_variables. rewrite (array_is _ A). eexists. split; [reflexivity|]. rewrite !map_map. cbn [e_name e_value fst snd].
  assert (V : forall x, In x (get_flatten_slices (v_dims v)) -> Forall (fun i => 0 <= i) x).
  { intros x I. apply flatten_in in I; [|exact P]. exact (valid_nonneg _ _ I). }
  split; [|split].
  - intros e. rewrite in_map_iff. split.
    + intros (ix & <- & I). exists ix. apply flatten_in in I; [|exact P]. split; [exact I|]. rewrite dotted_eq, indexed_eq. reflexivity.
    + intros (ix & I & ->). exists ix. rewrite dotted_eq, indexed_eq. split; [reflexivity|]. apply flatten_in; assumption.
  - apply NoDup_map_on; [|apply slices_nodup, P]. unfold e_name. cbn [fst]. intros x y Ix Iy E. rewrite !dotted_eq in E. apply sapp_inv in E. apply dots_inj; auto.
  - apply NoDup_map_on; [|apply slices_nodup, P]. unfold e_value. cbn [fst snd]. intros x y Ix Iy E. rewrite !indexed_eq in E. apply sapp_inv in E. apply brackets_inj; auto.
Qed.
Theorem C450_members : forall v name ms, scalar (v_dims v) -> v_struct v = Some ms -> v_kind v = KBase \/ v_kind v = KPort ->
  exists l, create_variables v name = Ok l
  /\ (forall e, In e l <-> exists m, In m ms /\ e = (name ++ "." ++ m, v_text v ++ "." ++ m, ""))
  /\ (NoDup ms -> NoDup (map e_name l) /\ NoDup (map e_value l)).
Proof.
  intros v name ms A S K. unfold create_variables. apply scalar_is in A. rewrite A, S.
  assert (C : create_variables v name = Ok (map (fun m => (name ++ "." ++ m, v_text v ++ "." ++ m, "")) ms)).
  { unfold create_variables. rewrite A, S. destruct K as [-> | ->]; reflexivity. }
  unfold create_variables in C. rewrite A, S in C. rewrite C. eexists. split; [reflexivity|]. split.
  - intros e. rewrite in_map_iff. split; intros (m & X & Y); exists m; subst; auto.
  - intros N. rewrite !map_map. unfold e_name, e_value. cbn [fst snd].
    split; (apply NoDup_map_on; [|exact N]); intros x y _ _ E; apply sapp_inv in E; injection E as E; exact E.
Qed.
Theorem C450_plain : forall v name, scalar (v_dims v) -> v_struct v = None -> v_kind v <> KSlice \/ v_sel v = None ->
  create_variables v name = Ok [(name, v_text v, "")].
Proof.
  intros v name A S K. unfold create_variables. rewrite (scalar_is _ A), S. destruct K as [K|K].
  - destruct (v_kind v); try reflexivity. now destruct K.
  - rewrite K. destruct (v_kind v); reflexivity.
Qed.
Definition ex_arr : dvar := mkV "arr_0" KBase [2; 12] None None.
Example C450_ex : an_array (v_dims ex_arr) /\ Forall (fun d => 0 < d) (v_dims ex_arr)
  /\ (exists l, create_variables ex_arr "arr" = Ok l /\ List.length l = 24%nat /\ nth 23 l ("", "", "") = ("arr.1.11", "arr_0[1][11]", ""))
  /\ create_variables (mkV "s" KPort [1] (Some ["x"; "y"]) None) "self.s" = Ok [("self.s.x", "s.x", ""); ("self.s.y", "s.y", "")].
Proof. split; [left; eexists _, _, _; reflexivity|]. repeat split; try (repeat constructor; lia). eexists. repeat split. Qed.

(* C451: for an element selected by a signal the database holds every element of the array, each with the condition under
   which it is the one selected, and for every value of the index there is exactly one such. *)
Definition plain_name (s : string) : Prop := s <> "" /\ forall c, In c (list_ascii_of_string s) -> ~ In c (list_ascii_of_string "[].").
Lemma root_plain name : plain_name name -> root_name name = Ok name.
Proof.
  intros [N F]. unfold root_name.
  assert (T : get_tokens (list_ascii_of_string name) (list_ascii_of_string "[].") = [list_ascii_of_string name]).
  { eapply splits_unique; [apply get_tokens_splits|].
    pose proof (split_tok (fun c => In c (list_ascii_of_string "[].")) [] (list_ascii_of_string name) [] [] (Forall_nil _)) as S. cbn [app] in S. rewrite app_nil_r in S.
    apply S; [destruct name; [congruence|discriminate]|apply Forall_forall; exact F|exact I|constructor; constructor]. }
  rewrite T, string_of_list_ascii_of_string. reflexivity.
Qed.
Theorem C451_selected : forall v name size base sel, scalar (v_dims v) -> v_struct v = None -> v_kind v = KSlice ->
  v_sel v = Some (size, base, sel) -> plain_name name ->
  exists l, create_variables v name = Ok l
  /\ (forall e, In e l -> exists k, 0 <= k < size /\ e_cond e = sel ++ " == " ++ dec k)
  /\ forall k, 0 <= k < size -> forall e, (In e l /\ e_cond e = sel ++ " == " ++ dec k) <-> e = (name ++ dots [k], base ++ brackets [k], sel ++ " == " ++ dec k).
Proof.
  intros v name size base sel A St K Sl Pn. unfold create_variables. rewrite (scalar_is _ A), St, K, Sl, (root_plain name Pn). cbn [obind].
  eexists. split; [reflexivity|]. split.
  - intros e I. apply in_map_iff in I. destruct I as (i & <- & I). apply in_seq in I. exists (Z.of_nat i). split; [lia|reflexivity].
  - intros k Hk e. rewrite in_map_iff. cbn [dots brackets]. rewrite !sapp_nil. split.
    + intros [(i & <- & I) E]. unfold e_cond in E. cbn [snd] in E. apply sapp_inv in E. injection E as E. unfold dec in E. apply print_num_inj in E; [|lia|lia|lia].
      subst k. reflexivity.
    + intros ->. split; [|reflexivity]. exists (Z.to_nat k). rewrite Z2Nat.id by lia. split; [reflexivity|]. apply in_seq. lia.
Qed.
Definition ex_sel : dvar := mkV "arr[i]" KSlice [1] None (Some (3, "arr", "i")).
Example C451_ex : plain_name "a" /\ create_variables ex_sel "a"
  = Ok [("a.0", "arr[0]", "i == 0"); ("a.1", "arr[1]", "i == 1"); ("a.2", "arr[2]", "i == 2")].
Proof. split; [|reflexivity]. split; [discriminate|]. intros c [<-|[]]. cbn. intuition discriminate. Qed.

(* C452: for a bit selected by a signal only one bit is held: a variable that is no array has one element. *)
Theorem C452_bits_refuted :
  (forall v name base sel, scalar (v_dims v) -> v_struct v = None -> v_kind v = KSlice -> v_sel v = Some (1, base, sel) -> plain_name name ->
     create_variables v name = Ok [(name ++ ".0", base ++ "[0]", sel ++ " == 0")])
  /\ ~ (forall v name base sel width, scalar (v_dims v) -> v_struct v = None -> v_kind v = KSlice -> v_sel v = Some (1, base, sel) -> plain_name name ->
          forall k, 0 <= k < width -> exists l, create_variables v name = Ok l /\ exists e, In e l /\ e_value e = base ++ "[" ++ dec k ++ "]").
Proof.
  assert (A : forall v name base sel, scalar (v_dims v) -> v_struct v = None -> v_kind v = KSlice -> v_sel v = Some (1, base, sel) -> plain_name name ->
     create_variables v name = Ok [(name ++ ".0", base ++ "[0]", sel ++ " == 0")]).
  { intros v name base sel Ar St K Sl Pn. unfold create_variables. rewrite (scalar_is _ Ar), St, K, Sl, (root_plain name Pn). reflexivity. }
  split; [exact A|]. intros H.
  destruct (H (mkV "a[i]" KSlice [1] None (Some (1, "a", "i"))) "a" "a" "i" 8 scalar1 eq_refl eq_refl eq_refl (proj1 C451_ex) 5 ltac:(lia)) as (l & E & e & I & X).
  rewrite (A _ "a" "a" "i") in E; trivial; [|exact scalar1|apply C451_ex]. injection E as <-. destruct I as [<-|[]]. discriminate.
Qed.

(* C453: elements selected in two arrays that are members of the same object are held under the same names: only what is
   before the first dot is kept. *)
Lemma root_dotted p s : plain_name p -> root_name (p ++ "." ++ s) = Ok p.
Proof.
  intros [N F]. unfold root_name.
  pose proof (get_tokens_splits (list_ascii_of_string (p ++ "." ++ s)) (list_ascii_of_string "[].")) as T.
  set (D := list_ascii_of_string "[].") in *.
  assert (L : list_ascii_of_string (p ++ "." ++ s) = (list_ascii_of_string p ++ list_ascii_of_string ("." ++ s))%list).
  { clear. induction p as [|c p IH]; [reflexivity|]. cbn [append list_ascii_of_string app]. f_equal. exact IH. }
  assert (T' : splits (fun c => In c D) (list_ascii_of_string (p ++ "." ++ s))
                 (list_ascii_of_string p :: get_tokens (list_ascii_of_string ("." ++ s)) D)).
  { rewrite L. apply (split_tok (fun c => In c D) []).
    - constructor.
    - destruct p; [congruence|discriminate].
    - apply Forall_forall. exact F.
    - right; right; left; reflexivity.
    - apply get_tokens_splits. }
  rewrite (splits_unique _ _ _ _ T T'). rewrite string_of_list_ascii_of_string. reflexivity.
Qed.
Theorem C453_members_refuted :
  (forall v p s, scalar (v_dims v) -> v_struct v = None -> v_kind v = KSlice -> v_sel v <> None -> plain_name p ->
     create_variables v (p ++ "." ++ s) = create_variables v p)
  /\ ~ (forall v n1 n2, scalar (v_dims v) -> v_struct v = None -> v_kind v = KSlice -> v_sel v = Some (2, "arr", "i") -> n1 <> n2 ->
          create_variables v n1 <> create_variables v n2).
Proof.
  assert (A : forall v p s, scalar (v_dims v) -> v_struct v = None -> v_kind v = KSlice -> v_sel v <> None -> plain_name p ->
     create_variables v (p ++ "." ++ s) = create_variables v p).
  { intros v p s Ar St K Sl Pn. unfold create_variables. rewrite (scalar_is _ Ar), St, K, (root_dotted p s Pn), (root_plain p Pn). destruct (v_sel v) as [[[? ?] ?]|]; [reflexivity|congruence]. }
  split; [exact A|]. intros H.
  assert (Pn : plain_name "self") by (split; [discriminate|]; intros c I; cbn in I |- *; intuition (subst; discriminate)).
  apply (H (mkV "arr[i]" KSlice [1] None (Some (2, "arr", "i"))) ("self" ++ "." ++ "a") ("self" ++ "." ++ "b")); try reflexivity; try discriminate; exact scalar1.
Qed.

(* C454: an assignment to a member that is itself a struct leaves nothing in the database. *)
Theorem C454_inner_refuted :
  (forall v name ms, scalar (v_dims v) -> v_struct v = Some ms -> v_kind v = KSlice -> create_variables v name = Ok [])
  /\ ~ (forall v name ms, scalar (v_dims v) -> v_struct v = Some ms -> ms <> [] -> create_variables v name <> Ok []).
Proof.
  assert (A : forall v name ms, scalar (v_dims v) -> v_struct v = Some ms -> v_kind v = KSlice -> create_variables v name = Ok []).
  { intros v name ms Ar St K. unfold create_variables. rewrite (scalar_is _ Ar), St, K. reflexivity. }
  split; [exact A|]. intros H. apply (H (mkV "s.inner" KSlice [1] (Some ["x"]) None) "s" ["x"]); try reflexivity; [exact scalar1|discriminate].
Qed.

(* C455: a name that is mapped again keeps what it was mapped to first. *)
Lemma find_app m e n : find_name (m ++ [e])%list n = match find_name m n with Some v => Some v | None => if String.eqb (fst e) n then Some (snd e) else None end.
Proof. unfold find_name. induction m as [|x m IH]; cbn [app find option_map]; [destruct (String.eqb (fst e) n); reflexivity|]. destruct (String.eqb (fst x) n); [reflexivity|exact IH]. Qed.
Lemma set_keeps new : forall m n v, find_name m n = Some v -> find_name (set_mapping m new) n = Some v.
Proof.
  unfold set_mapping. induction new as [|e new IH]; intros m n v E; cbn [fold_left]; [exact E|]. apply IH.
  destruct (find_name m (fst e)); [exact E|]. rewrite find_app, E. reflexivity.
Qed.
Lemma set_adds new : forall m n, find_name m n = None -> find_name (set_mapping m new) n = find_name new n.
Proof.
  unfold set_mapping. induction new as [|e new IH]; intros m n E; cbn [fold_left]; [exact E|].
  assert (C : find_name (e :: new) n = if String.eqb (fst e) n then Some (snd e) else find_name new n).
  { unfold find_name. cbn [find]. destruct (String.eqb (fst e) n); reflexivity. }
  rewrite C. destruct (String.eqb_spec (fst e) n) as [X|X].
  - rewrite X, E. apply set_keeps. rewrite find_app, E. rewrite X, String.eqb_refl. reflexivity.
  - rewrite <- (IH (match find_name m (fst e) with Some _ => m | None => (m ++ [e])%list end) n); [reflexivity|].
    destruct (find_name m (fst e)); [exact E|]. rewrite find_app, E. apply String.eqb_neq in X. rewrite X. reflexivity.
Qed.
Theorem C455_again_refuted :
  (forall m new n, find_name (set_mapping m new) n = match find_name m n with Some v => Some v | None => find_name new n end)
  /\ ~ (forall m new n v, find_name new n = Some v -> find_name (set_mapping m new) n = Some v).
Proof.
  assert (A : forall m new n, find_name (set_mapping m new) n = match find_name m n with Some v => Some v | None => find_name new n end).
  { intros m new n. destruct (find_name m n) eqn:E; [apply set_keeps, E|apply set_adds, E]. }
  split; [exact A|]. intros H. specialize (H [("a", "x")] [("a", "y")] "a" "y" eq_refl). discriminate.
Qed.
Print Assumptions C450_elements.
Print Assumptions C450_members.
Print Assumptions C450_plain.
Print Assumptions C451_selected.
Print Assumptions C452_bits_refuted.
Print Assumptions C453_members_refuted.
Print Assumptions C454_inner_refuted.
Print Assumptions C455_again_refuted.
