(* C27, C35, C94-C102: names in a module. *)
From Verif Require Import Base Name_spec Num_model Name_model Name_proofs.
Local Open Scope Z_scope.
Local Open Scope string_scope.

(* ---- C27: fresh names ---- *)
(* base_name p n is n, or p_n when there is a prefix; the search always ends *)
Theorem C27_fresh_name :
  forall g prefix name, Z.of_nat (length (g_vars g)) < 2 ^ 32 ->
    exists r, get_unique_variable_name g prefix name = Some r /\ get_var g r = None.
Proof.
  intros g p n L. destruct (unique_found g p n L) as (r & E & T & _). exists r. split; [exact E|]. now apply taken_get in T.
Qed.
Print Assumptions C27_fresh_name.
(* the name asked for is kept when it is free; otherwise the smallest free number is appended *)
Theorem C27_shape_of_the_name :
  forall g prefix name, Z.of_nat (length (g_vars g)) < 2 ^ 32 ->
    let asked := match prefix with EmptyString => name | _ => prefix ++ "_" ++ name end in
    match get_var g asked with
    | None => get_unique_variable_name g prefix name = Some asked
    | Some _ => exists i, 0 <= i <= Z.of_nat (length (g_vars g))
                  /\ get_unique_variable_name g prefix name = Some (asked ++ "_" ++ dec i)
                  /\ get_var g (asked ++ "_" ++ dec i) = None
                  /\ forall j, 0 <= j < i -> get_var g (asked ++ "_" ++ dec j) <> None
    end.
Proof.
  intros g p n L asked. assert (asked = base_name p n) as Ea by (destruct p; reflexivity). rewrite Ea. clearbody asked. subst asked.
  destruct (unique_found g p n L) as (r & E & T & [->|(i & Hi & -> & Tb & M)]).
  - apply taken_get in T. rewrite T. exact E.
  - unfold taken in Tb. destruct (get_var g (base_name p n)); [|discriminate]. exists i. split; [exact Hi|]. split; [exact E|].
    split; [now apply taken_get in T|]. intros j Hj Q. apply taken_get in Q. pose proof (M j Hj) as Mj. unfold counted in Mj. congruence.
Qed.
Print Assumptions C27_shape_of_the_name.
Definition ok_name (s : string) : bool := negb (s =? "module").
Definition g27 : gen := play ok_name empty_gen [DeclVar "a" 8 [1] false; DeclVar "p_a" 8 [1] false; DeclVar "p_a_0" 1 [1] false].
Example C27_ex : get_unique_variable_name g27 "p" "a" = Some "p_a_1" /\ get_unique_variable_name g27 "" "a" = Some "a_0"
  /\ get_unique_variable_name g27 "" "b" = Some "b".
Proof. repeat split; vm_compute; reflexivity. Qed.

(* ---- C35: lookups after any history ---- *)
Theorem C35_lookup_after_any_history :
  forall valid l, plain_history valid no_names l ->
    forall n, lookup (play valid empty_gen l) n = history_spec valid l n.
Proof. intros valid l P n. apply (play_ok valid l empty_gen no_names inv_empty P). Qed.
Print Assumptions C35_lookup_after_any_history.
Theorem C35_port_lookup_after_any_history :
  forall valid l, plain_history valid no_names l ->
    forall n, lookup_port (play valid empty_gen l) n
              = Ok (match history_spec valid l n with
                    | Some d => match dc_port d with Some _ => Some d | None => None end
                    | None => None
                    end).
Proof. intros valid l P n. apply port_ok. apply (play_ok valid l empty_gen no_names inv_empty P). Qed.
Print Assumptions C35_port_lookup_after_any_history.
(* which actions are accepted *)
Theorem C35_accepted_as_specified :
  forall valid l a, plain_history valid no_names (l ++ [a]) ->
    (exists u, snd (step valid (play valid empty_gen l) a) = Ok u) <-> snd (step_spec valid (history_spec valid l) a) = true.
Proof.
  intros valid l a P.
  assert (forall l D, plain_history valid D (l ++ [a]) -> plain_history valid D l /\ plain (fold_left (fun D a => fst (step_spec valid D a)) l D) a) as S.
  { clear P l. induction l as [|x r IH]; intros D H; [exact (conj I (proj1 H))|]. destruct H as [H1 H2]. apply IH in H2. exact (conj (conj H1 (proj1 H2)) (proj2 H2)). }
  destruct (S l no_names P) as [P1 P2]. pose proof (play_ok valid l empty_gen no_names inv_empty P1) as I.
  destruct (step_ok valid _ _ a I P2) as (_ & A & U). unfold history_spec. rewrite <- A.
  destruct (snd (step valid (play valid empty_gen l) a)) as [u| |]; cbn; split; intros H; try discriminate; eauto; destruct H; discriminate.
Qed.
Print Assumptions C35_accepted_as_specified.
(* a declaration that fails leaves every table as it was, whatever the state *)
Theorem C35_failed_declaration_changes_nothing :
  forall valid g a g' r, step valid g a = (g', r) -> (forall u, r <> Ok u) ->
    match a with DeclVar _ _ _ _ | DeclPort _ _ _ _ _ | DeclEnumVar _ _ | Use _ | Rename _ _ | RemoveVar _ => g' = g | RemovePort _ => True end.
Proof.
  intros valid g a g' r H F. destruct a as [n w size sg|p n w size sg|n w|n|a b|n|n]; [..|exact I|]; cbn [step] in H.
  - unfold decl_var in H. destruct (get_var g n); [destruct (negb _ || negb _)|destruct (ctor_ok _ _ _)]; cbn in H; injection H as <- <-; try reflexivity; exfalso; eapply F; reflexivity.
  - unfold decl_port in H. destruct (ctor_ok _ _ _); [cbn [new_obj] in H; destruct (has _ _)|]; cbn in H; injection H as <- <-; try reflexivity; exfalso; eapply F; reflexivity.
  - unfold decl_enum_var in H. destruct (get_var g n); [|destruct (ctor_ok _ _ _)]; cbn in H; injection H as <- <-; try reflexivity; exfalso; eapply F; reflexivity.
  - unfold use_var in H. destruct (get_var g n); cbn in H; injection H as <- <-; try reflexivity; exfalso; eapply F; reflexivity.
  - unfold rename in H. destruct (get_var g a); [destruct (_ =? _); [|destruct (get_var g b)]|]; cbn in H; injection H as <- <-; try reflexivity; exfalso; eapply F; reflexivity.
  - unfold remove_var in H. destruct (get_var g n); [destruct (o_used _)|]; cbn in H; injection H as <- <-; try reflexivity; exfalso; eapply F; reflexivity.
Qed.
Print Assumptions C35_failed_declaration_changes_nothing.
Definition h35 : list action :=
  [DeclVar "a" 8 [1] false; DeclPort In_ "b" 4 [2] true; DeclVar "b" 8 [1] true; Rename "a" "c"; DeclEnumVar "a" 2;
   DeclVar "module" 1 [1] false; DeclPort Out_ "b" 1 [1] false; Use "c"; RemoveVar "c"; RemovePort "b"].
Example C35_ex : plain_history ok_name no_names h35
  /\ map (lookup (play ok_name empty_gen h35)) ["a"; "b"; "c"; "module"]
     = [Some {| dc_width := 2; dc_size := [1]; dc_signed := false; dc_port := None; dc_used := false |}; None;
        Some {| dc_width := 8; dc_size := [1]; dc_signed := false; dc_port := None; dc_used := true |}; None].
Proof.
  split; [|vm_compute; reflexivity]. cbn.
  repeat match goal with |- _ /\ _ => split | |- Forall _ _ => constructor | |- True => exact I end;
    unfold bits; cbn; try lia; try discriminate; auto.
Qed.

(* ---- C94: a port declared under the name of a variable ---- *)
(* the declaration succeeds, the name still means the variable, and asking for the port
   treats the variable as a port *)
Theorem C94_port_over_variable_refuted :
  forall valid g n v p w size sg, get_var g n = Some v -> o_port (g_heap g v) = None -> has (g_ports g) n = false ->
    valid n = true -> w <> 0 ->
    exists g' u, decl_port valid g p n w size sg = (g', Ok u) /\ u = g_next g /\ get_var g' n = Some v
      /\ ((v < g_next g)%nat -> get_port g' n = UB).
Proof.
  intros valid g n v p w size sg E P H Va W. unfold decl_port, ctor_ok. rewrite Va. destruct (Z.eqb_spec w 0); [congruence|].
  cbn [andb negb new_obj]. rewrite H. eexists. exists (g_next g). split; [reflexivity|]. split; [reflexivity|].
  unfold get_port, get_var in *. cbn [with_ports with_vars g_vars g_ports g_heap]. rewrite find_emplace, E. split; [reflexivity|].
  intros L. rewrite has_insert, String.eqb_refl. cbn [orb]. destruct (Nat.eqb_spec v (g_next g)); [lia|]. now rewrite P.
Qed.
Print Assumptions C94_port_over_variable_refuted.
Example C94_ex : let g := play ok_name empty_gen [DeclVar "a" 8 [1] false] in
  get_var g "a" = Some 0%nat /\ o_port (g_heap g 0) = None /\ has (g_ports g) "a" = false.
Proof. vm_compute. auto. Qed.

(* ---- C95: a removal that fails ---- *)
(* removing a connected port throws but has already dropped it from the ports *)
Theorem C95_failed_removal_refuted :
  forall g n v, get_var g n = Some v -> o_used (g_heap g v) = true -> has (g_ports g) n = true ->
    exists g', remove_port g n = (g', Throw) /\ get_port g' n = Ok None /\ get_var g' n = Some v.
Proof.
  intros g n v E U P. unfold remove_port. rewrite P. eexists. split; [|split].
  - unfold remove_var. change (get_var (with_ports _ _) n) with (get_var g n). rewrite E. cbn [with_ports g_heap]. rewrite U. reflexivity.
  - unfold get_port. cbn [with_ports g_ports]. rewrite has_erase, String.eqb_refl. reflexivity.
  - exact E.
Qed.
Print Assumptions C95_failed_removal_refuted.
Example C95_ex : let g := play ok_name empty_gen [DeclPort In_ "a" 8 [1] false; Use "a"] in
  get_var g "a" = Some 0%nat /\ o_used (g_heap g 0) = true /\ has (g_ports g) "a" = true.
Proof. vm_compute. auto. Qed.

(* ---- C96: declaring an array again ---- *)
Theorem C96_redeclaring_an_array_refuted :
  ~ (forall valid n w size sg, legal valid n w = true -> bits w size < 2 ^ 32 ->
       exists g v, decl_var valid empty_gen n w size sg = (g, Ok v) /\ snd (decl_var valid g n w size sg) = Ok v).
Proof.
  intros H. destruct (H ok_name "a" 8 [4] false) as (g & v & E & R); [reflexivity|reflexivity|].
  vm_compute in E. injection E as <- <-. vm_compute in R. discriminate.
Qed.
Print Assumptions C96_redeclaring_an_array_refuted.
(* and a declaration with another shape gets the old object without an error *)
Theorem C96_other_shape_accepted_refuted :
  ~ (forall valid g n w size sg g' v, decl_var valid g n w size sg = (g', Ok v) ->
       o_width (g_heap g' v) = w /\ o_size (g_heap g' v) = size).
Proof.
  intros H. destruct (H ok_name (play ok_name empty_gen [DeclVar "a" 8 [4] false]) "a" 32 [1] false
    (play ok_name empty_gen [DeclVar "a" 8 [4] false]) 0%nat) as [W _]; [reflexivity|]. vm_compute in W. discriminate.
Qed.
Print Assumptions C96_other_shape_accepted_refuted.

(* ---- C97: removing a port with remove_var, or renaming it with rename_var ---- *)
Theorem C97_removed_port_refuted :
  forall g n v, get_var g n = Some v -> o_used (g_heap g v) = false -> has (g_ports g) n = true ->
    exists g', remove_var g n = (g', Ok tt) /\ get_port g' n = Throw.
Proof.
  intros g n v E U P. eexists. split.
  - unfold remove_var. rewrite E, U. reflexivity.
  - unfold get_port, get_var. cbn [with_vars g_ports g_vars]. rewrite P, find_erase, String.eqb_refl. reflexivity.
Qed.
Print Assumptions C97_removed_port_refuted.
Theorem C97_renamed_port_refuted :
  forall g a b v, get_var g a = Some v -> a <> b -> has (g_ports g) a = true -> has (g_ports g) b = false ->
    get_port (rename_var g a b) a = Throw /\ get_port (rename_var g a b) b = Ok None.
Proof.
  intros g a b v E D P Q. unfold rename_var. rewrite E. unfold get_port, get_var. cbn [with_vars set_obj g_ports g_vars].
  rewrite P, Q, find_emplace, find_erase, String.eqb_refl. destruct (String.eqb_spec a b); [congruence|]. auto.
Qed.
Print Assumptions C97_renamed_port_refuted.
Example C97_ex : let g := play ok_name empty_gen [DeclPort In_ "a" 8 [1] false] in
  get_var g "a" = Some 0%nat /\ o_used (g_heap g 0) = false /\ has (g_ports g) "a" = true /\ has (g_ports g) "b" = false.
Proof. vm_compute. auto. Qed.

(* ---- C98: rename_var onto an existing name ---- *)
(* neither name leads to the renamed variable any more *)
Theorem C98_rename_collision_refuted :
  forall g a b v u, get_var g a = Some v -> get_var g b = Some u -> a <> b -> u <> v ->
    (forall n, get_var g n = Some v -> n = a) -> forall n, get_var (rename_var g a b) n <> Some v.
Proof.
  intros g a b v u Ea Eb D Duv Only n. unfold rename_var. rewrite Ea. unfold get_var. cbn [with_vars set_obj g_vars].
  rewrite find_emplace, find_erase. destruct (String.eqb_spec n a) as [->|Dn].
  - destruct (String.eqb_spec a b); [congruence|discriminate].
  - destruct (find_key (g_vars g) n) eqn:E.
    + intros Q. apply Dn, Only. unfold get_var. congruence.
    + destruct (String.eqb_spec n b) as [->|]; [unfold get_var in Eb; congruence|discriminate].
Qed.
Print Assumptions C98_rename_collision_refuted.
Example C98_ex : let g := play ok_name empty_gen [DeclVar "a" 8 [1] false; DeclVar "b" 8 [1] false] in
  get_var g "a" = Some 0%nat /\ get_var g "b" = Some 1%nat /\ forall n, get_var g n = Some 0%nat -> n = "a".
Proof.
  split; [reflexivity|]. split; [reflexivity|]. intros n H. apply find_in in H. vm_compute in H.
  destruct H as [H|[H|[]]]; [|discriminate]. injection H as <-. reflexivity.
Qed.

(* ---- C99: renaming a variable of a module that has interfaces ---- *)
Theorem C99_rename_with_interface_refuted :
  ~ (forall g a b g' v n, rename g a b = (g', Ok v) -> n <> a -> n <> b -> get_var g' n = get_var g n).
Proof.
  intros H.
  specialize (H (interface_var (play ok_name empty_gen [DeclVar "a" 8 [1] false]) "bus" "data" 4) "a" "c"
    (fst (rename (interface_var (play ok_name empty_gen [DeclVar "a" 8 [1] false]) "bus" "data" 4) "a" "c")) 0%nat "bus.data").
  assert (None = Some 1%nat) as Q; [|discriminate].
  apply H; [reflexivity|discriminate|discriminate].
Qed.
Print Assumptions C99_rename_with_interface_refuted.

(* ---- C100: declaring a parameter twice ---- *)
Theorem C100_parameter_refuted :
  forall g n v, find_key (g_params g) n = Some v -> (v < g_next g)%nat ->
    exists g' u, parameter g n = (g', Ok u) /\ u <> v /\ find_key (g_params g') n = Some v.
Proof.
  intros g n v E L. eexists. exists (g_next g). split; [reflexivity|]. split; [lia|].
  cbn [g_params]. rewrite find_emplace. cbn [new_obj g_params fst]. now rewrite E.
Qed.
Print Assumptions C100_parameter_refuted.
Theorem C100_sized_parameter_clash_is_rejected :
  forall valid g n w, match find_key (g_params g) n with
    | Some _ => parameter_w valid g n w = (g, Throw)
    | None => legal valid n w = true -> exists g' u, parameter_w valid g n w = (g', Ok u) /\ find_key (g_params g') n = Some u
    end.
Proof.
  intros valid g n w. unfold parameter_w. destruct (find_key (g_params g) n) eqn:E; [reflexivity|].
  intros L. unfold ctor_ok. unfold legal in L. rewrite L. eexists. exists (g_next g). split; [reflexivity|].
  cbn [g_params new_obj]. rewrite find_emplace, E, String.eqb_refl. reflexivity.
Qed.
Print Assumptions C100_sized_parameter_clash_is_rejected.
Example C100_ex : find_key (g_params (fst (parameter empty_gen "P"))) "P" = Some 0%nat.
Proof. reflexivity. Qed.

(* ---- C101: moving the variables of an inlined child ---- *)
(* nothing of the parent changes, and every variable of the child is found under its name, or
   under the prefixed name if the parent already used it; ports become variables *)
Theorem C101_inlining_keeps_every_variable :
  forall valid child top prefix, prefix <> "" ->
    NoDup (map fst (g_vars child)) -> NoDup (map snd (g_vars child)) ->
    (forall m u, get_var top m = Some u -> (u < g_next top)%nat) ->
    (forall k v, get_var child k = Some v ->
       (v < g_next top)%nat /\ o_width (g_heap top v) <> 0 /\ (forall m, get_var top m <> Some v)
       /\ valid k = true /\ valid (prefix ++ "_" ++ k) = true
       /\ get_var child (prefix ++ "_" ++ k) = None /\ get_var top (prefix ++ "_" ++ k) = None) ->
    exists top', transfer_content valid child top prefix = (top', Ok tt)
      /\ (forall m u, get_var top m = Some u -> get_var top' m = Some u /\ shown top' u = shown top u)
      /\ (forall k v, get_var child k = Some v ->
            lookup top' (match get_var top k with Some _ => prefix ++ "_" ++ k | None => k end)
            = Some (let d := shown top v in
                    match dc_port d with
                    | Some _ => {| dc_width := dc_width d; dc_size := dc_size d; dc_signed := dc_signed d; dc_port := None; dc_used := false |}
                    | None => d
                    end)).
Proof.
  intros valid child top prefix Np N1 N2 L H.
  assert (forall k, base_name prefix k = prefix ++ "_" ++ k) as B by (intros k; unfold base_name; destruct prefix; [congruence|reflexivity]).
  assert (forall k v, In (k, v) (g_vars child) -> get_var child k = Some v) as F by (intros k v J; apply in_find; assumption).
  destruct (all_ok valid child prefix) with (l := g_vars child) (top0 := top) (T := top) as (T' & E & P1 & P2 & _).
  - intros k J. apply in_map_iff in J as ([k' v] & <- & J). apply F, H in J. cbn [fst]. apply taken_get. rewrite B. tauto.
  - exact Np.
  - intros x; auto.
  - exact N1.
  - exact N2.
  - intros k v J. destruct (H k v (F k v J)) as (Lv & W & Ft & Va & Vb & Fc & Ftop). split; [exact Lv|]. split; [exact W|].
    split; [unfold moved_name; destruct (taken top k); [rewrite B|]; assumption|]. split; [reflexivity|]. split; [|exact Ft].
    unfold moved_name. destruct (taken top k) eqn:T; [|exact T]. apply taken_get. now rewrite B.
  - exact L.
  - exists T'. split; [exact E|]. split; [exact P1|]. intros k v J. apply find_in in J. pose proof (P2 k v J) as Q.
    unfold moved_name, taken in Q. rewrite B in Q. destruct (get_var top k); exact Q.
Qed.
Print Assumptions C101_inlining_keeps_every_variable.
(* objects 0 (parent "a"), 1 (child "a", a port), 2 (child "b") *)
Definition top101 : gen :=
  {| g_vars := [("a", 0%nat)]; g_ports := []; g_params := [];
     g_heap := fun i => {| o_name := match i with 2%nat => "b" | _ => "a" end; o_width := 8; o_size := [1]; o_signed := false;
                           o_port := match i with 1%nat => Some In_ | _ => None end; o_used := false |}; g_next := 3%nat |}.
Definition child101 : gen :=
  {| g_vars := [("a", 1%nat); ("b", 2%nat)]; g_ports := ["a"]; g_params := []; g_heap := g_heap top101; g_next := 3%nat |}.
Example C101_ex :
  NoDup (map fst (g_vars child101)) /\ NoDup (map snd (g_vars child101))
  /\ (forall m u, get_var top101 m = Some u -> (u < g_next top101)%nat)
  /\ (forall k v, get_var child101 k = Some v ->
       (v < g_next top101)%nat /\ o_width (g_heap top101 v) <> 0 /\ (forall m, get_var top101 m <> Some v)
       /\ ok_name k = true /\ ok_name ("i" ++ "_" ++ k) = true
       /\ get_var child101 ("i" ++ "_" ++ k) = None /\ get_var top101 ("i" ++ "_" ++ k) = None)
  /\ map fst (g_vars (fst (transfer_content ok_name child101 top101 "i"))) = ["a"; "i_a"; "b"].
Proof.
  split; [cbn; repeat constructor; cbn; intuition discriminate|]. split; [cbn; repeat constructor; cbn; intuition discriminate|].
  assert (forall m u, get_var top101 m = Some u -> u = 0%nat) as T.
  { intros m u H. apply find_in in H. destruct H as [H|[]]. now injection H. }
  split; [intros m u H; apply T in H; subst; cbn; lia|]. split; [|vm_compute; reflexivity].
  intros k v H. apply find_in in H. destruct H as [H|[H|[]]]; injection H as <- <-;
    (split; [cbn; lia|]; split; [discriminate|]; split; [intros m Q; apply T in Q; discriminate|]; vm_compute; auto).
Qed.

(* ---- C102: the prefixed name is only compared with the child's own names ---- *)
Definition top102 : gen :=
  {| g_vars := [("a", 0%nat); ("i_a", 3%nat)]; g_ports := []; g_params := []; g_heap := g_heap top101; g_next := 4%nat |}.
Definition child102 : gen :=
  {| g_vars := [("a", 2%nat)]; g_ports := []; g_params := []; g_heap := g_heap top101; g_next := 4%nat |}.
Theorem C102_inlining_loses_a_variable_refuted :
  ~ (forall valid child top prefix top', (forall k, valid k = true) -> transfer_content valid child top prefix = (top', Ok tt) ->
       forall k v, get_var child k = Some v -> o_port (g_heap top v) = None -> exists m, get_var top' m = Some v).
Proof.
  intros H. destruct (H (fun _ => true) child102 top102 "i" (fst (transfer_content (fun _ => true) child102 top102 "i"))
    (fun _ => eq_refl) eq_refl "a" 2%nat eq_refl eq_refl) as (m & E).
  apply find_in in E. vm_compute in E. intuition discriminate.
Qed.
Print Assumptions C102_inlining_loses_a_variable_refuted.
