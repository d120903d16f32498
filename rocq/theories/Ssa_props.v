(* Theorems about the debug database: C406 - C411. *)
From Coq Require Import List Arith.
From Verif Require Import Base Ssa_spec Ssa_model.
Import ListNotations.
Local Open Scope string_scope.
Local Open Scope list_scope.
Local Open Scope nat_scope.

Lemma last_snoc l a n : last_of (l ++ [a]) n = if String.eqb (a_front a) n then Some (a_left a) else last_of l n.
Proof.
  induction l as [|b l IH]; cbn; [destruct (String.eqb (a_front a) n); reflexivity|].
  rewrite IH. destruct (String.eqb (a_front a) n); [reflexivity|]. reflexivity.
Qed.
Lemma fix_ok : forall l before s, (forall n, lookup (s_maps s (s_current s)) n = last_of before n) ->
  fix_all s l = map (fun i => let a := nth i l {| a_left := ""; a_front := ""; a_scope := None; a_ctx := [] |} in
    {| a_left := a_left a; a_front := a_front a; a_scope := a_scope a;
       a_ctx := map (fun x : string * (bool * string) => match last_of (before ++ firstn i l) (fst x) with Some v => if fst (snd x) then (fst x, (true, v)) else x | None => x end) (a_ctx a) |})
    (seq 0 (List.length l)).
Proof.
  induction l as [|a l IH]; intros before s H; [reflexivity|].
  cbn [fix_all List.length seq map]. unfold fix_one.
  assert (E : forall n, lookup (s_maps (enter s (a_scope a)) (s_current (enter s (a_scope a)))) n = last_of before n).
  { intros n. unfold enter. destruct (a_scope a) as [i|]; [|apply H]. destruct (Nat.eqb (s_current s) i); [apply H|].
    cbn. unfold upd. rewrite Nat.eqb_refl. apply H. }
  f_equal.
  - cbn [nth firstn]. rewrite app_nil_r. f_equal. unfold new_ctx. apply map_ext. intros x. rewrite E. reflexivity.
  - rewrite (IH (before ++ [a])).
    + rewrite <- seq_shift, map_map. apply map_ext. intros i. cbn [nth firstn]. rewrite <- app_assoc. reflexivity.
    + intros n. cbn. unfold upd. rewrite Nat.eqb_refl. unfold put, lookup; cbn. rewrite last_snoc.
      destruct (String.eqb (a_front a) n); [reflexivity|]. apply E.
Qed.
(* the variables of every assignment keep their names and order; those that stand for a source variable that has been assigned to
   before now stand for what was last assigned, and the others are as they were *)
Theorem C406_ssa : forall l i a,
  nth_error l i = Some a ->
  exists b, nth_error (ssa_fix l) i = Some b /\ a_left b = a_left a /\ a_front b = a_front a /\
    Forall2 (fun x y : string * (bool * string) => fst x = fst y /\
               (forall v, last_of (firstn i l) (fst x) = Some v -> fst (snd x) = true -> snd y = (true, v)) /\
               ((last_of (firstn i l) (fst x) = None \/ fst (snd x) = false) -> snd y = snd x)) (a_ctx a) (a_ctx b).
Proof.
  intros l i a A. unfold ssa_fix. rewrite (fix_ok l []) by reflexivity.
  assert (L : i < List.length l) by (apply nth_error_Some; congruence).
  eexists. split.
  - rewrite nth_error_map, (nth_error_nth' _ 0) by (rewrite seq_length; exact L). rewrite seq_nth by exact L. cbn [option_map Nat.add]. reflexivity.
  - rewrite (nth_error_nth _ _ _ A). cbn [a_left a_front a_ctx app]. split; [reflexivity|]. split; [reflexivity|].
    induction (a_ctx a) as [|[n [b v]] c IH]; [constructor|]. cbn [map]. constructor; [|exact IH].
    cbn [fst snd]. destruct (last_of (firstn i l) n) as [w|]; destruct b; cbn [fst snd]; repeat split; try congruence; intros [Q|Q]; congruence.
Qed.
Definition ex_ssa : list assign :=
  [{| a_left := "a_0"; a_front := "a"; a_scope := Some 1; a_ctx := [("a", (true, "a"))] |};
   {| a_left := "a_1"; a_front := "a"; a_scope := Some 2; a_ctx := [("a", (true, "a")); ("i", (false, "3"))] |};
   {| a_left := "b_0"; a_front := "b"; a_scope := Some 3; a_ctx := [("a", (true, "a")); ("b", (true, "b"))] |}].
Example C406_ex : map a_ctx (ssa_fix ex_ssa) = [[("a", (true, "a"))]; [("a", (true, "a_0")); ("i", (false, "3"))]; [("a", (true, "a_1")); ("b", (true, "b"))]].
Proof. reflexivity. Qed.

(* the assignments of one branch are what the next branch sees, whatever the scopes are *)
Theorem C407_branches_refuted :
  (forall l1 l2 x y a v, a_front x = a -> In (a, (true, v)) (a_ctx y) ->
     exists b, nth_error (ssa_fix (l1 ++ x :: y :: l2)) (S (List.length l1)) = Some b /\ In (a, (true, a_left x)) (a_ctx b)) /\
  ~ (forall parent l i a n v s, nth_error (ssa_fix l) i = Some a -> In (n, (true, v)) (a_ctx a) -> a_scope a = Some s ->
       forall x t, In x (firstn i l) -> a_left x = v -> a_scope x = Some t -> within parent t s).
Proof.
  split.
  - intros l1 l2 x y a v F I.
    destruct (C406_ssa (l1 ++ x :: y :: l2) (S (List.length l1)) y) as (b & B & _ & _ & G).
    { rewrite nth_error_app2 by lia. replace (S (List.length l1) - List.length l1) with 1 by lia. reflexivity. }
    exists b. split; [exact B|].
    assert (Lo : last_of (firstn (S (List.length l1)) (l1 ++ x :: y :: l2)) a = Some (a_left x)).
    { replace (firstn (S (List.length l1)) (l1 ++ x :: y :: l2)) with (l1 ++ [x]).
      - rewrite last_snoc, F, String.eqb_refl. reflexivity.
      - replace (S (List.length l1)) with (List.length l1 + 1) by lia. rewrite firstn_app_2. reflexivity. }
    revert I G. generalize (a_ctx b). induction (a_ctx y) as [|z c IH]; intros d I G; [destruct I|].
    inversion G as [|? u ? d' (N & Q & _) G']; subst. destruct I as [->|I].
    + left. cbn in N, Q. specialize (Q _ Lo eq_refl). destruct u as [n w]. cbn in N, Q. subst. reflexivity.
    + right. apply (IH _ I G').
  - intros H. assert (W : within (fun s => match s with 2 | 3 => Some 1 | _ => None end) 2 3).
    { apply (H _ ex_ssa 2 _ "a" "a_1" 3 eq_refl (or_introl eq_refl) eq_refl (nth 1 ex_ssa (hd (Build_assign "" "" None []) ex_ssa)) 2); try reflexivity.
      cbn. right; left; reflexivity. }
    inversion W as [|? p E W1]; subst. injection E as <-. inversion W1 as [|? p E W2]; subst. discriminate.
Qed.
Example C407_ex : In ("a", (true, "a_1")) (a_ctx (nth 2 (ssa_fix ex_ssa) (hd (Build_assign "" "" None []) ex_ssa))).
Proof. cbn. auto. Qed.

Fixpoint tsize (t : tree) : nat := match t with T _ _ l => S ((fix go (l : list tree) := match l with [] => 0 | x :: r => tsize x + go r end) l) end.
Lemma in_tsize x k i l : In x l -> tsize x < tsize (T k i l).
Proof. cbn. induction l as [|f l IH]; [intros []|]. intros [->|I]; [lia|]. specialize (IH I). lia. Qed.
Lemma scopes_eq p k i l : scopes p (T k i l) = match handle p k i with Ok m => if existsb (fun x => match scopes (InStmt m) x with Ok _ => false | _ => true end) l then Throw else Ok tt | Throw => Throw | UB => UB end
  \/ exists p x, In x l /\ scopes p x = UB.
Proof.
  cbn [scopes]. destruct (handle p k i) as [m| |]; [|left; reflexivity|left; reflexivity]. cbn [obind].
  induction l as [|x l IH]; [left; reflexivity|]. cbn [existsb].
  destruct (scopes (InStmt m) x) eqn:E; cbn [obind orb].
  - destruct IH as [->|(q & y & I & U)]; [left; reflexivity|right; exists q, y; split; [right; exact I|exact U]].
  - left; reflexivity.
  - right. exists (InStmt m), x. split; [left; reflexivity|exact E].
Qed.
Lemma scopes_no_ub : forall n t p, tsize t <= n -> scopes p t <> UB.
Proof.
  induction n as [|n IH]; intros [k i l] p D; [cbn in D; lia|].
  destruct (scopes_eq p k i l) as [->|(q & x & I & U)].
  - unfold handle. destruct (negb (visited k) || i); [destruct (existsb _ l); discriminate|].
    destruct p as [|[|]]; [destruct (existsb _ l); discriminate|destruct (existsb _ l); discriminate|discriminate].
  - exfalso. apply (IH x q); [|exact U]. pose proof (in_tsize x k i l I). lia.
Qed.
Lemma scopes_def p k i l : scopes p (T k i l) = Ok tt <-> exists m, handle p k i = Ok m /\ forall x, In x l -> scopes (InStmt m) x = Ok tt.
Proof.
  destruct (scopes_eq p k i l) as [E|(q & x & I & U)].
  2:{ exfalso. exact (scopes_no_ub _ x q (le_n _) U). }
  rewrite E. destruct (handle p k i) as [m| |]; [|split; [discriminate|intros (m & Q & _); discriminate]|split; [discriminate|intros (m & Q & _); discriminate]].
  split.
  - intros H. exists m. split; [reflexivity|]. intros x I. destruct (existsb _ l) eqn:X; [discriminate|].
    assert (Y := proj2 (Bool.not_true_iff_false _) X). destruct (scopes (InStmt m) x) as [[]| |] eqn:S; [reflexivity| |];
      exfalso; apply Y; apply existsb_exists; exists x; rewrite S; split; trivial.
  - intros (m' & Q & F). injection Q as <-. destruct (existsb _ l) eqn:X; [|reflexivity].
    apply existsb_exists in X. destruct X as (x & I & S). rewrite (F x I) in S. discriminate.
Qed.
Lemma handle_kind p k i : handle p k i = (if recorded (T k i []) then match p with InModule => Ok true | InStmt false => Throw | InStmt true => Ok (match k with Assignment => false | _ => true end) end else Ok false).
Proof. unfold handle, recorded. destruct k, i; reflexivity. Qed.
Lemma scopes_inside : forall n t m, tsize t <= n ->
  (scopes (InStmt m) t = Ok tt <-> (recorded t = true -> m = true) /\
     forall x y, part_of x t -> In y (contains x) -> recorded y = true -> recorded x = true /\ kind_of x <> Assignment).
Proof.
  induction n as [|n IH]; intros [k i l] m D; [cbn in D; lia|].
  assert (W : forall x, In x l -> tsize x <= n) by (intros x I; pose proof (in_tsize x k i l I); lia).
  rewrite scopes_def, handle_kind. change (recorded (T k i [])) with (recorded (T k i l)).
  split.
  - intros (m' & H & F). split.
    + intros R. rewrite R in H. destruct m; [reflexivity|discriminate].
    + intros x y P I R. inversion P as [|? z J P']; subst.
      * cbn in I. specialize (F y I). rewrite (IH y m' (W y I)) in F. destruct F as [F _]. specialize (F R). subst m'.
        cbn [kind_of]. destruct (recorded (T k i l)); [|discriminate]. split; [reflexivity|]. destruct m; [|discriminate]. destruct k; discriminate.
      * cbn in J. specialize (F z J). rewrite (IH z m' (W z J)) in F. destruct F as [_ F]. apply (F x y P' I R).
  - intros [R G].
    exists (if recorded (T k i l) then match k with Assignment => false | _ => true end else false). split.
    + destruct (recorded (T k i l)); [|reflexivity]. rewrite (R eq_refl). reflexivity.
    + intros x I. rewrite (IH x _ (W x I)). split.
      * intros Rx. destruct (G (T k i l) x (part_self _) I Rx) as [-> N]. cbn in N. destruct k; trivial. contradiction.
      * intros y z P J Rz. apply (G y z); trivial. apply part_in with x; [exact I|exact P].
Qed.
Definition assignments_are_leaves (t : tree) : Prop := forall x, part_of x t -> kind_of x = Assignment -> contains x = [].
(* saving the scopes of a statement of a module succeeds exactly if every statement that is recorded and is in another one is in
   one that is recorded *)
Theorem C408_saved : forall t, assignments_are_leaves t ->
  (scopes InModule t = Ok tt <-> forall x y, part_of x t -> In y (contains x) -> recorded y = true -> recorded x = true).
Proof.
  intros [k i l] AL. rewrite scopes_def, handle_kind. change (recorded (T k i [])) with (recorded (T k i l)). split.
  - intros (m & H & F) x y P I R. inversion P as [|? z J P']; subst.
    + cbn in I. specialize (F y I). rewrite (scopes_inside _ y m (le_n _)) in F. destruct F as [F _]. specialize (F R). subst m.
      destruct (recorded (T k i l)); [reflexivity|discriminate].
    + cbn in J. specialize (F z J). rewrite (scopes_inside _ z m (le_n _)) in F. destruct F as [_ F]. apply (F x y P' I R).
  - intros G. exists (recorded (T k i l)). split; [destruct (recorded (T k i l)); reflexivity|]. intros x I.
    rewrite (scopes_inside _ x _ (le_n _)). split.
    + intros R. apply (G (T k i l) x (part_self _) I R).
    + intros y z P J R. assert (Q : part_of y (T k i l)) by (apply part_in with x; [exact I|exact P]). split; [apply (G y z Q J R)|].
      intros K. rewrite (AL y Q K) in J. destruct J.
Qed.
Definition ex_comb : tree := T Comb false [T If false [T Scoped false [T Assignment false []]; T Scoped false []]].
Example C408_ex : scopes InModule ex_comb = Ok tt /\ scopes InModule (T Comb false [T If true [T Scoped false []]]) = Throw.
Proof. split; reflexivity. Qed.

(* wherever a loop, a latch, an initial or a final block, or a statement to be ignored, has a recorded statement in it, saving fails *)
Theorem C409_unrecorded_refuted :
  (forall t x y, assignments_are_leaves t -> part_of x t -> In y (contains x) -> recorded y = true ->
     (kind_of x = Loop \/ kind_of x = Latch \/ kind_of x = Inits \/ (exists k l, x = T k true l)) -> scopes InModule t = Throw) /\
  ~ (forall t, assignments_are_leaves t -> scopes InModule t = Ok tt).
Proof.
  assert (A : forall t x y, assignments_are_leaves t -> part_of x t -> In y (contains x) -> recorded y = true ->
     (kind_of x = Loop \/ kind_of x = Latch \/ kind_of x = Inits \/ (exists k l, x = T k true l)) -> scopes InModule t = Throw).
  { intros t x y AL P I R K. destruct (scopes InModule t) as [[]| |] eqn:E; [exfalso|reflexivity|exfalso; exact (scopes_no_ub _ t _ (le_n _) E)].
    rewrite (C408_saved t AL) in E. specialize (E x y P I R).
    destruct K as [K|[K|[K|(k & l & ->)]]]; [| | |discriminate]; destruct x as [k i l]; cbn in K, E; subst k; cbn in E; rewrite Bool.andb_false_r in E; discriminate. }
  split; [exact A|]. intros H.
  assert (AL : assignments_are_leaves (T Inits false [T Assignment false []])).
  { intros x P K. inversion P as [|? y I P']; subst; [discriminate|]. destruct I as [<-|[]]. inversion P' as [|? y I P'']; subst; [reflexivity|destruct I]. }
  specialize (H _ AL). discriminate.
Qed.
Example C409_ex : map (fun k => scopes InModule (T Seq false [T k false [T Assignment false []]])) [Loop; If] = [Throw; Ok tt] /\
                  map (fun k => scopes InModule (T k false [T Assignment false []])) [Latch; Inits; Comb] = [Throw; Throw; Ok tt].
Proof. split; reflexivity. Qed.

Lemma at_line_app m d n : at_line (m ++ d) n = match at_line m n with Some x => Some x | None => at_line d n end.
Proof. unfold at_line. induction m as [|[k v] m IH]; cbn; [reflexivity|]. destruct (Nat.eqb k n); [reflexivity|exact IH]. Qed.
Lemma line_has m n : existsb (fun y => Nat.eqb (fst y) n) m = match at_line m n with Some _ => true | None => false end.
Proof. unfold at_line. induction m as [|[k v] m IH]; cbn; [reflexivity|]. destruct (Nat.eqb k n); [reflexivity|exact IH]. Qed.
Definition shown (n : nat) (x : located) : bool := Nat.eqb (l_line x) n && negb (match l_source x with [] => true | _ => false end).
Lemma lines_ok n : n <> 0 -> forall nodes m,
  at_line (fold_left add_info nodes m) n = match at_line m n with Some x => Some x | None => option_map l_source (find (shown n) nodes) end.
Proof.
  intros N. induction nodes as [|x r IH]; intros m; [cbn; destruct (at_line m n); reflexivity|]. cbn [fold_left find]. rewrite IH. clear IH.
  unfold add_info, shown at 2. rewrite line_has.
  destruct (match l_source x with [] => true | _ => false end) eqn:S; cbn [negb andb]; [rewrite Bool.andb_false_r; reflexivity|].
  rewrite Bool.andb_true_r.
  destruct (Nat.eqb_spec (l_line x) n) as [E|E].
  - rewrite E. destruct (Nat.eqb_spec n 0); [contradiction|]. cbn [negb andb]. destruct (at_line m n) eqn:A; cbn [negb]; [rewrite A; reflexivity|].
    rewrite at_line_app, A. unfold at_line; cbn. rewrite Nat.eqb_refl. reflexivity.
  - destruct (Nat.eqb (l_line x) 0); cbn [negb andb]; [reflexivity|]. destruct (at_line m (l_line x)); cbn [negb]; [reflexivity|].
    rewrite at_line_app. destruct (at_line m n); [reflexivity|]. unfold at_line at 1; cbn. destruct (Nat.eqb_spec (l_line x) n); [contradiction|reflexivity].
Qed.
Lemma line_zero nodes : forall m, at_line m 0 = None -> at_line (fold_left add_info nodes m) 0 = None.
Proof.
  induction nodes as [|x r IH]; intros m H; [exact H|]. cbn. apply IH. unfold add_info.
  destruct (Nat.eqb_spec (l_line x) 0) as [E|E]; [rewrite Bool.andb_false_r; exact H|].
  destruct (_ && _ && _); [|exact H]. rewrite at_line_app, H. unfold at_line; cbn. destruct (Nat.eqb_spec (l_line x) 0); [contradiction|reflexivity].
Qed.
(* line 1 is where the generator is from, and every other line is where the first node of that line is from, of those known *)
Theorem C410_lines : forall own nodes,
  own <> [] ->
  exists m, gen_info own nodes = Some m /\ at_line m 1 = Some own /\ at_line m 0 = None /\
    (forall n, 1 < n -> at_line m n = option_map l_source (find (shown n) nodes)).
Proof.
  intros own nodes N. unfold gen_info. destruct own as [|o own]; [contradiction|]. eexists. split; [reflexivity|]. split; [|split].
  - rewrite lines_ok by lia. reflexivity.
  - apply line_zero. reflexivity.
  - intros n L. rewrite lines_ok by lia. unfold at_line at 1. cbn [find fst]. destruct (Nat.eqb_spec 1 n); [lia|reflexivity].
Qed.
Example C410_ex : gen_info [("a.py", 3)] [{| l_line := 4; l_source := [] |}; {| l_line := 4; l_source := [("a.py", 9)] |}; {| l_line := 4; l_source := [("b.py", 2)] |}] = Some [(1, [("a.py", 3)]); (4, [("a.py", 9)])].
Proof. reflexivity. Qed.
(* nothing of a generator without a source is there *)
Theorem C411_unlocated_refuted :
  (forall nodes, gen_info [] nodes = None) /\
  ~ (forall own nodes x, In x nodes -> l_source x <> [] -> l_line x > 1 -> exists m s, gen_info own nodes = Some m /\ at_line m (l_line x) = Some s).
Proof.
  split; [reflexivity|]. intros H.
  destruct (H [] [{| l_line := 2; l_source := [("a.py", 1)] |}] {| l_line := 2; l_source := [("a.py", 1)] |} (or_introl eq_refl)) as (m & s & E & _); [discriminate|cbn; lia|discriminate].
Qed.
Example C411_ex : gen_info [("a.py", 1)] [{| l_line := 2; l_source := [("a.py", 1)] |}] <> None.
Proof. discriminate. Qed.
Print Assumptions C406_ssa.
Print Assumptions C407_branches_refuted.
Print Assumptions C408_saved.
Print Assumptions C409_unrecorded_refuted.
Print Assumptions C410_lines.
Print Assumptions C411_unlocated_refuted.
