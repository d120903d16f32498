(* Theorems about the debug information: C396 - C404. *)
From Coq Require Import List Arith.
From Verif Require Import Base Dbg_spec Dbg_model.
Import ListNotations.
Local Open Scope string_scope.
Local Open Scope list_scope.
Local Open Scope nat_scope.

Lemma value_of_app c d n : value_of (c ++ d) n = first (value_of c n) (value_of d n).
Proof. unfold value_of; induction c as [|[m v] c IH]; cbn; [destruct (find _ d); reflexivity|]. destruct (String.eqb m n); [reflexivity|exact IH]. Qed.
Lemma has_value c n : existsb (fun x => String.eqb (fst x) n) c = match value_of c n with Some _ => true | None => false end.
Proof. unfold value_of; induction c as [|[m v] c IH]; cbn; [reflexivity|]. destruct (String.eqb m n); [reflexivity|exact IH]. Qed.
Lemma add_var_value o c n v m : value_of (add_var o c n v) m = first (value_of c m) (value_of [(n, v)] m).
Proof.
  unfold add_var. rewrite !has_value.
  destruct (value_of c n) eqn:E; cbn [negb orb].
  - assert (H : value_of c m = first (value_of c m) (value_of [(n, v)] m)).
    { unfold value_of at 3; cbn. destruct (String.eqb_spec n m) as [->|N]; [rewrite E; reflexivity|destruct (value_of c m); reflexivity]. }
    rewrite Bool.orb_false_r. destruct o; exact H.
  - rewrite Bool.orb_true_r, value_of_app; reflexivity.
Qed.
Lemma first_assoc a b c : first (first a b) c = first a (first b c).
Proof. destruct a; reflexivity. Qed.
Lemma first_none a : first a None = a. Proof. destruct a; reflexivity. Qed.

(* what is seen in a tree that a variable has been added to *)
Lemma add_seen o n v m p : forall e t,
  outer_value e (add_scope_variable o n v t) p m = outer_value (first (value_of [(n, v)] m) e) t p m.
Proof.
  induction p as [|i p IH]; intros e [k c l]; cbn [add_scope_variable outer_value].
  - rewrite add_var_value, first_assoc; reflexivity.
  - destruct k; rewrite ?nth_error_map; destruct (nth_error l i) as [x|]; cbn [option_map]; trivial; rewrite ?IH, ?add_var_value; try reflexivity.
    all: f_equal; destruct (value_of [(n, v)] m) eqn:E; [reflexivity|]; rewrite first_none; reflexivity.
Qed.
Lemma handed_seen m p d : forall e t, outer_value e (hand_down d t) p m = outer_value (first (value_of d m) e) t p m.
Proof.
  induction d as [|[n v] d IH]; intros e t; cbn [hand_down fold_left fst snd]; [reflexivity|].
  unfold hand_down in IH. rewrite IH, add_seen. change ((n, v) :: d) with ([(n, v)] ++ d). rewrite value_of_app, first_assoc; reflexivity.
Qed.
Lemma max_le f l k : fold_right (fun x m => Nat.max (f x) m) 0 l <= k -> forall x : stmt, In x l -> f x <= k.
Proof. induction l as [|y l IH]; cbn; [easy|]. intros H x [->|I]; [lia|apply IH; [lia|exact I]]. Qed.
Lemma add_depth o n v : forall h t, depth t <= h -> depth (add_scope_variable o n v t) <= h.
Proof.
  induction h as [|h IH]; intros [k c l]; cbn [depth add_scope_variable]; [lia|]. intros H.
  assert (W : forall x, In x l -> depth x <= h) by (apply max_le; lia).
  assert (E : forall l', (forall x, In x l' -> depth x <= h) -> S (fold_right (fun x m => Nat.max (depth x) m) 0 l') <= S h).
  { intros l' I. apply le_n_S. induction l' as [|y l' J]; cbn; [lia|]. assert (depth y <= h) by (apply I; left; reflexivity).
    assert (fold_right (fun x m => Nat.max (depth x) m) 0 l' <= h) by (apply J; intros; apply I; right; trivial). lia. }
  destruct k; cbn [depth]; apply E; try exact W; intros x I; apply in_map_iff in I; destruct I as (y & <- & I); apply IH, W, I.
Qed.
Lemma handed_depth h d : forall t, depth t <= h -> depth (hand_down d t) <= h.
Proof. induction d as [|[n v] d IH]; intros t H; [exact H|]. cbn. apply IH, add_depth, H. Qed.
Lemma propagate_scope f t : scope (propagate f t) = scope t.
Proof. destruct f, t; reflexivity. Qed.

Lemma propagate_ok : forall f t p s n, depth t <= f -> at_path (propagate f t) p = Some s -> value_of (scope s) n = outer_value None t p n.
Proof.
  induction f as [|f IH]; intros [k c l] p s n D A; [cbn in D; lia|].
  destruct p as [|i p].
  - cbn in A. injection A as <-. cbn. rewrite first_none; reflexivity.
  - cbn [propagate at_path] in A. rewrite nth_error_map in A. cbn [outer_value].
    assert (W : forall x, In x l -> depth x <= f) by (apply max_le; cbn in D; lia).
    assert (G : forall x, nth_error l i = Some x -> depth x <= f) by (intros x Q; apply W; eapply nth_error_In; exact Q).
    destruct k; rewrite ?nth_error_map in A; destruct (nth_error l i) as [x|]; cbn [option_map] in A; try discriminate; specialize (G x eq_refl).
    + rewrite (IH _ _ _ n (handed_depth _ c _ G) A), handed_seen, first_none; reflexivity.
    + rewrite (IH _ _ _ n (handed_depth _ c _ G) A), handed_seen, first_none; reflexivity.
    + apply (IH _ _ _ n G A).
    + apply (IH _ _ _ n G A).
    + apply (IH _ _ _ n G A).
Qed.
Lemma skeleton_add o n v : forall p t, (exists s, at_path (add_scope_variable o n v t) p = Some s) <-> (exists s, at_path t p = Some s).
Proof.
  induction p as [|i p IH]; intros [k c l]; cbn [add_scope_variable at_path]; [split; intros _; eexists; reflexivity|].
  destruct k; rewrite ?nth_error_map; destruct (nth_error l i); cbn [option_map]; trivial; try apply IH; try reflexivity.
Qed.
Lemma skeleton_hand d p : forall t, (exists s, at_path (hand_down d t) p = Some s) <-> (exists s, at_path t p = Some s).
Proof. induction d as [|[n v] d IH]; intros t; cbn; [reflexivity|]. unfold hand_down in IH. rewrite IH. apply skeleton_add. Qed.
Lemma skeleton f : forall p t, (exists s, at_path (propagate f t) p = Some s) <-> (exists s, at_path t p = Some s).
Proof.
  induction f as [|f IH]; intros p [k c l]; [reflexivity|].
  destruct p as [|i p]; cbn [propagate at_path]; [split; intros _; eexists; reflexivity|].
  rewrite nth_error_map.
  destruct k; rewrite ?nth_error_map; destruct (nth_error l i); cbn [option_map]; trivial; rewrite ?IH; try reflexivity; apply skeleton_hand.
Qed.

(* no statement is lost, and every statement has, for every name, its own value, or else the one of the outermost if or switch
   around it that is not cut off by a loop; nothing else is added *)
Theorem C396_scope : forall t p s n,
  at_path t p = Some s ->
  exists s', at_path (propagate (depth t) t) p = Some s' /\ value_of (scope s') n = outer_value None t p n /\
             (forall v, value_of (scope s) n = Some v -> value_of (scope s') n = Some v).
Proof.
  intros t p s n A. destruct (proj2 (skeleton (depth t) p t) (ex_intro _ s A)) as [s' A'].
  exists s'. split; [exact A'|]. assert (V := propagate_ok _ _ _ _ n (le_n _) A'). split; [exact V|].
  intros v E. rewrite V. clear V A'. revert A. generalize (@None string) at 1. revert t. induction p as [|i p IH]; intros [k c l] e A; cbn in A |- *.
  - injection A as <-. cbn in E. rewrite E. reflexivity.
  - destruct (nth_error l i); [|discriminate]. apply IH, A.
Qed.
Definition ex_if : stmt :=
  Node KIf [("i", "1")] [Node KBlock [] [Node KOther [] []; Node KIf [("i", "2"); ("j", "5")] [Node KBlock [] [Node KOther [] []]; Node KBlock [] []]]; Node KBlock [] []].
Example C396_ex : map (fun p => option_map (fun s => (value_of (scope s) "i", value_of (scope s) "j")) (at_path (propagate (depth ex_if) ex_if) p)) [[0; 0]; [0; 1]; [0; 1; 0; 0]]
  = [Some (Some "1", None); Some (Some "2", Some "5"); Some (Some "1", Some "5")]%nat.
Proof. reflexivity. Qed.

(* a statement inside two ifs that define one name is given the value of the outer one *)
Theorem C397_innermost_refuted :
  ~ (forall t p s n, at_path (propagate (depth t) t) p = Some s -> value_of (scope s) n = inner_value None t p n).
Proof. intros H. specialize (H ex_if [0; 1; 0; 0] _ "i" eq_refl). vm_compute in H. discriminate. Qed.
Example C397_ex : inner_value None ex_if [0; 1; 0; 0] "i" = Some "2".
Proof. reflexivity. Qed.

(* no statement in a loop is given anything from the ifs around the loop, whatever they define *)
Theorem C398_loop_refuted :
  (forall c d b, exists s, at_path (propagate (depth (Node KIf c [Node KBlock [] [Node KLoop d [Node KBlock [] [Node KOther [] b]]]]))
                                   (Node KIf c [Node KBlock [] [Node KLoop d [Node KBlock [] [Node KOther [] b]]]])) [0; 0; 0; 0] = Some s /\
                            forall n, value_of (scope s) n = None) /\
  ~ (forall t p s n v, at_path (propagate (depth t) t) p = Some s -> inner_value None t p n = Some v -> exists w, value_of (scope s) n = Some w).
Proof.
  assert (A : forall c d b, exists s, at_path (propagate (depth (Node KIf c [Node KBlock [] [Node KLoop d [Node KBlock [] [Node KOther [] b]]]]))
                                   (Node KIf c [Node KBlock [] [Node KLoop d [Node KBlock [] [Node KOther [] b]]]])) [0; 0; 0; 0] = Some s /\
                            forall n, value_of (scope s) n = None).
  { intros c d b.
    set (t := Node KIf c [Node KBlock [] [Node KLoop d [Node KBlock [] [Node KOther [] b]]]]).
    destruct (C396_scope t [0; 0; 0; 0] _ "" eq_refl) as (s' & P & _). exists s'. split; [exact P|].
    intros n. rewrite (propagate_ok _ _ _ _ n (le_n _) P). reflexivity. }
  split; [exact A|]. intros H.
  destruct (A [("i", "1")] [] []) as (s & P & Q).
  destruct (H _ _ _ "i" "1" P eq_refl) as [w W]. rewrite Q in W. discriminate.
Qed.
Example C398_ex : inner_value None (Node KIf [("i", "1")] [Node KBlock [] [Node KLoop [] [Node KBlock [] [Node KOther [] []]]]]) [0; 0; 0; 0] "i" = Some "1".
Proof. reflexivity. Qed.

(* asking for an existing value to be replaced changes nothing, in the statement and in all it contains *)
Theorem C399_override_refuted :
  (forall n v t, add_scope_variable true n v t = add_scope_variable false n v t) /\
  ~ (forall n v t, value_of (scope (add_scope_variable true n v t)) n = Some v).
Proof.
  split.
  - intros n v. assert (H : forall h t, depth t <= h -> add_scope_variable true n v t = add_scope_variable false n v t).
    { induction h as [|h IH]; intros [k c l] D; [cbn in D; lia|]. cbn [add_scope_variable].
      assert (W : forall x, In x l -> depth x <= h) by (apply max_le; cbn in D; lia).
      f_equal; [unfold add_var; destruct (existsb _ c); reflexivity|].
      destruct k; trivial; apply map_ext_in; intros x I; apply IH, W, I. }
    intros t. apply (H (depth t) t (le_n _)).
  - intros H. specialize (H "i" "2" (Node KOther [("i", "1")] [])). vm_compute in H. discriminate.
Qed.
Example C399_ex : value_of (scope (add_scope_variable true "i" "2" (Node KOther [("j", "1")] []))) "i" = Some "2".
Proof. reflexivity. Qed.

Fixpoint size (e : rexp) : nat := match e with RSlice e => S (size e) | ROp l => S ((fix go (l : list rexp) := match l with [] => 0 | x :: r => size x + go r end) l) | _ => 1 end.
Lemma component_op x l : In x (components (ROp l)) <-> exists e, In e l /\ In x (components e).
Proof.
  cbn. induction l as [|e l IH]; [split; [intros []|intros (e & [] & _)]|]. rewrite in_app_iff, IH. split.
  - intros [I|(f & I & J)]; [exists e; split; [left; reflexivity|exact I]|exists f; split; [right; exact I|exact J]].
  - intros (f & [->|I] & J); [left; exact J|right; exists f; split; trivial].
Qed.
Lemma in_size e l : In e l -> size e < size (ROp l).
Proof. cbn. induction l as [|f l IH]; [intros []|]. intros [->|I]; [lia|]. specialize (IH I). lia. Qed.
Lemma component_uses x : forall h e, size e <= h -> In x (components e) -> uses x e.
Proof.
  induction h as [|h IH]; intros e D I; [destruct e; cbn in D; lia|].
  destruct e as [y|y| |e|l]; try (destruct I; fail).
  - destruct I as [->|[]]. constructor.
  - apply component_op in I. destruct I as (e & I & J). apply uses_op with e; [exact I|]. apply IH; [|exact J]. apply in_size in I. lia.
Qed.
(* all that is listed as a driver of a variable is used in an assignment to it; and an operand that is a variable is listed *)
Theorem C400_drivers : forall rights x,
  (In x (drivers rights) -> exists e, In e rights /\ uses x e) /\
  (forall e, In e rights -> (e = RBase x \/ exists l, e = ROp l /\ In (RBase x) l) -> In x (drivers rights)).
Proof.
  intros rights x. unfold drivers. split.
  - intros I. apply in_flat_map in I. destruct I as (e & I & J). exists e. split; [exact I|]. exact (component_uses x _ _ (le_n _) J).
  - intros e I H. apply in_flat_map. exists e. split; [exact I|]. destruct H as [->|(l & -> & J)]; [left; reflexivity|].
    apply component_op. exists (RBase x). split; [exact J|left; reflexivity].
Qed.
Example C400_ex : drivers [ROp [RBase 3; RConst]; RBase 4] = [3; 4].
Proof. reflexivity. Qed.

Fixpoint only_ports_and_slices (e : rexp) : Prop :=
  match e with RBase _ => False | RPort _ | RConst | RSlice _ => True | ROp l => (fix go (l : list rexp) := match l with [] => True | x :: r => only_ports_and_slices x /\ go r end) l end.
Lemma none_listed : forall h e, size e <= h -> only_ports_and_slices e -> components e = [].
Proof.
  induction h as [|h IH]; intros e D P; [destruct e; cbn in D; lia|].
  destruct e as [y|y| |e|l]; try reflexivity; [destruct P|].
  cbn in P, D |- *. revert D P. induction l as [|e l J]; [reflexivity|]. intros D [P Q]. rewrite (IH e), J; trivial; lia.
Qed.
(* nothing that comes from ports, or from parts of variables, is listed *)
Theorem C401_ports_refuted :
  (forall rights, Forall only_ports_and_slices rights -> drivers rights = []) /\
  ~ (forall rights x e, In e rights -> uses x e -> In x (drivers rights)).
Proof.
  split.
  - intros rights F. induction F as [|e l P F IH]; [reflexivity|]. cbn. unfold drivers in IH. rewrite IH, (none_listed _ _ (le_n _) P). reflexivity.
  - intros H. exact (H [RPort 1] 1 (RPort 1) (or_introl eq_refl) (uses_port 1)).
Qed.
Example C401_ex : only_ports_and_slices (ROp [RPort 1; RSlice (RBase 2)]) /\ uses 2 (ROp [RPort 1; RSlice (RBase 2)]).
Proof. split; [cbn; auto|]. apply uses_op with (RSlice (RBase 2)); [cbn; auto|]. constructor. constructor. Qed.

Lemma last_colon_none v : ~ In colon v -> last_colon v = None.
Proof.
  induction v as [|c v IH]; [reflexivity|]. intros N. cbn. rewrite IH by (intros I; apply N; right; exact I).
  destruct (Ascii.eqb_spec c colon) as [E|E]; [exfalso; apply N; left; exact E|reflexivity].
Qed.
Lemma last_colon_at a v : ~ In colon v -> last_colon (a ++ colon :: v) = Some (a, v).
Proof.
  intros N. induction a as [|c a IH]; cbn [app last_colon].
  - rewrite last_colon_none by exact N. reflexivity.
  - rewrite IH. reflexivity.
Qed.
Lemma rfind_tag t : rfind_zero tag (tag ++ t) = negb (occurs tag t).
Proof. unfold rfind_zero. cbn. reflexivity. Qed.
(* what a tool wrote as ssa=scope:variable is read back, if the variable has no colon in its name and the mark occurs once *)
Theorem C402_target : forall scope var,
  ~ In colon var -> occurs tag (scope ++ colon :: var) = false ->
  target (tag ++ scope ++ colon :: var) = Some (scope, var).
Proof.
  intros s v N O. unfold target. rewrite rfind_tag, O. cbn [negb].
  rewrite app_assoc, last_colon_at by exact N. reflexivity.
Qed.
Example C402_ex : target (list_ascii_of_string "ssa=top.add:a") = Some (list_ascii_of_string "top.add", list_ascii_of_string "a").
Proof. reflexivity. Qed.
(* without a colon the variable is taken to be the attribute itself *)
Theorem C403_no_colon_refuted :
  (forall t, ~ In colon t -> occurs tag t = false -> target (tag ++ t) = Some (t, tag ++ t)) /\
  ~ (forall t s v, target (tag ++ t) = Some (s, v) -> starts tag v = false).
Proof.
  assert (A : forall t, ~ In colon t -> occurs tag t = false -> target (tag ++ t) = Some (t, tag ++ t)).
  { intros t N O. unfold target. rewrite rfind_tag, O. cbn [negb].
    rewrite last_colon_none; [reflexivity|]. intros I. apply in_app_iff in I. destruct I as [I|I]; [|contradiction].
    repeat (destruct I as [I|I]; [discriminate|]). destruct I. }
  split; [exact A|]. intros H. specialize (H [] [] tag (A [] (fun x => x) eq_refl)). discriminate.
Qed.
Example C403_ex : target (list_ascii_of_string "ssa=a") = Some (list_ascii_of_string "a", list_ascii_of_string "ssa=a").
Proof. reflexivity. Qed.

Lemma upd_same {A} (f : nat -> A) x v : upd f x v x = v.
Proof. unfold upd. rewrite Nat.eqb_refl. reflexivity. Qed.
Lemma upd_other {A} (f : nat -> A) x v y : y <> x -> upd f x v y = f y.
Proof. intros N. unfold upd. destruct (Nat.eqb_spec y x); [contradiction|reflexivity]. Qed.
Lemma loop_ok : forall up w pre,
  pre < w_count w -> w_parent w pre = None -> NoDup up -> (forall n, In n up -> w_named w n = []) ->
  exists w', mock_loop w pre up = Ok w' /\ path_to w' pre (rev up ++ [w_inst w pre]) /\
    (forall x, x < w_count w -> w_inst w' x = w_inst w x) /\ (forall x, x < w_count w -> x <> pre -> w_parent w' x = w_parent w x).
Proof.
  induction up as [|n up IH]; intros w pre L P D F; cbn [mock_loop].
  - exists w. split; [reflexivity|]. split; [exact (path_root w pre P)|]. split; trivial.
  - inversion D as [|? ? D1 D2]; subst. unfold mock_step. rewrite (F n (or_introl eq_refl)).
    assert (K : w_kids (new_gen w n) (w_count w) = []) by (cbn; apply upd_same).
    unfold add_child. rewrite K. cbn [existsb obind fst snd].
    match goal with |- context [mock_loop ?v (w_count w) up] => set (w2 := v) end.
    assert (C2 : w_count w2 = S (w_count w)) by reflexivity.
    assert (I2 : forall x, x < w_count w -> w_inst w2 x = w_inst w x).
    { intros x X. unfold w2; cbn. unfold upd at 1. destruct (Nat.eqb_spec x pre) as [E|E].
      - rewrite E. apply upd_other. lia.
      - apply upd_other. lia. }
    assert (I3 : w_inst w2 (w_count w) = n).
    { unfold w2; cbn. rewrite upd_other by lia. apply upd_same. }
    assert (P2 : w_parent w2 pre = Some (w_count w)) by (unfold w2; cbn; apply upd_same).
    assert (P3 : forall x, x < w_count w -> x <> pre -> w_parent w2 x = w_parent w x).
    { intros x X N. unfold w2; cbn. rewrite !upd_other by lia. reflexivity. }
    assert (P4 : w_parent w2 (w_count w) = None) by (unfold w2; cbn; rewrite upd_other by lia; apply upd_same).
    assert (N2 : forall m, In m up -> w_named w2 m = []).
    { intros m I. unfold w2; cbn. destruct (String.eqb_spec m n) as [E|E]; [rewrite E in I; contradiction|]. apply F. right; exact I. }
    destruct (IH w2 (w_count w)) as (w' & E & Q & A & B); trivial; [rewrite C2; lia|].
    exists w'. split; [exact E|]. split.
    + cbn [rev]. rewrite <- (I2 pre L), <- (A pre) by (rewrite C2; lia). rewrite I3 in Q.
      apply path_step with (w_count w); [|exact Q]. rewrite B by (rewrite ?C2; lia). exact P2.
    + split.
      * intros x X. rewrite A by (rewrite C2; lia). apply I2, X.
      * intros x X N. rewrite B by (rewrite ?C2; lia). apply P3; trivial.
Qed.
(* the generator ends up below the names that its instance name has, the first one replaced, if these names are new and different *)
Theorem C404_hierarchy : forall w top first mid last top_name,
  top < w_count w -> w_parent w top = None ->
  let head := if String.eqb top_name "" then first else top_name in
  NoDup (head :: mid) -> (forall n, In n (head :: mid) -> w_named w n = []) ->
  exists w', mock w top (first :: mid ++ [last]) top_name = Ok w' /\ path_to w' top (head :: mid ++ [last]) /\
    (forall x, x < w_count w -> x <> top -> w_inst w' x = w_inst w x /\ w_parent w' x = w_parent w x).
Proof.
  intros w top f mid la tn L P head D F. unfold mock.
  replace (rev (f :: mid ++ [la])) with (la :: rev (f :: mid)) by (cbn [rev]; rewrite rev_app_distr; reflexivity).
  cbn [rev]. destruct (rev mid ++ [f]) as [|u0 u] eqn:E; [destruct (rev mid); discriminate|]. rewrite <- E.
  replace (if String.eqb tn "" then rev mid ++ [f] else removelast (rev mid ++ [f]) ++ [tn]) with (rev (head :: mid)).
  2:{ unfold head. cbn [rev]. destruct (String.eqb tn ""); [reflexivity|]. rewrite removelast_last. reflexivity. }
  match goal with |- context [mock_loop ?v top _] => set (w0 := v) end.
  destruct (loop_ok (rev (head :: mid)) w0 top) as (w' & A & Q & I & R); trivial.
  - apply NoDup_rev, D.
  - intros n J. apply F. apply in_rev. exact J.
  - exists w'. split; [exact A|]. split.
    + rewrite rev_involutive in Q. replace (w_inst w0 top) with la in Q by (unfold w0; cbn; rewrite upd_same; reflexivity). exact Q.
    + intros x X N. split; [rewrite I by exact X; unfold w0; cbn; apply upd_other, N|apply R; trivial].
Qed.
Definition ex_world : world := {| w_count := 1; w_inst := fun _ => "mod"; w_parent := fun _ => None; w_kids := fun _ => []; w_named := fun n => if String.eqb n "mod" then [0] else [] |}.
Example C404_ex : match mock ex_world 0 ["mod1"; "mod2"; "mod3"] "dut" with Ok w => (w_inst w 0, w_parent w 0, w_inst w 1, w_parent w 1, w_inst w 2, w_parent w 2) | _ => ("", None, "", None, "", None) end
  = ("mod3", Some 1, "mod2", Some 2, "dut", None).
Proof. reflexivity. Qed.

Lemma no_path w g : w_parent w g = Some g -> forall l x, path_to w x l -> x = g -> False.
Proof. intros E l x H. induction H as [y H|y p l H K IH]; intros ->; [congruence|]. apply IH. congruence. Qed.
(* a name that is used twice makes the generator of that name its own parent *)
Theorem C405_repeated_refuted :
  (forall w top n last, top < w_count w -> w_named w n = [] -> last <> n ->
     exists w', mock w top [n; n; last] "" = Ok w' /\ w_parent w' (w_count w) = Some (w_count w) /\ forall l, ~ path_to w' (w_count w) l) /\
  ~ (forall w top names, top < w_count w -> w_parent w top = None -> names <> [] ->
     exists w', mock w top names "" = Ok w' /\ exists l, path_to w' top l).
Proof.
  assert (A : forall w top n last, top < w_count w -> w_named w n = [] -> last <> n ->
     exists w', mock w top [n; n; last] "" = Ok w' /\ w_parent w' (w_count w) = Some (w_count w) /\ w_parent w' top = Some (w_count w)).
  { intros w top n last L F N. assert (NE : Nat.eqb (w_count w) top = false) by (apply Nat.eqb_neq; lia).
    assert (NE' : Nat.eqb top (w_count w) = false) by (apply Nat.eqb_neq; lia).
    assert (NN : String.eqb n last = false) by (apply String.eqb_neq; intros E; apply N; symmetry; exact E).
    unfold mock. cbn [rev app]. change (String.eqb "" "") with true. cbv iota.
    match goal with |- context [mock_loop ?v top _] => set (w0 := v) end. cbn [mock_loop].
    assert (F0 : w_named w0 n = []) by exact F.
    unfold mock_step at 1. rewrite F0. cbv iota beta. unfold add_child at 1.
    replace (w_kids (new_gen w0 n) (w_count w0)) with (@nil string) by (cbn; rewrite upd_same; reflexivity). cbn [existsb].
    match goal with |- context [Ok ?v] => set (w2 := v) end. cbn [obind fst snd].
    assert (F2 : w_named w2 n = [w_count w]) by (unfold w2; cbn; rewrite String.eqb_refl, F; reflexivity).
    assert (I2 : w_inst w2 (w_count w) = n) by (unfold w2; cbn; unfold upd; rewrite NE, Nat.eqb_refl; reflexivity).
    assert (K2 : w_kids w2 (w_count w) = [last]).
    { unfold w2; cbn. unfold upd. rewrite Nat.eqb_refl, NE', Nat.eqb_refl. reflexivity. }
    assert (P2 : w_parent w2 top = Some (w_count w)) by (unfold w2; cbn; apply upd_same).
    change (w_count w0) with (w_count w).
    unfold mock_step. rewrite F2. unfold add_child. rewrite I2, K2. cbn [existsb]. rewrite NN. cbn [orb obind fst snd].
    eexists. split; [reflexivity|]. cbn [w_parent]. split; [apply upd_same|]. rewrite upd_other by lia. exact P2. }
  split.
  - intros w top n last L F N. destruct (A w top n last L F N) as (w' & E & P & _). exists w'. split; [exact E|]. split; [exact P|].
    intros l H. exact (no_path w' _ P l _ H eq_refl).
  - intros H. destruct (A ex_world 0 "a" "b") as (w' & E & P & Q); [cbn; lia|reflexivity|discriminate|].
    destruct (H ex_world 0 ["a"; "a"; "b"]) as (v & E' & l & K); [cbn; lia|reflexivity|discriminate|].
    rewrite E in E'. injection E' as <-. inversion K as [? R|? p l' R S]; subst; [congruence|].
    assert (p = w_count ex_world) by congruence. exact (no_path w' _ P l' p S H0).
Qed.
Example C405_ex : match mock ex_world 0 ["a"; "a"; "b"] "" with Ok w => (w_parent w 0, w_parent w 1) | _ => (None, None) end = (Some 1, Some 1).
Proof. reflexivity. Qed.
Print Assumptions C396_scope.
Print Assumptions C397_innermost_refuted.
Print Assumptions C398_loop_refuted.
Print Assumptions C399_override_refuted.
Print Assumptions C400_drivers.
Print Assumptions C401_ports_refuted.
Print Assumptions C402_target.
Print Assumptions C403_no_colon_refuted.
Print Assumptions C404_hierarchy.
Print Assumptions C405_repeated_refuted.
