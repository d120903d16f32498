(* Theorems about clones and wires: C412 - C417. *)
From Coq Require Import List Arith ZArith Lia.
From Verif Require Import Base Cln_model.
Import ListNotations.
Local Open Scope string_scope.
Local Open Scope list_scope.
Local Open Scope nat_scope.

Lemma has_port_spec g n : has_port g n = true <-> In n (map p_name (g_ports g)).
Proof.
  unfold has_port. rewrite existsb_exists, in_map_iff. split.
  - intros (p & I & E). apply String.eqb_eq in E. exists p. split; trivial.
  - intros (p & E & I). exists p. split; [exact I|]. apply String.eqb_eq, E.
Qed.
Lemma like_name g p : p_name (port_like g p) = p_name p.
Proof. unfold port_like. destruct (p_wparam p) as [n|]; [destruct (value_of g n)|]; reflexivity. Qed.
Lemma like_params g h p : g_params g = g_params h -> port_like g p = port_like h p.
Proof. intros E. unfold port_like, value_of. rewrite E. reflexivity. Qed.
Lemma add_all_ok : forall l g, NoDup (map p_name (g_ports g) ++ map p_name l) ->
  add_all g l = Ok {| g_params := g_params g; g_ports := g_ports g ++ map (port_like g) l; g_external := g_external g |}.
Proof.
  induction l as [|p l IH]; intros g N; cbn [add_all map].
  - rewrite app_nil_r. destruct g; reflexivity.
  - unfold add_port. rewrite like_name.
    assert (H : has_port g (p_name p) = false).
    { apply Bool.not_true_iff_false. rewrite has_port_spec. intros I. cbn in N. apply NoDup_remove_2 in N. apply N, in_or_app. left; exact I. }
    rewrite H. cbn [obind]. rewrite IH; cbn [g_params g_ports g_external].
    + rewrite <- app_assoc. reflexivity.
    + rewrite map_app. cbn [map]. rewrite like_name, <- app_assoc. exact N.
Qed.
Lemma one_value l n : option_map snd (find (fun x : string * Z => String.eqb (fst x) n) (map (fun x : string * Z => (fst x, 1%Z)) l)) = option_map (fun _ => 1%Z) (find (fun x => String.eqb (fst x) n) l).
Proof. induction l as [|[m v] l IH]; [reflexivity|]. cbn. destruct (String.eqb m n); [reflexivity|exact IH]. Qed.
(* what a clone has to have in common with the original *)
Definition same_port (p q : port) : Prop :=
  p_name p = p_name q /\ p_dir p = p_dir q /\ p_size p = p_size q /\ p_type p = p_type q /\ p_signed p = p_signed q /\ p_packed p = p_packed q.
Definition parametrised (g : gen) (p : port) : bool := match p_wparam p with Some n => existsb (fun x => String.eqb (fst x) n) (g_params g) | None => false end.
Lemma clone_eq g : NoDup (map p_name (g_ports g)) -> clone g = Ok {| g_params := map (fun x => (fst x, 1%Z)) (g_params g);
  g_ports := map (port_like {| g_params := map (fun x => (fst x, 1%Z)) (g_params g); g_ports := []; g_external := false |}) (g_ports g); g_external := true |}.
Proof. intros N. unfold clone. rewrite add_all_ok by exact N. reflexivity. Qed.
Lemma like_same g p : same_port p (port_like g p).
Proof. unfold port_like. destruct (p_wparam p) as [n|]; [destruct (value_of g n)|]; repeat split. Qed.
(* a clone has the parameters and, in the same order, the ports of the original, with the same width if that is not a parameter *)
Theorem C412_clone g : NoDup (map p_name (g_ports g)) ->
  exists c, clone g = Ok c /\ g_external c = true /\ map fst (g_params c) = map fst (g_params g) /\
    Forall2 (fun p q => same_port p q /\ (parametrised g p = false -> p_width q = p_width p /\ p_wparam q = None) /\
                        (parametrised g p = true -> p_wparam q = p_wparam p)) (g_ports g) (g_ports c).
Proof.
  intros N. rewrite (clone_eq g N). eexists. split; [reflexivity|]. cbn. split; [reflexivity|]. split; [rewrite map_map; reflexivity|].
  clear N. induction (g_ports g) as [|p l IH]; cbn; constructor; [|exact IH]. split; [apply like_same|].
  unfold parametrised, port_like, value_of. cbn [g_params]. destruct (p_wparam p) as [n|] eqn:W; [|split; [split; reflexivity|discriminate]].
  rewrite one_value.
  assert (X : existsb (fun x : string * Z => String.eqb (fst x) n) (g_params g) = match find (fun x => String.eqb (fst x) n) (g_params g) with Some _ => true | None => false end).
  { clear. induction (g_params g) as [|[m v] l' J]; [reflexivity|]. cbn. destruct (String.eqb m n); [reflexivity|exact J]. }
  rewrite X. destruct (find _ (g_params g)); cbn [option_map]; cbn; split; try discriminate; auto.
Qed.
Definition ex_port (n : string) (w : Z) (o : option string) : port := {| p_name := n; p_dir := In_; p_width := w; p_size := [1%Z]; p_type := 0; p_signed := false; p_packed := true; p_explicit := true; p_wparam := o |}.
Definition ex_gen : gen := {| g_params := [("P", 8%Z)]; g_ports := [ex_port "a" 4 None; ex_port "b" 8 (Some "P")]; g_external := false |}.
Example C412_ex : NoDup (map p_name (g_ports ex_gen)) /\ match clone ex_gen with Ok c => map (fun p => (p_name p, p_width p)) (g_ports c) = [("a", 4%Z); ("b", 1%Z)] | _ => False end.
Proof. split; [repeat constructor; cbn; intuition discriminate|reflexivity]. Qed.

(* every port that is parametrised is one bit wide in the clone *)
Theorem C413_param_refuted :
  (forall g c p, NoDup (map p_name (g_ports g)) -> In p (g_ports g) -> parametrised g p = true -> clone g = Ok c ->
     exists q, In q (g_ports c) /\ p_name q = p_name p /\ p_width q = 1%Z) /\
  ~ (forall g c, NoDup (map p_name (g_ports g)) -> clone g = Ok c -> map p_width (g_ports c) = map p_width (g_ports g)).
Proof.
  split.
  - intros g c p N I P E. rewrite (clone_eq g N) in E. injection E as <-. cbn [g_ports].
    eexists. split; [apply in_map; exact I|]. split; [apply like_name|].
    unfold parametrised in P. unfold port_like, value_of. cbn [g_params]. destruct (p_wparam p) as [n|]; [|discriminate]. rewrite one_value.
    destruct (find (fun x : string * Z => String.eqb (fst x) n) (g_params g)) as [x|] eqn:F; [reflexivity|].
    apply existsb_exists in P. destruct P as (x & J & Q). assert (K := find_none _ _ F x J). congruence.
  - intros H. specialize (H ex_gen _ (proj1 C412_ex) eq_refl). discriminate.
Qed.
Example C413_ex : parametrised ex_gen (ex_port "b" 8 (Some "P")) = true.
Proof. reflexivity. Qed.

(* no port of a clone is an array of one element *)
Theorem C414_explicit_refuted :
  (forall g c q, NoDup (map p_name (g_ports g)) -> clone g = Ok c -> In q (g_ports c) -> p_explicit q = false) /\
  ~ (forall g c, NoDup (map p_name (g_ports g)) -> clone g = Ok c -> map p_explicit (g_ports c) = map p_explicit (g_ports g)).
Proof.
  split.
  - intros g c q N E I. rewrite (clone_eq g N) in E. injection E as <-. cbn [g_ports] in I. apply in_map_iff in I. destruct I as (p & <- & _).
    unfold port_like. destruct (p_wparam p) as [n|]; [destruct (value_of _ n)|]; reflexivity.
  - intros H. specialize (H ex_gen _ (proj1 C412_ex) eq_refl). discriminate.
Qed.
Example C414_ex : p_explicit (ex_port "a" 4 None) = true. Proof. reflexivity. Qed.

Lemma copy_ok : forall l g, NoDup (map p_name l) ->
  exists h, copy_missing g l = Ok h /\ g_params h = g_params g /\ g_external h = g_external g /\
    g_ports h = g_ports g ++ map (port_like g) (filter (fun p => negb (has_port g (p_name p))) l).
Proof.
  induction l as [|p l IH]; intros g N; cbn [copy_missing filter].
  - exists g. cbn. rewrite app_nil_r. repeat split.
  - inversion N as [|? ? N1 N2]; subst. destruct (has_port g (p_name p)) eqn:H; cbn [negb].
    + apply IH, N2.
    + unfold add_port. rewrite like_name, H. cbn [obind].
      destruct (IH {| g_params := g_params g; g_ports := g_ports g ++ [port_like g p]; g_external := g_external g |} N2) as (h & E & A & B & C).
      exists h. split; [exact E|]. cbn [g_ports g_params g_external] in A, B, C. split; [exact A|]. split; [exact B|]. rewrite C, <- app_assoc. cbn [app map]. do 2 f_equal.
      assert (Q : forall p', In p' l -> has_port {| g_params := g_params g; g_ports := g_ports g ++ [port_like g p]; g_external := g_external g |} (p_name p') = has_port g (p_name p')).
      { intros p' I. unfold has_port. cbn [g_ports]. rewrite existsb_app. cbn [existsb]. rewrite like_name.
        destruct (String.eqb_spec (p_name p) (p_name p')) as [X|X]; [exfalso; apply N1; rewrite X; apply in_map; exact I|]. rewrite !Bool.orb_false_r. reflexivity. }
      clear - Q. induction l as [|p' l J]; [reflexivity|]. cbn [filter]. rewrite (Q p' (or_introl eq_refl)).
      destruct (negb (has_port g (p_name p'))); cbn [map]; rewrite J; trivial; intros; apply Q; right; trivial.
Qed.
(* copying the missing ports keeps all ports there are, and afterwards every port of the other generator has a counterpart *)
Theorem C415_missing g ref : NoDup (map p_name (g_ports ref)) ->
  exists h, copy_missing g (g_ports ref) = Ok h /\
    (exists new, g_ports h = g_ports g ++ new /\ forall q, In q new -> has_port g (p_name q) = false /\ exists p, In p (g_ports ref) /\ same_port p q) /\
    (forall p, In p (g_ports ref) -> has_port h (p_name p) = true) /\
    (forall p, In p (g_ports ref) -> has_port g (p_name p) = false -> exists q, In q (g_ports h) /\ same_port p q /\
       p_width q = match p_wparam p with Some n => match value_of g n with Some v => v | None => p_width p end | None => p_width p end).
Proof.
  intros N. destruct (copy_ok _ g N) as (h & E & _ & _ & P). exists h. split; [exact E|]. split; [|split].
  - eexists. split; [exact P|]. intros q I. apply in_map_iff in I. destruct I as (p & <- & I). apply filter_In in I. destruct I as [I X].
    rewrite like_name. split; [destruct (has_port g (p_name p)); [discriminate|reflexivity]|]. exists p. split; [exact I|apply like_same].
  - intros p I. apply has_port_spec. rewrite P, map_app. apply in_or_app. destruct (has_port g (p_name p)) eqn:H; [left; apply has_port_spec, H|].
    right. rewrite map_map. apply in_map_iff. exists p. split; [apply like_name|]. apply filter_In. rewrite H. split; trivial.
  - intros p I H. exists (port_like g p). split; [|split; [apply like_same|]].
    + rewrite P. apply in_or_app. right. apply in_map, filter_In. rewrite H. split; trivial.
    + unfold port_like. destruct (p_wparam p) as [n|]; [destruct (value_of g n)|]; reflexivity.
Qed.
Example C415_ex : match copy_missing {| g_params := []; g_ports := [ex_port "a" 9 None]; g_external := true |} (g_ports ex_gen) with Ok h => map (fun p => (p_name p, p_width p)) (g_ports h) = [("a", 9%Z); ("b", 8%Z)] | _ => False end.
Proof. reflexivity. Qed.

Lemma between_sym a b s : between a b s = between b a s.
Proof. destruct s as [x y| |]; cbn; trivial. destruct (Nat.eqb x a), (Nat.eqb y b), (Nat.eqb y a), (Nat.eqb x b); reflexivity. Qed.
(* unwiring takes away the first assignment between the two, whichever way round, and nothing else *)
Theorem C416_unwire : forall l a b,
  unwire l a b = unwire l b a /\
  ((forall s, In s l -> between a b s = false) -> unwire l a b = l /\ unwire (wire l a b) a b = l /\ unwire (wire l b a) a b = l) /\
  (forall l1 s l2, l = l1 ++ s :: l2 -> (forall x, In x l1 -> between a b x = false) -> (s = Assigns a b \/ s = Assigns b a) -> unwire l a b = l1 ++ l2).
Proof.
  intros l a b.
  assert (K : forall s, (s = Assigns a b \/ s = Assigns b a) -> between a b s = true).
  { intros s [->| ->]; cbn; rewrite !Nat.eqb_refl; [reflexivity|]. cbn. apply Bool.orb_true_r. }
  assert (G : forall l1 s l2, (forall x, In x l1 -> between a b x = false) -> (s = Assigns a b \/ s = Assigns b a) -> unwire (l1 ++ s :: l2) a b = l1 ++ l2).
  { intros l1 s l2 F S. induction l1 as [|x l1 IH]; cbn [unwire app]; [rewrite (K s S); reflexivity|].
    rewrite (F x (or_introl eq_refl)), IH; [reflexivity|]. intros y I. apply F. right; exact I. }
  split; [|split].
  - induction l as [|s l IH]; [reflexivity|]. cbn. rewrite (between_sym a b), IH. reflexivity.
  - intros F. split; [|split].
    + induction l as [|s l IH]; [reflexivity|]. cbn. rewrite (F s (or_introl eq_refl)), IH; [reflexivity|]. intros y I. apply F. right; exact I.
    + unfold wire. rewrite G; [apply app_nil_r|exact F|left; reflexivity].
    + unfold wire. rewrite G; [apply app_nil_r|exact F|right; reflexivity].
  - intros l1 s l2 -> F S. apply G; trivial.
Qed.
Example C416_ex : unwire [Others 1; Assigns 3 2; Assigns 2 4] 2 3 = [Others 1; Assigns 2 4].
Proof. reflexivity. Qed.
(* two variables that are wired twice, or in a block, stay connected *)
Theorem C417_all_refuted :
  (forall l a b, In (Assigns a b) (unwire (wire (wire l a b) a b) a b)) /\
  ~ (forall l a b s, In s (unwire l a b) -> between a b s = false).
Proof.
  assert (A : forall l a b, In (Assigns a b) (unwire (wire (wire l a b) a b) a b)).
  { intros l a b. unfold wire. rewrite <- app_assoc. cbn [app].
    induction l as [|s l IH]; cbn [app unwire].
    - assert (E : between a b (Assigns a b) = true) by (cbn; rewrite !Nat.eqb_refl; reflexivity). rewrite E. left; reflexivity.
    - destruct (between a b s); [apply in_or_app; right; left; reflexivity|right; exact IH]. }
  split; [exact A|]. intros H. specialize (H _ _ _ _ (A [] 1 2)). discriminate.
Qed.
Example C417_ex : unwire [Assigns 1 2; Assigns 1 2] 1 2 = [Assigns 1 2]. Proof. reflexivity. Qed.
Print Assumptions C412_clone.
Print Assumptions C413_param_refuted.
Print Assumptions C414_explicit_refuted.
Print Assumptions C415_missing.
Print Assumptions C416_unwire.
Print Assumptions C417_all_refuted.
