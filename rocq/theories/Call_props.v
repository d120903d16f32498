(* C235-C249: functions, system functions and DPI functions, and their calls. *)
From Coq Require Import Permutation Sorted.
From Verif Require Import Base Num_model Decl_spec Decl_model Decl_proofs Call_spec Call_model Call_proofs.
Local Open Scope Z_scope.
Local Open Scope list_scope.

(* a function some accepted history of calls of the interface has made *)
Definition built (dpi : bool) (n : string) (f : func) : Prop :=
  exists l, Forall (fop_ok dpi) l /\ fsteps (new_func dpi n) l = Ok f.
Definition texts_of (args : list (string * actual)) : list string := map (fun e => ac_text (snd e)) args.

(* C235: a function, its declaration and a call that passes an argument for each formal *)
Theorem C235_arguments : forall n f fs args r v, built false n f -> formals f = Ok fs -> NoDup (map snd (fn_order f)) ->
  NoDup (map fst args) -> (forall m, In m (map fst args) -> In m (map fst (fn_ports f))) ->
  fn_order f = [] \/ NoDup (texts_of args) ->
  call f args r = Ok v ->
  Permutation fs (map fst (fn_ports f)) /\ exists ts, arg_texts f args = Ok ts /\ passes fs (fun m => find m args) ts.
Proof.
  intros n f fs args r v (l & Ol & Hl) Hf K Na Sub T C. pose proof (built_inv _ _ _ _ Ol Hl) as I. pose proof I as (N & M & J & _).
  assert (Sup : forall m, In m (map fst (fn_ports f)) -> In m (map fst args)).
  { intros m Hm. unfold call in C. destruct (forallb _ _) eqn:E; [|discriminate]. rewrite forallb_forall in E.
    apply in_map_iff in Hm as ((k, p) & <- & Hp). specialize (E (k, p)). unfold arg_ok in E. cbn in E.
    destruct (find k args) eqn:F; [apply find_in in F; apply in_map_iff; exists (k, a); auto|].
    discriminate E. eapply Permutation_in; [apply in_order_perm|exact Hp]. }
  assert (D : fs = declared_order f /\ (fn_order f <> [] -> incl (map fst (fn_ports f)) (map fst (fn_order f)))).
  { unfold formals in Hf. unfold declared_order. destruct (fn_order f) as [|e o] eqn:Eo; [injection Hf as <-; split; [reflexivity|congruence]|].
    destruct (negb _) eqn:X; [discriminate|]. destruct (_ && _); [discriminate|]. injection Hf as <-. split; [reflexivity|]. intros _.
    apply negb_false_iff, Nat.eqb_eq in X. apply (NoDup_length_incl M); [rewrite !map_length; lia|exact J]. }
  destruct D as (-> & Cov). split.
  - unfold declared_order. destruct (fn_order f) as [|e o]; [symmetry; apply Permutation_map, in_order_perm|].
    symmetry. etransitivity; [apply Permutation_map, in_order_perm|apply sort_by_perm].
  - apply passes_ok; auto. intros m. split; auto.
Qed.
(* the same for a DPI function, whose formals are those of the import *)
Theorem C235_dpi_arguments : forall n f i args r v, built true n f -> import_of f = Ok i -> NoDup (map snd (fn_order f)) ->
  NoDup (map fst args) -> (forall m, In m (map fst args) -> In m (map fst (fn_ports f))) -> NoDup (texts_of args) ->
  call f args r = Ok v ->
  exists ts, arg_texts f args = Ok ts /\ passes (map port_name (im_ports i)) (fun m => find m args) ts.
Proof.
  intros n f i args r v (l & Ol & Hl) Hi K Na Sub T C. pose proof (built_inv _ _ _ _ Ol Hl) as I. pose proof I as (N & M & J & D).
  destruct (fsteps_inv l (new_func true n) f (new_inv true n) Ol Hl) as (_ & Dp & _). specialize (D Dp).
  assert (Sup : forall m, In m (map fst (fn_ports f)) -> In m (map fst args)).
  { intros m Hm. unfold call in C. destruct (forallb _ _) eqn:E; [|discriminate]. rewrite forallb_forall in E.
    apply in_map_iff in Hm as ((k, p) & <- & Hp). specialize (E (k, p)). unfold arg_ok in E. cbn in E.
    destruct (find k args) eqn:F; [apply find_in in F; apply in_map_iff; exists (k, a); auto|].
    discriminate E. eapply Permutation_in; [apply in_order_perm|exact Hp]. }
  unfold import_of in Hi. destruct (_ && _); [discriminate|]. injection Hi as <-. cbn [im_ports].
  assert (Pn : forall m, port_name (import_port f m) = m) by (intros m; unfold import_port; destruct (find m (fn_ports f)); reflexivity).
  rewrite map_map, (map_ext _ (fun m => m) Pn), map_id.
  assert (E : sort_by (key_of (fn_order f)) (map fst (in_order (fn_ports f))) = declared_order f).
  { unfold declared_order. destruct (fn_order f) as [|e o] eqn:Eo; [|reflexivity].
    assert (Z0 : map fst (fn_ports f) = []) by (destruct (map fst (fn_ports f)) as [|x y] eqn:Q; [reflexivity|]; destruct (D x); now left).
    destruct (fn_ports f); [reflexivity|discriminate]. }
  rewrite E. apply passes_ok; auto. intros m; split; auto.
Qed.
(* the formals of an import are in the order they were declared in, unless another order is asked for *)
Definition declared (l : list fop) : list string := flat_map (fun x => match x with FPort _ n _ _ => [n] | _ => [] end) l.
Definition new_names (l : list string) : list string := fold_left (fun s n => if existsb (String.eqb n) s then s else s ++ [n]) l [].
Lemma emplace_fst {V} : forall n (v : V) l, map fst (emplace n v l) = if existsb (String.eqb n) (map fst l) then map fst l else map fst l ++ [n].
Proof.
  intros n v l. unfold emplace. destruct (find n l) eqn:F.
  - apply find_in in F. assert (E : existsb (String.eqb n) (map fst l) = true).
    { apply existsb_exists. exists n. split; [|apply String.eqb_refl]. change n with (fst (n, v0)). now apply in_map. }
    now rewrite E.
  - apply find_none in F. destruct (existsb _ _) eqn:E; [|now rewrite map_app].
    apply existsb_exists in E as (m & Hm & Em). apply String.eqb_eq in Em as ->. easy.
Qed.
Lemma dpi_steps : forall l f g, fsteps f l = Ok g -> fn_dpi f = true -> (forall o, ~ In (FOrder o) l) -> map fst (fn_order f) = map fst (fn_ports f) ->
  map snd (fn_order f) = seq 0 (List.length (fn_order f)) ->
  map fst (fn_order g) = fold_left (fun s n => if existsb (String.eqb n) s then s else s ++ [n]) (declared l) (map fst (fn_order f)) /\
  map fst (fn_ports g) = map fst (fn_order g) /\ map snd (fn_order g) = seq 0 (List.length (fn_order g)).
Proof.
  induction l as [|x l IH]; cbn [fsteps]; intros f g H D No E Sq; [injection H as <-; cbn; auto|].
  apply obind_Ok in H as (k & Hk & H). assert (No' : forall o, ~ In (FOrder o) l) by (intros o K; apply (No o); now right).
  destruct x as [d n w s|o|v|b|b|w].
  - cbn in Hk. injection Hk as <-. unfold declared. cbn [flat_map app fold_left]. apply IH in H; try assumption.
    + unfold add_port in H. rewrite D in H. cbn [fn_order with_ports] in H. rewrite emplace_fst in H. exact H.
    + unfold add_port. rewrite D. cbn [fn_order fn_ports with_ports]. now rewrite !emplace_fst, E.
    + unfold add_port. rewrite D. cbn [fn_order with_ports]. unfold emplace. destruct (find n (fn_order f)); [exact Sq|].
      rewrite map_app, app_length, Nat.add_1_r, seq_S, Sq. reflexivity.
  - destruct (No o). now left.
  - cbn in Hk. unfold add_return in Hk. destruct (assignable _ v); [|discriminate]. injection Hk as <-. now apply IH in H.
  - cbn in Hk. injection Hk as <-. now apply IH in H.
  - cbn in Hk. injection Hk as <-. now apply IH in H.
  - cbn in Hk. injection Hk as <-. now apply IH in H.
Qed.
Lemma new_names_first : forall l, new_names l = first_names l.
Proof.
  intros l. unfold new_names, first_names. rewrite <- (rev_involutive l) at 1. induction (rev l) as [|n r IH]; [reflexivity|].
  cbn [rev nodup]. rewrite fold_left_app. cbn [fold_left]. rewrite IH.
  destruct (in_dec String.string_dec n r) as [I|I]; destruct (existsb _ _) eqn:X; try reflexivity.
  - assert (Y : existsb (String.eqb n) (rev (nodup String.string_dec r)) = true); [|congruence].
    apply existsb_exists. exists n. split; [|apply String.eqb_refl]. apply -> in_rev. now apply nodup_In.
  - apply existsb_exists in X as (m & Hm & Em). apply String.eqb_eq in Em as <-. destruct I. apply in_rev in Hm. now apply nodup_In in Hm.
Qed.
Theorem C235_dpi_order : forall n l f i, Forall (fop_ok true) l -> (forall o, ~ In (FOrder o) l) -> fsteps (new_func true n) l = Ok f ->
  import_of f = Ok i -> map port_name (im_ports i) = first_names (declared l).
Proof.
  intros n l f i Ol No Hl Hi. pose proof (built_inv _ _ _ _ Ol Hl) as (N & M & _).
  destruct (dpi_steps l (new_func true n) f Hl eq_refl No eq_refl eq_refl) as (A & B & C). cbn [new_func fn_order map] in A.
  change (map fst (fn_order f) = new_names (declared l)) in A. rewrite new_names_first in A. rewrite <- A.
  unfold import_of in Hi. destruct (_ && _); [discriminate|]. injection Hi as <-. cbn [im_ports].
  assert (Pn : forall m, port_name (import_port f m) = m) by (intros m; unfold import_port; destruct (find m (fn_ports f)); reflexivity).
  rewrite map_map, (map_ext _ (fun m => m) Pn), map_id.
  apply sort_by_unique.
  - clear - C M. remember 0%nat as z eqn:Ez. clear Ez. 
    assert (G : forall o z full, map snd o = seq z (List.length o) -> NoDup (map fst full) -> incl o full -> StronglySorted (kleq (key_of full)) (map fst o)).
    { clear. induction o as [|(m, k) o IH]; intros z full C M I; cbn [map]; [constructor|]. cbn in C. injection C as -> C. constructor.
      - eapply IH; [exact C|exact M|]. intros x Hx. apply I. now right.
      - rewrite Forall_map, Forall_forall. intros (m', k') H. unfold kleq. cbn [fst].
        rewrite (key_of_in full m z M) by (apply I; now left). rewrite (key_of_in full m' k' M) by (apply I; now right).
        assert (Q : In k' (seq (S z) (List.length o))) by (rewrite <- C; change k' with (snd (m', k')); now apply in_map).
        apply in_seq in Q. lia. }
    eapply G; [exact C|exact M|apply incl_refl].
  - rewrite <- B. symmetry. apply Permutation_map, in_order_perm.
  - intros a b Ia Ib. apply key_inj; [rewrite C; apply seq_NoDup| |].
    + rewrite <- B. eapply Permutation_in; [symmetry; apply Permutation_map, in_order_perm|exact Ia].
    + rewrite <- B. eapply Permutation_in; [symmetry; apply Permutation_map, in_order_perm|exact Ib].
Qed.
Local Open Scope string_scope.
Example C235_dpi_order_ex : first_names (declared [FPort FIn "z" 32 false; FPort FOut "b" 8 false; FPort FIn "z" 8 false; FPort FIn "m" 1 true]) = ["z"; "b"; "m"].
Proof. reflexivity. Qed.
Definition aops_ex : list fop :=
  [FPort FIn "x" 8 false; FPort FIn "a" 4 true; FPort FIn "m" 8 false; FOrder [("a", 1%nat); ("m", 2%nat); ("x", 0%nat)];
   FReturn {| rv_width := 8; rv_signed := false; rv_const := None |}].
Definition af_ex : func :=
  match fsteps (new_func false "f") aops_ex with Ok f => f | _ => new_func false "f" end.
Definition aargs_ex : list (string * actual) :=
  [("m", {| ac_text := "third"; ac_width := 8; ac_signed := false |}); ("a", {| ac_text := "second"; ac_width := 4; ac_signed := true |});
   ("x", {| ac_text := "first"; ac_width := 8; ac_signed := false |})].
Example C235_ex : built false "f" af_ex /\ formals af_ex = Ok ["x"; "a"; "m"] /\ call af_ex aargs_ex true = Ok (8, false)
  /\ arg_texts af_ex aargs_ex = Ok ["first"; "second"; "third"].
Proof.
  split; [|vm_compute; auto]. exists aops_ex. split; [|vm_compute; reflexivity]. repeat constructor; cbn; auto; intuition congruence.
Qed.
Example C235_dpi_ex : exists f, fsteps (new_func true "g") [FPort FIn "z" 32 false; FPort FOut "b" 8 false] = Ok f
  /\ omap im_ports (import_of f) = Ok [("z", FIn, CInt, false); ("b", FOut, CByte, false)]
  /\ arg_texts f [("b", {| ac_text := "res"; ac_width := 8; ac_signed := false |}); ("z", {| ac_text := "val"; ac_width := 32; ac_signed := false |})] = Ok ["val"; "res"].
Proof. eexists. split; [reflexivity|]. vm_compute. auto. Qed.

(* C236: an argument used twice is not passed where it should be *)
Definition abc : list fop := [FPort FIn "x" 8 false; FPort FIn "y" 8 false; FPort FIn "z" 8 false; FOrder [("x", 0%nat); ("y", 1%nat); ("z", 2%nat)];
                              FReturn {| rv_width := 8; rv_signed := false; rv_const := None |}].
Definition act (t : string) : actual := {| ac_text := t; ac_width := 8; ac_signed := false |}.
Theorem C236_repeated_argument_refuted : exists f, built false "f" f /\ formals f = Ok ["x"; "y"; "z"] /\ forall t u, t <> u ->
  let args := [("x", act t); ("y", act u); ("z", act t)] in
  call f args true = Ok (8, false) /\ arg_texts f args = Ok [t; t; u] /\ ~ passes ["x"; "y"; "z"] (fun m => find m args) [t; t; u].
Proof.
  destruct (fsteps (new_func false "f") abc) as [f| |] eqn:E; [|discriminate E|discriminate E]. exists f.
  assert (B : built false "f" f). { exists abc. split; [|exact E]. repeat constructor; cbn; auto; intuition congruence. }
  cbv in E. injection E as <-. split; [exact B|]. split; [reflexivity|]. intros t u N args. split; [reflexivity|]. split.
  - assert (Eut : String.eqb u t = false) by (apply String.eqb_neq; congruence).
    assert (E1 : emplace u 1%nat [(t, 0%nat)] = [(t, 0%nat); (u, 1%nat)]) by (unfold emplace; cbn [find]; now rewrite Eut).
    assert (E2 : emplace t 2%nat [(t, 0%nat); (u, 1%nat)] = [(t, 0%nat); (u, 1%nat)]) by (unfold emplace; cbn [find]; now rewrite String.eqb_refl).
    assert (Kt : key_of [(t, 0%nat); (u, 1%nat)] t = 0%nat) by (unfold key_of; cbn [find]; now rewrite String.eqb_refl).
    assert (Ku : key_of [(t, 0%nat); (u, 1%nat)] u = 1%nat) by (unfold key_of; cbn [find]; now rewrite Eut, String.eqb_refl).
    transitivity (olet ix := Ok (emplace t 2%nat (emplace u 1%nat [(t, 0%nat)])) in Ok (sort_by (key_of ix) [t; u; t])); [reflexivity|].
    rewrite E1, E2. cbn [obind]. unfold sort_by, ssort.
    do 4 (cbn [fold_left sinsert]; rewrite ?Kt, ?Ku; cbn [Nat.ltb Nat.leb]). reflexivity.
  - intros P. inversion P; subst. inversion H4; subst. destruct H3 as (a & Ha & Hb). vm_compute in Ha. injection Ha as <-. cbn in Hb. congruence.
Qed.
Example C236_ex : exists f, fsteps (new_func false "f") abc = Ok f /\
  arg_texts f [("x", act "p"); ("y", act "q"); ("z", act "p")] = Ok ["p"; "p"; "q"].
Proof. eexists. split; [reflexivity|]. reflexivity. Qed.

(* C237: what a call is accepted with, and its type *)
Theorem C237_accepted : forall f args r v n p, NoDup (map fst (fn_ports f)) -> call f args r = Ok v -> In (n, p) (fn_ports f) ->
  exists a, find n args = Some a /\ ac_width a = fo_width p /\ ac_signed a = fo_signed p.
Proof.
  intros f args r v n p N C H. unfold call in C. destruct (forallb _ _) eqn:E; [|discriminate]. rewrite forallb_forall in E.
  specialize (E (n, p) (Permutation_in _ (in_order_perm _) H)). unfold arg_ok in E. cbn in E. destruct (find n args) as [a|]; [|discriminate].
  apply andb_true_iff in E as [X Y]. apply Z.eqb_eq in X. apply Bool.eqb_prop in Y. exists a. auto.
Qed.
Fixpoint first_return (l : list fop) : option rvalue := match l with [] => None | FReturn v :: _ => Some v | _ :: r => first_return r end.
Lemma handler_steps : forall l f g, fsteps f l = Ok g ->
  fn_handler g = match fn_handler f with Some h => Some h | None => option_map (fun v => (rv_width v, rv_signed v)) (first_return l) end /\
  forall v, In (FReturn v) l -> exists h, fn_handler g = Some h /\ assignable h v = true.
Proof.
  induction l as [|x l IH]; cbn; intros f g H; [injection H as <-; split; [now destruct (fn_handler f)|easy]|].
  apply obind_Ok in H as (k & Hk & H). destruct (IH k g H) as (A & B).
  assert (Q : (forall v, x <> FReturn v) -> fn_handler k = fn_handler f).
  { intros Nx. destruct x; cbn in Hk; try (injection Hk as <-; reflexivity).
    - unfold set_port_ordering in Hk. destruct (negb _); [discriminate|]. destruct (existsb _ o); [discriminate|]. now injection Hk as <-.
    - now destruct (Nx v). }
  destruct x as [d n w s|o|v|b|b|w].
  3:{ cbn in Hk. unfold add_return in Hk. destruct (assignable _ v) eqn:As; [|discriminate]. injection Hk as <-. cbn in A. split.
      - rewrite A. now destruct (fn_handler f).
      - intros u [E|Hu]; [|auto]. injection E as <-. eexists. split; [exact A|exact As]. }
  all: rewrite Q in A by congruence; split; [exact A|intros u [E|Hu]; [discriminate|auto]].
Qed.
Theorem C237_result : forall n l f args v, Forall (fop_ok false) l -> fsteps (new_func false n) l = Ok f -> call f args true = Ok v ->
  exists u, first_return l = Some u /\ v = (rv_width u, rv_signed u) /\
  forall w, In (FReturn w) l -> rv_signed w = rv_signed u /\
    (rv_width w = rv_width u \/ exists c, rv_const w = Some c /\ const_legal c (rv_width u) (rv_signed u) = true).
Proof.
  intros n l f args v Ol H C. destruct (handler_steps l _ f H) as (A & B). cbn in A. unfold call in C.
  destruct (fsteps_inv l (new_func false n) f (new_inv false n) Ol H) as (_ & D & _). cbn in D.
  destruct (negb (forallb _ _)); [discriminate|]. unfold has_value in C. rewrite D in C. cbn in C.
  destruct (first_return l) as [u|] eqn:E; cbn in A; rewrite A in C; cbn in C; [|discriminate]. injection C as <-.
  exists u. split; [reflexivity|]. split; [reflexivity|]. intros w Hw. destruct (B w Hw) as (h & Hh & As). rewrite A in Hh. injection Hh as <-.
  unfold assignable in As. cbn in As. apply andb_true_iff in As as [X Y]. apply Bool.eqb_prop in X. split; [auto|].
  apply orb_true_iff in Y as [Y|Y]; [left; apply Z.eqb_eq in Y; auto|right]. destruct (rv_const w); [eauto|discriminate].
Qed.
Example C237_ex : call af_ex aargs_ex true = Ok (8, false) /\ call af_ex (List.tl aargs_ex) true = Throw.
Proof. vm_compute. auto. Qed.

(* C238: names that are no formals are accepted too, and printed *)
Theorem C238_extra_argument_refuted : forall n f fs args v x a, built false n f -> fn_order f = [] -> formals f = Ok fs ->
  NoDup (map fst args) -> (forall m, In m (map fst args) <-> In m (map fst (fn_ports f))) -> call f args true = Ok v ->
  ~ In x (map fst (fn_ports f)) ->
  call f (args ++ [(x, a)]) true = Ok v /\ exists ts, arg_texts f (args ++ [(x, a)]) = Ok ts /\ List.length ts = S (List.length fs).
Proof.
  intros n f fs args v x a (l & Ol & Hl) Eo Hf Na Same C Nx. pose proof (built_inv _ _ _ _ Ol Hl) as (N & _). split.
  - unfold call in *. destruct (forallb (arg_ok args) (in_order (fn_ports f))) eqn:E; [|discriminate].
    assert (E' : forallb (arg_ok (args ++ [(x, a)])) (in_order (fn_ports f)) = true).
    { rewrite forallb_forall in *. intros (m, p) Hp. specialize (E _ Hp). unfold arg_ok in *. cbn in *.
      assert (Q : forall k, find k args <> None -> find k (args ++ [(x, a)]) = find k args).
      { intros k. clear. induction args as [|(y, b) args IH]; cbn; [congruence|]. destruct (String.eqb k y); auto. }
      destruct (find m args) as [b|] eqn:F; [|discriminate]. rewrite Q by congruence. now rewrite F. }
    rewrite E'. exact C.
  - unfold arg_texts. rewrite Eo. eexists. split; [reflexivity|]. rewrite map_length.
    rewrite <- (Permutation_length (in_order_perm (args ++ [(x, a)]))), app_length. cbn.
    unfold formals in Hf. rewrite Eo in Hf. injection Hf as <-. rewrite map_length, <- (Permutation_length (in_order_perm (fn_ports f))).
    assert (P : Permutation (map fst args) (map fst (fn_ports f))) by (apply NoDup_Permutation; auto).
    apply Permutation_length in P. rewrite !map_length in P. lia.
Qed.
Example C238_ex : exists f, fsteps (new_func false "f") [FPort FIn "x" 8 false; FReturn {| rv_width := 8; rv_signed := false; rv_const := None |}] = Ok f
  /\ call f [("x", act "p"); ("typo", act "q")] true = Ok (8, false) /\ arg_texts f [("x", act "p"); ("typo", act "q")] = Ok ["q"; "p"].
Proof. eexists. split; [reflexivity|]. vm_compute. auto. Qed.

(* C239: the declared result has no sign *)
Theorem C239_result_sign_refuted : forall n l f args w, Forall (fop_ok false) l -> fsteps (new_func false n) l = Ok f ->
  call f args true = Ok (w, true) -> result_type f = Some [DType "logic"; get_width_str_n w].
Proof.
  intros n l f args w Ol H C. destruct (C237_result n l f args _ Ol H C) as (u & Eu & Ev & _). destruct (handler_steps l _ f H) as (A & B). cbn in A.
  rewrite Eu in A. cbn in A. rewrite <- Ev in A. unfold result_type. rewrite A.
  assert (R : fn_return f = true).
  { clear C Ol A B Ev. revert Eu H. generalize (new_func false n) as g. induction l as [|x l IH]; intros g Eu H; [discriminate|].
    cbn in H. apply obind_Ok in H as (k & Hk & H). destruct x; cbn in Eu; try (eapply IH; [exact Eu|exact H]).
    injection Eu as ->. cbn in Hk. unfold add_return in Hk. destruct (assignable _ u); [|discriminate]. injection Hk as <-. clear IH.
    assert (T0 : forall l g f, fn_return g = true -> fsteps g l = Ok f -> fn_return f = true).
    { clear. induction l as [|x l IH]; cbn; intros g f E H; [congruence|]. apply obind_Ok in H as (k & Hk & H). apply (IH k f); [|exact H].
      destruct x; cbn in Hk; try (now injection Hk as <-).
      - unfold set_port_ordering in Hk. destruct (negb _); [discriminate|]. destruct (existsb _ o); [discriminate|]. now injection Hk as <-.
      - unfold add_return in Hk. destruct (assignable _ v); [|discriminate]. now injection Hk as <-. }
    eapply T0; [|exact H]. reflexivity. }
  rewrite R. reflexivity.
Qed.
Example C239_ex : exists f, fsteps (new_func false "f") [FReturn {| rv_width := 8; rv_signed := true; rv_const := None |}] = Ok f /\
  call f [] true = Ok (8, true) /\ result_type f = Some [DType "logic"; get_width_str_n 8].
Proof. eexists. split; [reflexivity|]. vm_compute. auto. Qed.

(* C240: system functions *)
Theorem C240_order : forall args, (List.length args <= 10)%nat -> builtin_texts args = map ac_text args.
Proof.
  intros args H. do 10 (destruct args as [|? args]; [reflexivity|]). destruct args; [reflexivity|]. cbn in H. lia.
Qed.
Theorem C240_count_and_width : forall n args w s w' s', system_function n = Some (w, s) -> builtin_call n args = Ok (w', s') ->
  w' = w /\ exists b, find n builtin_functions = Some b /\ bi_min b <= Z.of_nat (List.length args) <= bi_max b.
Proof.
  intros n args w s w' s' H C. unfold builtin_call in C. destruct (find n builtin_functions) as [b|] eqn:F; [|discriminate].
  assert (B : bi_width b = w /\ w <> 0).
  { apply find_in in F. cbn [In builtin_functions] in F.
    repeat (destruct F as [F|F]; [inversion F; subst; vm_compute in H; try discriminate H; inversion H; subst; split; first [reflexivity|discriminate]|]).
    destruct F. }
  destruct B as (Eb & Nz). destruct (Z.eqb_spec (bi_width b) 0) as [Q|Q]; [congruence|]. destruct (_ || _) eqn:O; [discriminate|].
  apply orb_false_iff in O as [X Y]. apply Z.ltb_ge in X, Y. injection C as <- <-. split; [exact Eb|]. exists b. auto.
Qed.
(* numbers of arguments: what is accepted is legal, what is legal is accepted; fopen without a mode is not *)
Theorem C240_legal : forall n args v k, system_function n = Some k -> builtin_call n args = Ok v -> takes n (Z.of_nat (List.length args)).
Proof.
  intros n args v k H C. unfold builtin_call in C. destruct (find n builtin_functions) as [b|] eqn:F; [|discriminate]. apply find_in in F.
  cbn [In builtin_functions] in F.
  do 13 (destruct F as [F|F]; [inversion F; subst; vm_compute in H; first [discriminate H|cbn [bi bi_width bi_min bi_max bi_signed] in C;
    match type of C with context [(?x =? 0)%Z] => change (x =? 0)%Z with false in C end; cbv iota in C; destruct (_ || _) eqn:O; [discriminate C|];
    apply orb_false_iff in O as [X Y]; apply Z.ltb_ge in X, Y; do 2 eexists; split; [reflexivity|]; cbv iota; split; [lia|first [exact I|lia]]]|]).
  destruct F.
Qed.
Theorem C240_accepted : forall n args, takes n (Z.of_nat (List.length args)) -> Z.of_nat (List.length args) <= 4294967295 -> n <> "fopen" ->
  exists v, builtin_call n args = Ok v.
Proof.
  intros n args (lo & hi & E & L & U) B Nf. assert (Q : In n ["clog2"; "countones"; "onehot"; "onehot0"; "isunknown"; "random"; "urandom"; "fscanf"]).
  { unfold system_arguments in E. destruct (existsb _ _) eqn:X; [apply existsb_exists in X as (m & Hm & Em); apply String.eqb_eq in Em as <-; cbn in *; tauto|].
    destruct (existsb (String.eqb n) ["random"; "urandom"]) eqn:Y; [apply existsb_exists in Y as (m & Hm & Em); apply String.eqb_eq in Em as <-; cbn in *; tauto|].
    destruct (String.eqb_spec n "fopen"); [contradiction|]. destruct (String.eqb_spec n "fscanf"); [subst; cbn; tauto|discriminate]. }
  cbn [In] in Q. unfold builtin_call.
  do 8 (destruct Q as [Q|Q]; [subst n; vm_compute in E; inversion E; subst;
    match goal with |- context [find ?k builtin_functions] => let r := eval vm_compute in (find k builtin_functions) in change (find k builtin_functions) with r end;
    cbn [bi_width bi_min bi_max bi_signed]; match goal with |- context [(?x =? 0)%Z] => change (x =? 0)%Z with false end; cbv iota;
    destruct (_ || _) eqn:O; [apply orb_true_iff in O as [O|O]; apply Z.ltb_lt in O; lia|eauto]|]).
  destruct Q.
Qed.
(* signs that are right; C243 has the others *)
Theorem C240_sign : forall n args v w s, ~ In n ["clog2"; "countones"; "fopen"; "fscanf"] -> system_function n = Some (w, s) -> builtin_call n args = Ok v -> v = (w, s).
Proof.
  intros n args v w s No H C. unfold builtin_call in C. destruct (find n builtin_functions) as [b|] eqn:F; [|discriminate]. apply find_in in F.
  cbn [In builtin_functions] in F.
  do 13 (destruct F as [F|F]; [inversion F; subst; vm_compute in H; first [discriminate H|destruct No; cbn; tauto|
    cbn [bi bi_width bi_min bi_max bi_signed] in C;
    match type of C with context [(?x =? 0)%Z] => change (x =? 0)%Z with false in C end; cbv iota in C; destruct (_ || _); [discriminate C|];
    inversion C; inversion H; subst; reflexivity]|]).
  destruct F.
Qed.
Example C240_legal_ex : takes "fscanf" 7 /\ ~ takes "clog2" 2 /\ takes "fopen" 1 /\ builtin_call "fopen" [act "name"] = Throw /\ builtin_call "urandom" [act "seed"] = Ok (32, false).
Proof.
  split; [exists 2, None; cbn; repeat split; lia|]. split; [intros (lo & hi & E & L & U); vm_compute in E; inversion E; subst; cbn in U; lia|].
  split; [exists 1, (Some 2); cbn; repeat split; lia|]. vm_compute. auto.
Qed.
Example C240_ex : builtin_call "clog2" [act "a"] = Ok (32, false) /\ builtin_call "clog2" [] = Throw /\ builtin_texts [act "a"; act "b"] = ["a"; "b"]
  /\ builtin_call "random" [] = Ok (32, true).
Proof. vm_compute. auto. Qed.

(* C241: more than ten arguments that are all different are printed in another order *)
Lemma mock_nth : forall args i k a, nth_error args k = Some a -> nth_error (mock_args i args) k = Some (dec (Z.of_nat (i + k)), a).
Proof.
  induction args as [|b args IH]; intros i [|k] a H; cbn in *; try discriminate.
  - injection H as <-. now rewrite Nat.add_0_r.
  - rewrite (IH (S i) k a H). now rewrite <- Nat.add_succ_comm.
Qed.
Lemma mock_texts : forall args i, map (fun e => ac_text (snd e)) (mock_args i args) = map ac_text args.
Proof. induction args as [|a args IH]; intros i; cbn; [reflexivity|]. now rewrite IH. Qed.
Lemma map_inj_in {A B} (f : A -> B) : forall l l', map f l = map f l' -> (forall a b, In a l -> In b l' -> f a = f b -> a = b) -> l = l'.
Proof.
  induction l as [|a l IH]; intros [|b l'] E I; cbn in E; try discriminate; [reflexivity|]. injection E as E1 E2. f_equal.
  - apply I; [now left|now left|exact E1].
  - apply IH; [exact E2|]. intros x y Hx Hy. apply I; now right.
Qed.
Lemma nodup_map_inj {A B} (f : A -> B) : forall l a b, NoDup (map f l) -> In a l -> In b l -> f a = f b -> a = b.
Proof.
  induction l as [|x l IH]; cbn; intros a b N Ha Hb E; [easy|]. inversion N; subst. destruct Ha as [->|Ha], Hb as [->|Hb]; auto.
  - exfalso. apply H1. rewrite E. now apply in_map.
  - exfalso. apply H1. rewrite <- E. now apply in_map.
Qed.
Lemma sorted_nth {A} (R : A -> A -> Prop) : forall l i j a b, StronglySorted R l -> (i < j)%nat -> nth_error l i = Some a -> nth_error l j = Some b -> R a b.
Proof.
  induction l as [|x l IH]; intros [|i] [|j] a b Sd L Ha Hb; try lia; cbn in *; try discriminate; apply StronglySorted_inv in Sd as [Sd F].
  - injection Ha as ->. rewrite Forall_forall in F. apply F. eapply nth_error_In; exact Hb.
  - eapply IH; [exact Sd| |exact Ha|exact Hb]. lia.
Qed.
Theorem C241_many_arguments_refuted : forall args, (10 < List.length args)%nat -> NoDup (map ac_text args) -> builtin_texts args <> map ac_text args.
Proof.
  intros args L N E. unfold builtin_texts in E. rewrite <- (mock_texts args 0) in E. set (m := mock_args 0 args) in *.
  assert (Nm : NoDup (map (fun e => ac_text (snd e)) m)) by (unfold m; now rewrite mock_texts).
  assert (Q : in_order m = m).
  { apply map_inj_in in E; [exact E|]. intros a b Ha Hb. apply (nodup_map_inj (fun e => ac_text (snd e)) m); auto. eapply Permutation_in; [symmetry; apply in_order_perm|exact Ha]. }
  destruct (nth_error args 2) as [a2|] eqn:E2; [|apply nth_error_None in E2; lia].
  destruct (nth_error args 10) as [a10|] eqn:E10; [|apply nth_error_None in E10; lia].
  apply (mock_nth args 0) in E2, E10. fold m in E2, E10. pose proof (in_order_sorted m) as Sd. rewrite Q in Sd.
  pose proof (map_nth_error fst _ _ E2) as M2. pose proof (map_nth_error fst _ _ E10) as M10.
  pose proof (sorted_nth _ _ 2%nat 10%nat _ _ Sd ltac:(lia) M2 M10) as X. vm_compute in X. discriminate.
Qed.
Example C241_ex : builtin_texts (map act ["a0"; "a1"; "a2"; "a3"; "a4"; "a5"; "a6"; "a7"; "a8"; "a9"; "a10"])
  = ["a0"; "a1"; "a10"; "a2"; "a3"; "a4"; "a5"; "a6"; "a7"; "a8"; "a9"].
Proof. reflexivity. Qed.

(* C242: functions without a result take any number of arguments *)
Theorem C242_count_refuted : forall n b args, find n builtin_functions = Some b -> bi_width b = 0 -> builtin_call n args = Ok (1, false).
Proof. intros n b args F W. unfold builtin_call. rewrite F, W. reflexivity. Qed.
Example C242_ex : find "hgdb_assert_fail" builtin_functions = Some (bi 0 3 4 false) /\ builtin_call "hgdb_assert_fail" [] = Ok (1, false)
  /\ builtin_call "finish" (map act ["a"; "b"; "c"]) = Ok (1, false).
Proof. vm_compute. auto. Qed.

(* C243: most integer results are taken to be unsigned *)
Theorem C243_sign_refuted : forall n args w s, In n ["clog2"; "countones"; "fopen"; "fscanf"] -> builtin_call n args = Ok (w, s) ->
  system_function n = Some (w, true) /\ s = false.
Proof.
  intros n args w s H C. destruct H as [<-|[<-|[<-|[<-|[]]]]]; unfold builtin_call in C;
    match type of C with context [find ?k builtin_functions] => let r := eval vm_compute in (find k builtin_functions) in change (find k builtin_functions) with r in C end;
    cbn [bi_width bi_min bi_max bi_signed] in C; change (32 =? 0)%Z with false in C; cbv iota in C; destruct (_ || _); try discriminate C;
    inversion C; subst; split; reflexivity.
Qed.
Example C243_ex : builtin_call "fscanf" [act "fd"; act "fmt"; act "a"] = Ok (32, false) /\ system_function "fscanf" = Some (32, true).
Proof. vm_compute. auto. Qed.

(* C244: the import printed for a name is one for every DPI function of the name *)
Theorem C244_imports : forall l imps, Forall (fun f => built true (fn_name f) f) l -> extract_dpi l = Ok imps ->
  NoDup (map fst imps) /\ forall f, In f l -> exists i, In (fn_name f, i) imps /\ imports i (fn_name f) (attr_of f) (fn_ports f).
Proof.
  intros l imps B H. unfold extract_dpi in H. apply obind_Ok in H as (seen & V & H). apply omapM_in in H. rewrite Forall_forall in B.
  assert (Inv : forall f, In f l -> finv f) by (intros f Hf; destruct (B f Hf) as (o & X & Y); eapply built_inv; eauto).
  destruct (visit_from l [] seen V (NoDup_nil _)) as (Ns & From); [easy|]. split.
  - assert (E : map fst imps = map fst (in_order seen)).
    { clear - H. induction H as [|(n, f) b l r X F IH]; [reflexivity|]. cbn in X |- *. apply obind_Ok in X as (i & _ & X). injection X as <-. cbn. now rewrite IH. }
    rewrite E. eapply Permutation_NoDup; [apply Permutation_map, in_order_perm|exact Ns].
  - intros f Hf. destruct (visit_all l [] seen f V Hf) as (r & Fr & Ag). apply find_in in Fr.
    destruct (From _ _ Fr) as (Nr & [[]|Ir]).
    destruct (Forall2_in_l _ _ _ _ H (Permutation_in _ (in_order_perm seen) Fr)) as (b & Hb & Eb). cbn in Eb. apply obind_Ok in Eb as (i & Ei & Eb).
    injection Eb as <-. exists i. split; [exact Hb|]. pose proof (import_ok r i (Inv r Ir) Ei) as Im. rewrite Nr in Im.
    destruct Ag as [->|Ag]; [exact Im|]. eapply agrees_imports; eauto.
Qed.
Definition dpi_ex (w : Z) (pw : Z) : func :=
  match fsteps (new_func true "g") [FPort FIn "x" pw false; FPort FOut "y" 8 true; FWidth w] with Ok f => f | _ => new_func true "g" end.
Example C244_ex : Forall (fun f => built true (fn_name f) f) [dpi_ex 8 4; dpi_ex 8 4] /\
  extract_dpi [dpi_ex 8 4; dpi_ex 8 4] = Ok [("g", {| im_attr := APlain; im_type := CByte; im_name := "g"; im_ports := [("x", FIn, CByte, false); ("y", FOut, CByte, true)] |})]
  /\ extract_dpi [dpi_ex 8 4; new_func true "g"] = Throw.
Proof.
  split; [|vm_compute; auto]. repeat constructor; (exists [FPort FIn "x" 4 false; FPort FOut "y" 8 true; FWidth 8]; split; [repeat constructor|reflexivity]).
Qed.

(* C245: widths are not compared; the import has those of the first *)
Theorem C245_widths_refuted : forall w1 w2 p1 p2, exists imp,
  Forall (fun f => built true (fn_name f) f) [dpi_ex w1 p1; dpi_ex w2 p2] /\
  fn_return_width (dpi_ex w2 p2) = w2 /\ In ("x", {| fo_width := p2; fo_signed := false; fo_dir := FIn |}) (fn_ports (dpi_ex w2 p2)) /\
  extract_dpi [dpi_ex w1 p1; dpi_ex w2 p2] = Ok [("g", imp)] /\ im_type imp = return_ctype w1 /\
  im_ports imp = [("x", FIn, port_ctype p1, false); ("y", FOut, CByte, true)].
Proof.
  intros w1 w2 p1 p2. eexists. split.
  - repeat constructor; [exists [FPort FIn "x" p1 false; FPort FOut "y" 8 true; FWidth w1]|exists [FPort FIn "x" p2 false; FPort FOut "y" 8 true; FWidth w2]]; (split; [repeat constructor|reflexivity]).
  - split; [reflexivity|]. split; [now left|]. split.
    + assert (Ag : agrees (dpi_ex w1 p1) (dpi_ex w2 p2) = true) by (unfold agrees; cbn; rewrite orb_true_r; reflexivity).
      transitivity (olet seen := if agrees (dpi_ex w1 p1) (dpi_ex w2 p2) then Ok [("g", dpi_ex w1 p1)] else Throw in
        omapM (fun e => olet i := import_of (snd e) in Ok (fst e, i)) (in_order seen)); [reflexivity|]. rewrite Ag. reflexivity.
    + split; reflexivity.
Qed.
Example C245_ex : exists imp, extract_dpi [dpi_ex 32 4; dpi_ex 8 20] = Ok [("g", imp)] /\ im_type imp = CInt /\ return_ctype 8 = CByte.
Proof. eexists. vm_compute. auto. Qed.

(* C246: up to 64 bits the C types hold the value *)
Theorem C246_types : forall w, 0 <= w <= 64 -> w <= ctype_width (return_ctype w) /\ (0 < w -> w <= ctype_width (port_ctype w)).
Proof.
  intros w H. unfold return_ctype, port_ctype. destruct (Z.eqb_spec w 0), (Z.eqb_spec w 1), (Z.leb_spec w 8), (Z.leb_spec w 16), (Z.leb_spec w 32); cbn; lia.
Qed.
Example C246_ex : return_ctype 9 = CShortint /\ ctype_width (return_ctype 33) = 64 /\ port_ctype 1 = CByte.
Proof. vm_compute. auto. Qed.
(* C247 *)
Theorem C247_wide_refuted : forall w, 64 < w -> ctype_width (return_ctype w) = 64 /\ ctype_width (port_ctype w) = 64.
Proof.
  intros w H. unfold return_ctype, port_ctype. destruct (Z.eqb_spec w 0), (Z.eqb_spec w 1), (Z.leb_spec w 8), (Z.leb_spec w 16), (Z.leb_spec w 32); cbn; lia.
Qed.
Example C247_ex : ctype_width (return_ctype 128) = 64.
Proof. reflexivity. Qed.

(* C248: saying that a function is not one makes it the other *)
Theorem C248_attributes_refuted : forall f, attr_of (set_is_context f false) = APure /\ attr_of (set_is_pure f false) = AContext.
Proof. intros f. split; reflexivity. Qed.
Example C248_ex : exists f, fsteps (new_func true "g") [FContext false] = Ok f /\ omap im_attr (import_of f) = Ok APure.
Proof. eexists. split; reflexivity. Qed.

(* C249: a call of a DPI function is an unsigned value of the width asked for, its C type is signed and may be wider *)
Theorem C249_type_of_call_refuted : forall n f args w, built true n f -> fn_return_width f = w -> 1 < w -> forallb (arg_ok args) (in_order (fn_ports f)) = true ->
  call f args true = Ok (w, false) /\ ctype_signed (return_ctype w) = true /\ (~ In w [8; 16; 32; 64] -> ctype_width (return_ctype w) <> w).
Proof.
  intros n f args w (l & Ol & Hl) Ew L A. destruct (fsteps_inv l (new_func true n) f (new_inv true n) Ol Hl) as (_ & D & _). cbn in D.
  unfold call, has_value. rewrite A, D, Ew. cbn. unfold return_ctype.
  destruct (Z.eqb_spec w 0), (Z.eqb_spec w 1), (Z.leb_spec w 8), (Z.leb_spec w 16), (Z.leb_spec w 32); cbn; try lia; split; auto; split; auto; lia.
Qed.
Example C249_ex : call (dpi_ex 4 4) [("x", {| ac_text := "a"; ac_width := 4; ac_signed := false |}); ("y", {| ac_text := "b"; ac_width := 8; ac_signed := true |})] true = Ok (4, false)
  /\ return_ctype 4 = CByte.
Proof. vm_compute. auto. Qed.
Print Assumptions C235_arguments.
Print Assumptions C235_dpi_arguments.
Print Assumptions C236_repeated_argument_refuted.
Print Assumptions C237_accepted.
Print Assumptions C237_result.
Print Assumptions C238_extra_argument_refuted.
Print Assumptions C239_result_sign_refuted.
Print Assumptions C235_dpi_order.
Print Assumptions C240_legal.
Print Assumptions C240_accepted.
Print Assumptions C240_sign.
Print Assumptions C240_order.
Print Assumptions C240_count_and_width.
Print Assumptions C241_many_arguments_refuted.
Print Assumptions C242_count_refuted.
Print Assumptions C243_sign_refuted.
Print Assumptions C244_imports.
Print Assumptions C245_widths_refuted.
Print Assumptions C246_types.
Print Assumptions C247_wide_refuted.
Print Assumptions C248_attributes_refuted.
Print Assumptions C249_type_of_call_refuted.
