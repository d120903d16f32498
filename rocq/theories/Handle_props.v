(* C326-C333: hierarchical names of variables and expressions. *)
From Verif Require Import Base Handle_spec Handle_model.
Local Open Scope nat_scope.

Lemma split_from_plain n : forall acc t, ~ In dot n -> split_from acc (n ++ dot :: t) = rev (rev n ++ acc) :: split t.
Proof.
  induction n as [|c n IH]; intros acc t N; cbn [app split_from].
  - rewrite Nat.eqb_refl. reflexivity.
  - destruct (Nat.eqb_spec c dot) as [->|D]; [destruct N; now left|]. rewrite IH by (intros I; apply N; now right).
    cbn [rev]. now rewrite <- app_assoc.
Qed.
Lemma split_from_end n : forall acc, ~ In dot n -> split_from acc n = [rev (rev n ++ acc)].
Proof.
  induction n as [|c n IH]; intros acc N; cbn [split_from]; trivial.
  destruct (Nat.eqb_spec c dot) as [->|D]; [destruct N; now left|]. rewrite IH by (intros I; apply N; now right).
  cbn [rev]. now rewrite <- app_assoc.
Qed.
Lemma split_join l : l <> [] -> Forall plain l -> split (join l) = l.
Proof.
  induction l as [|n l IH]; intros NE F; [now destruct NE|]. inversion F as [|? ? [_ P] F']; subst.
  destruct l as [|m l].
  - cbn [join]. unfold split. rewrite split_from_end by trivial. now rewrite app_nil_r, rev_involutive.
  - change (join (n :: m :: l)) with (n ++ dot :: join (m :: l)). unfold split. rewrite split_from_plain by trivial.
    rewrite app_nil_r, rev_involutive, IH; trivial; discriminate.
Qed.
Lemma join_app a b : a <> [] -> b <> [] -> join (a ++ b) = join a ++ dot :: join b.
Proof.
  intros NA NB. induction a as [|n a IH]; [now destruct NA|]. destruct a as [|m a].
  - destruct b; [now destruct NB|]. reflexivity.
  - change (n ++ dot :: join ((m :: a) ++ b) = (n ++ dot :: join (m :: a)) ++ dot :: join b).
    rewrite IH by discriminate. now rewrite <- app_assoc.
Qed.
Lemma join_nil l : Forall plain l -> join l = [] -> l = [].
Proof.
  intros F. destruct l as [|n l]; trivial. inversion F as [|? ? [P _] _]; subst. destruct l as [|m l].
  - cbn. intros E. now destruct P.
  - change (n ++ dot :: join (m :: l) = [] -> n :: m :: l = []). destruct n; discriminate.
Qed.
Lemma handle_join b v : plain_var v -> var_handle b v = join ((if b then tl (v_path v) else v_path v) ++ [v_name v]).
Proof.
  intros [NE [F P]]. unfold var_handle, gen_handle. set (p := if b then tl (v_path v) else v_path v).
  assert (FP : Forall plain p) by (destruct b; trivial; subst p; destruct (v_path v); [constructor | now inversion F]).
  destruct (join p) as [|c g] eqn:E.
  - rewrite (join_nil _ FP E). reflexivity.
  - assert (p <> []) by (intros X; rewrite X in E; discriminate). rewrite join_app by (trivial; discriminate). now rewrite E.
Qed.

(* C326 *)
Theorem C326_from_top b v : plain_var v -> split (var_handle b v) = (if b then tl (v_path v) else v_path v) ++ [v_name v].
Proof.
  intros P. rewrite handle_join by trivial. destruct P as [NE [F P]]. apply split_join.
  - intros E. apply app_eq_nil in E. now destruct E.
  - apply Forall_app. split; [destruct b; trivial; destruct (v_path v); [constructor | now inversion F] | now repeat constructor; destruct P].
Qed.
Theorem C326_distinct v w : plain_var v -> plain_var w -> var_handle false v = var_handle false w -> v = w.
Proof.
  intros P Q E. pose proof (C326_from_top false v P) as A. pose proof (C326_from_top false w Q) as B. cbn in A, B. rewrite E, B in A.
  apply app_inj_tail in A. destruct A as [A C]. destruct v, w; cbn in *; congruence.
Qed.
Definition top : text := [116]. Definition na : text := [97]. Definition nab : text := [97; 98]. Definition nx : text := [120].
Example C326_ex : var_handle false {| v_path := [top; na]; v_name := nx |} = [116; 46; 97; 46; 120] /\
  var_handle true {| v_path := [top; na]; v_name := nx |} = [97; 46; 120] /\ var_handle true {| v_path := [top]; v_name := nx |} = nx /\
  plain_var {| v_path := [top; na]; v_name := nx |}.
Proof.
  repeat split; try discriminate; try reflexivity; cbn.
  - constructor; [|constructor; [|constructor]]; split; try discriminate; cbn; unfold dot; lia.
  - unfold dot. lia.
Qed.

(* C327 *)
Lemma starts_app g t : starts g (g ++ t) = true.
Proof. induction g; cbn; trivial. now rewrite Nat.eqb_refl. Qed.
Theorem C327_from_scope scope rest v : plain_var v -> scope <> [] -> below scope v rest ->
  exists t, rel_handle scope v = Ok t /\ t = join (rest ++ [v_name v]) /\ split t = rest ++ [v_name v].
Proof.
  intros P NS B. unfold below in B. exists (join (rest ++ [v_name v])).
  assert (NE : rest ++ [v_name v] <> []) by (intros E; apply app_eq_nil in E; now destruct E).
  split; [|split; trivial].
  - unfold rel_handle. rewrite handle_join by trivial. unfold gen_handle. rewrite B, <- app_assoc, join_app by trivial.
    rewrite starts_app. rewrite app_length. cbn [List.length].
    match goal with |- context [Nat.ltb ?x ?y] => destruct (Nat.ltb_spec x y); [lia|] end.
    rewrite skipn_app. rewrite skipn_all2 by lia. replace (List.length (join scope) + 1 - List.length (join scope)) with 1 by lia. reflexivity.
  - apply split_join; trivial. destruct P as [_ [F Pn]]. rewrite B in F. apply Forall_app in F. apply Forall_app. split; [apply F | now constructor].
Qed.
Example C327_ex : rel_handle [top] {| v_path := [top; na]; v_name := nx |} = Ok [97; 46; 120] /\
  rel_handle [top; na] {| v_path := [top; na]; v_name := nx |} = Ok nx /\
  rel_handle [top; nx] {| v_path := [top; na]; v_name := nx |} = Throw.
Proof. repeat split. Qed.
(* C328: a variable elsewhere is refused *)
Theorem C328_prefix_refuted :
  ~ (forall scope v t, plain_var v -> scope <> [] -> Forall plain scope -> rel_handle scope v = Ok t -> exists rest, below scope v rest).
Proof.
  intros H.
  destruct (H [top; na] {| v_path := [top; nab]; v_name := nx |} [46; 120]) as [rest B].
  - split; [discriminate|]. cbn. split; repeat constructor; try discriminate; cbn; unfold dot; lia.
  - discriminate.
  - repeat constructor; try discriminate; cbn; unfold dot; lia.
  - reflexivity.
  - discriminate B.
Qed.

Section Text.
Context (op_text : nat -> text).
Lemma op_of_rename f e : op_of (rename f e) = op_of e.
Proof. now destruct e. Qed.
Lemma same_op_rename f o e : same_op o (rename f e) = same_op o e.
Proof. unfold same_op. now rewrite op_of_rename. Qed.
Lemma show_rename b e : simple e = true -> forall h, show op_text (Handle b) h e = show op_text Plain h (rename (var_handle b) e).
Proof.
  induction e as [v|o a IHa|o a IHa c IHc|a IHa c IHc|c IHc a IHa d IHd|w a IHa]; cbn [simple rename show]; intros S h; trivial.
  - rewrite IHa by trivial. now rewrite same_op_rename.
  - apply andb_prop in S. destruct S as [SA SB]. now rewrite IHa, IHc, !same_op_rename by trivial.
  - apply andb_prop in S. destruct S as [SA SB]. now rewrite IHa, IHc by trivial.
  - apply andb_prop in S. destruct S as [S SB]. apply andb_prop in S. destruct S as [SC SA].
    destruct c; try discriminate. cbn [rename show is_var negb par obind leaf v_name]. now rewrite IHa, IHd by trivial.
  - discriminate.
Qed.
(* C329 *)
Theorem C329_expressions b e : simple e = true -> handle_name op_text b e = to_string op_text (rename (var_handle b) e).
Proof. intros S. now apply show_rename. Qed.
Theorem C329_no_failure b e : simple e = true -> exists t, handle_name op_text b e = Ok t.
Proof.
  unfold handle_name. generalize Virtual. induction e as [v|o a IHa|o a IHa c IHc|a IHa c IHc|c IHc a IHa d IHd|w a IHa]; cbn [simple show]; intros h S; try discriminate.
  - now eexists.
  - destruct (IHa (Sub (same_op o a)) S) as [t ->]. now eexists.
  - apply andb_prop in S. destruct S as [SA SB]. destruct (IHa (Sub (same_op o a)) SA) as [t ->]. destruct (IHc (Sub (same_op o c)) SB) as [u ->]. now eexists.
  - apply andb_prop in S. destruct S as [SA SB]. destruct (IHa Virtual SA) as [t ->]. destruct (IHc Virtual SB) as [u ->]. now eexists.
  - apply andb_prop in S. destruct S as [S SB]. apply andb_prop in S. destruct S as [SC SA].
    destruct c; try discriminate. destruct (IHa Virtual SA) as [t ->]. destruct (IHd Virtual SB) as [u ->]. now eexists.
Qed.
(* C330: extensions *)
Theorem C330_extension_refuted w a b : handle_name op_text b (EExt w a) = UB.
Proof. reflexivity. Qed.
(* C331: different expressions have different texts *)
Theorem C331_condition_refuted x y z b c : exists t,
  handle_name op_text false (ECond (ECond (EVar x) (EVar y) (EVar z)) (EVar b) (EVar c)) = Ok t /\
  handle_name op_text false (ECond (EVar x) (EVar y) (ECond (EVar z) (EVar b) (EVar c))) = Ok t.
Proof.
  eexists. split; [reflexivity|]. unfold handle_name, show. cbn [obind par leaf is_var negb]. f_equal.
  rewrite <- !app_assoc. reflexivity.
Qed.

(* C332 *)
Theorem C332_in_scope scope e : scope <> [] -> Forall (fun v => plain_var v /\ v_path v = scope) (vars e) ->
  no_operator e = true \/ op_of e <> None -> scope_name op_text scope e = to_string op_text e.
Proof.
  intros NS F K.
  assert (NO : forall e, Forall (fun v => plain_var v /\ v_path v = scope) (vars e) -> no_operator e = true -> scope_name op_text scope e = to_string op_text e).
  { clear - NS. induction e as [v|o a IHa|o a IHa c IHc|a IHa c IHc|c IHc a IHa d IHd|w a IHa]; cbn [no_operator vars]; intros F N; try discriminate.
    - inversion F as [|? ? [P B] _]; subst. destruct (C327_from_scope (v_path v) [] v P NS) as [t [R [T _]]]; [unfold below; now rewrite app_nil_r|].
      cbn [scope_name]. rewrite R, T. reflexivity.
    - apply andb_prop in N. destruct N as [NA NB]. apply Forall_app in F. destruct F as [FA FB]. unfold to_string in *. cbn [scope_name show].
      now rewrite IHa, IHc by trivial. }
  destruct K as [K|K]; [now apply NO|]. destruct e; cbn [op_of] in K; try (now destruct K); reflexivity.
Qed.
Theorem C332_names scope rest e : scope <> [] -> no_operator e = true ->
  Forall (fun v => plain_var v /\ below scope v (rest v)) (vars e) ->
  scope_name op_text scope e = to_string op_text (rename (fun v => join (rest v ++ [v_name v])) e).
Proof.
  intros NS. induction e as [v|o a IHa|o a IHa c IHc|a IHa c IHc|c IHc a IHa d IHd|w a IHa]; cbn [no_operator vars]; intros N F; try discriminate.
  - inversion F as [|? ? [P B] _]; subst. destruct (C327_from_scope scope (rest v) v P NS B) as [t [R [T _]]]. cbn. now rewrite R, T.
  - apply andb_prop in N. destruct N as [NA NB]. apply Forall_app in F. destruct F as [FA FB]. unfold to_string in *. cbn [scope_name rename show].
    now rewrite IHa, IHc by trivial.
Qed.
End Text.
Definition plus : nat -> text := fun _ => [43].
Definition vx : var := {| v_path := [top; na]; v_name := nx |}.
Example C329_ex : handle_name plus true (EBin 0 (EVar vx) (EUn 1 (EVar vx))) = Ok [97; 46; 120; 32; 43; 32; 40; 43; 97; 46; 120; 41].
Proof. reflexivity. Qed.
Example C332_ex : scope_name plus [top] (ECat (EVar vx) (EVar vx)) = Ok [123; 97; 46; 120; 44; 32; 97; 46; 120; 125].
Proof. reflexivity. Qed.
(* C333: an expression over instances below the scope *)
Theorem C333_operators_refuted :
  ~ (forall op_text scope rest e, scope <> [] -> Forall (fun v => plain_var v /\ below scope v (rest v)) (vars e) ->
       scope_name op_text scope e = to_string op_text (rename (fun v => join (rest v ++ [v_name v])) e)).
Proof.
  intros H. specialize (H plus [top] (fun _ => [na]) (EUn 0 (EVar vx))).
  assert (E : scope_name plus [top] (EUn 0 (EVar vx)) = Ok (43 :: nx)) by reflexivity. rewrite E in H.
  discriminate H; [discriminate|]. repeat constructor; try discriminate; cbn; unfold dot; lia.
Qed.
Print Assumptions C326_from_top.
Print Assumptions C326_distinct.
Print Assumptions C327_from_scope.
Print Assumptions C328_prefix_refuted.
Print Assumptions C329_expressions.
Print Assumptions C329_no_failure.
Print Assumptions C330_extension_refuted.
Print Assumptions C331_condition_refuted.
Print Assumptions C332_in_scope.
Print Assumptions C332_names.
Print Assumptions C333_operators_refuted.
