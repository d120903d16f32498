(* C164: differences the structural hash does see.  Modules without child modules;
   the statement that differs comes after the last whole group of four, so that the hash is a chain
   of one-to-one steps from its word. *)
From Coq Require Import Ascii.
From Verif Require Import Base IR IRSem_spec Hash_spec Hash_model Hash_proofs Hash_inj.
Local Open Scope Z_scope.

Lemma sapp_assoc : forall a b c, ((a ++ b) ++ c)%string = (a ++ (b ++ c))%string.
Proof. induction a as [|x a IH]; intros b c; [reflexivity|]. cbn. now rewrite IH. Qed.
(* widths are 64-bit numbers *)
Definition widths_fit (P : printer) : Prop := (forall e, 0 <= p_width P e < 2 ^ 64) /\ (forall l, 0 <= p_lwidth P l < 2 ^ 64).

(* another name for the module *)
Theorem C164_module_name : forall P name name' vars body h h',
  one_change name name' -> (count_ts body < 4)%nat ->
  hash_generator P (Gen name vars body []) = Ok h -> hash_generator P (Gen name' vars body []) = Ok h' -> h <> h'.
Proof.
  intros P name name' vars body h h' N C E E'. unfold hash_generator in E, E'. rewrite leaf_words in E, E'.
  destruct (hash_tops P 1 body) as [w| |] eqn:W; try discriminate. cbn [obind seed] in E, E'. apply Ok_inj in E. apply Ok_inj in E'. subst h h'.
  assert (forall l a, in64 a -> in64 (fold_left (fun h v => Z.lxor h (fnv v)) l a)) as K
    by (induction l as [|v l IH]; intros a A; [exact A|]; apply IH, lxor_in; [exact A|apply fnv_in]).
  assert (forall l a b, a <> b -> fold_left (fun h v => Z.lxor h (fnv v)) l a <> fold_left (fun h v => Z.lxor h (fnv v)) l b) as D.
  { induction l as [|v l IH]; intros a b A; [exact A|]. apply IH. intros X. apply lxor_inj_r in X. contradiction. }
  apply xxh_seed; [now rewrite (len_tops P _ _ _ W)|apply K, u64_in|apply K, u64_in|].
  apply D. apply shl_differ; [lia|]. apply one_change_low; [lia|exact N].
Qed.
(* another name for one of its variables *)
Theorem C164_variable_name : forall P name before v v' after body h h',
  one_change v v' -> (count_ts body < 4)%nat ->
  hash_generator P (Gen name (before ++ v :: after) body []) = Ok h ->
  hash_generator P (Gen name (before ++ v' :: after) body []) = Ok h' -> h <> h'.
Proof.
  intros P name before v v' after body h h' N C E E'. unfold hash_generator in E, E'. rewrite leaf_words in E, E'.
  destruct (hash_tops P 1 body) as [w| |] eqn:W; try discriminate. cbn [obind seed] in E, E'. apply Ok_inj in E. apply Ok_inj in E'. subst h h'.
  assert (forall l a, in64 a -> in64 (fold_left (fun h v => Z.lxor h (fnv v)) l a)) as K
    by (induction l as [|x l IH]; intros a A; [exact A|]; apply IH, lxor_in; [exact A|apply fnv_in]).
  assert (forall l a b, a <> b -> fold_left (fun h v => Z.lxor h (fnv v)) l a <> fold_left (fun h v => Z.lxor h (fnv v)) l b) as D.
  { induction l as [|x l IH]; intros a b A; [exact A|]. apply IH. intros X. apply lxor_inj_r in X. contradiction. }
  apply xxh_seed; [now rewrite (len_tops P _ _ _ W)|apply K, u64_in|apply K, u64_in|].
  rewrite !fold_left_app. cbn [fold_left]. apply D. intros X. apply lxor_inj_l in X. revert X. now apply one_change_fnv.
Qed.
(* the edge of one event of a sequential block *)
Theorem C164_clock_edge : forall P name vars pre post before x after b h h',
  in_tail pre (TSeq (before ++ (true, x) :: after) b) post ->
  hash_generator P (Gen name vars (pre ++ TSeq (before ++ (true, x) :: after) b :: post) []) = Ok h ->
  hash_generator P (Gen name vars (pre ++ TSeq (before ++ (false, x) :: after) b :: post) []) = Ok h' -> h <> h'.
Proof.
  intros P name vars pre post before x after b h h' C E E'.
  assert (forall p, event_text P (before ++ (p, x) :: after) = (event_text P before ++ String (if p : bool then "1" else "0")%char (p_text P (EVar x) ++ event_text P after))%string) as Ev.
  { clear E E' C. intros p. induction before as [|[q y] before IH]; [destruct p; reflexivity|]. cbn [app event_text].
    rewrite IH. rewrite !sapp_assoc. reflexivity. }
  destruct (hash_stmts P 2 b) as [w| |] eqn:W.
  - revert E E'. eapply (modules_differ P name vars pre post _ _ [] _ _ w); cbn [hash_top at_level app];
      try (change (1 + 1) with 2; rewrite W; reflexivity); try exact C.
    + apply lxor_in; [apply u64_in|]. split; [discriminate|reflexivity].
    + apply lxor_in; [apply u64_in|]. split; [discriminate|reflexivity].
    + intros X. apply lxor_inj_r in X. revert X. apply shl_differ; [lia|]. rewrite !Ev. apply fnv_one; [lia|discriminate].
  - exfalso. unfold hash_generator in E. rewrite leaf_words, tops_app in E. cbn [hash_tops hash_top at_level] in E. change (1 + 1) with 2 in E.
    rewrite W in E. destruct (hash_tops P 1 pre); discriminate.
  - exfalso. unfold hash_generator in E. rewrite leaf_words, tops_app in E. cbn [hash_tops hash_top at_level] in E. change (1 + 1) with 2 in E.
    rewrite W in E. destruct (hash_tops P 1 pre); discriminate.
Qed.
(* the target of an assignment *)
Theorem C164_target : forall P name vars pre post k l l' e h h', widths_fit P ->
  one_change (p_ltext P l) (p_ltext P l') -> p_lwidth P l = p_lwidth P l' ->
  in_tail pre (TAssign k l e) post ->
  hash_generator P (Gen name vars (pre ++ TAssign k l e :: post) []) = Ok h ->
  hash_generator P (Gen name vars (pre ++ TAssign k l' e :: post) []) = Ok h' -> h <> h'.
Proof.
  intros P name vars pre post k l l' e h h' [We Wl] N EqW C E E'. revert E E'.
  assert (forall l, in64 (Z.lxor (hash_lhs P l) (rotl (hash_var P e) 1))) as I
    by (intros; apply lxor_in; [now apply hash_lhs_in|apply rotl_in; [now apply hash_var_in|lia]]).
  eapply (modules_differ P name vars pre post _ _ [] _ _ []); [reflexivity|reflexivity|apply rotl_in; auto; lia|apply rotl_in; auto; lia| |exact C].
  intros X. apply rotl_inj in X; auto; [|lia]. apply lxor_inj_r in X. unfold hash_lhs in X. rewrite EqW in X. apply lxor_inj_r in X.
  revert X. now apply one_change_fnv.
Qed.
(* the variable assigned from *)
Theorem C164_source : forall P name vars pre post k l x y h h', widths_fit P ->
  one_change (p_text P (EVar x)) (p_text P (EVar y)) -> p_width P (EVar x) = p_width P (EVar y) ->
  in_tail pre (TAssign k l (EVar x)) post ->
  hash_generator P (Gen name vars (pre ++ TAssign k l (EVar x) :: post) []) = Ok h ->
  hash_generator P (Gen name vars (pre ++ TAssign k l (EVar y) :: post) []) = Ok h' -> h <> h'.
Proof.
  intros P name vars pre post k l x y h h' [We Wl] N EqW C E E'. revert E E'.
  assert (forall e, in64 (Z.lxor (hash_lhs P l) (rotl (hash_var P e) 1))) as I
    by (intros; apply lxor_in; [now apply hash_lhs_in|apply rotl_in; [now apply hash_var_in|lia]]).
  eapply (modules_differ P name vars pre post _ _ [] _ _ []); [reflexivity|reflexivity|apply rotl_in; auto; lia|apply rotl_in; auto; lia| |exact C].
  intros X. apply rotl_inj in X; auto; [|lia]. apply lxor_inj_l in X. apply rotl_inj in X; try (apply hash_var_in; assumption); [|lia].
  cbn [hash_var] in X. rewrite EqW in X. apply lxor_inj_r in X. revert X. now apply one_change_fnv.
Qed.
(* the two sides of an assignment between variables, unless the hashes of their names are equal or
   complements *)
Theorem C164_swapped_sides : forall P name vars pre post k x y h h', widths_fit P ->
  p_ltext P (LVar x) = p_text P (EVar x) -> p_ltext P (LVar y) = p_text P (EVar y) ->
  p_lwidth P (LVar x) = p_width P (EVar x) -> p_lwidth P (LVar y) = p_width P (EVar y) -> p_width P (EVar x) = p_width P (EVar y) ->
  fnv (p_text P (EVar x)) <> fnv (p_text P (EVar y)) -> Z.lxor (fnv (p_text P (EVar x))) (fnv (p_text P (EVar y))) <> 2 ^ 64 - 1 ->
  in_tail pre (TAssign k (LVar x) (EVar y)) post ->
  hash_generator P (Gen name vars (pre ++ TAssign k (LVar x) (EVar y) :: post) []) = Ok h ->
  hash_generator P (Gen name vars (pre ++ TAssign k (LVar y) (EVar x) :: post) []) = Ok h' -> h <> h'.
Proof.
  intros P name vars pre post k x y h h' [We Wl] Tx Ty Lx Ly EqW N0 N1 C E E'. revert E E'.
  assert (forall l e, in64 (Z.lxor (hash_lhs P l) (rotl (hash_var P e) 1))) as I
    by (intros; apply lxor_in; [now apply hash_lhs_in|apply rotl_in; [now apply hash_var_in|lia]]).
  eapply (modules_differ P name vars pre post _ _ [] _ _ []); [reflexivity|reflexivity|apply rotl_in; auto; lia|apply rotl_in; auto; lia| |exact C].
  intros X. apply rotl_inj in X; auto; [|lia]. unfold hash_lhs in X. rewrite Tx, Ty, Lx, Ly in X.
  change (Z.lxor (fnv (p_text P (EVar x))) (p_width P (EVar x))) with (hash_var P (EVar x)) in X.
  change (Z.lxor (fnv (p_text P (EVar y))) (p_width P (EVar y))) with (hash_var P (EVar y)) in X.
  assert (in64 (hash_var P (EVar x)) /\ in64 (hash_var P (EVar y))) as [A B] by (split; now apply hash_var_in).
  assert (Z.lxor (hash_var P (EVar x)) (hash_var P (EVar y)) = Z.lxor (fnv (p_text P (EVar x))) (fnv (p_text P (EVar y)))) as R.
  { cbn [hash_var]. rewrite EqW. apply Z.bits_inj'. intros i Hi. rewrite !Z.lxor_spec. now destruct (Z.testbit _ i), (Z.testbit _ i), (Z.testbit _ i). }
  set (a := hash_var P (EVar x)) in *. set (b := hash_var P (EVar y)) in *. rewrite <- R in N1.
  assert (a <> b) as N0' by (intros X2; apply N0; unfold a, b in X2; cbn [hash_var] in X2; rewrite EqW in X2; now apply lxor_inj_r in X2).
  clear N0 R Tx Ty Lx Ly EqW C. clearbody a b.
  (* bit i of a xor b equals bit i-1 *)
  assert (forall i, 0 <= i < 64 -> Z.testbit (Z.lxor a b) ((i + 1) mod 64) = Z.testbit (Z.lxor a b) i) as K.
  { intros i Hi. assert (Z.testbit (Z.lxor a (rotl b 1)) ((i + 1) mod 64) = Z.testbit (Z.lxor b (rotl a 1)) ((i + 1) mod 64)) as Y by now rewrite X.
    rewrite !Z.lxor_spec, !rotl_bit in Y by (auto; lia). rewrite !Z.lxor_spec.
    destruct (Z.testbit a ((i + 1) mod 64)), (Z.testbit b ((i + 1) mod 64)), (Z.testbit a i), (Z.testbit b i); cbn in Y |- *; congruence. }
  assert (forall n : nat, (n < 64)%nat -> Z.testbit (Z.lxor a b) (Z.of_nat n) = Z.testbit (Z.lxor a b) 0) as All.
  { induction n as [|n IH]; intros Hn; [reflexivity|]. rewrite <- IH by lia. rewrite <- (K (Z.of_nat n)) by lia. f_equal. rewrite Z.mod_small by lia. lia. }
  assert (in64 (Z.lxor a b)) as J by now apply lxor_in.
  destruct (Z.testbit (Z.lxor a b) 0) eqn:T0.
  - apply N1. apply Z.bits_inj'. intros i Hi. replace (2 ^ 64 - 1) with (Z.ones 64) by reflexivity.
    destruct (Z_lt_ge_dec i 64) as [H|H].
    + rewrite Z.ones_spec_low by lia. rewrite <- (All (Z.to_nat i)) by lia. f_equal; lia.
    + rewrite Z.ones_spec_high by lia. apply in64_bits; [apply J|exact J|lia].
  - apply N0'. apply Z.lxor_eq. apply Z.bits_inj'. intros i Hi. rewrite Z.bits_0.
    destruct (Z_lt_ge_dec i 64) as [H|H].
    + rewrite <- (All (Z.to_nat i)) by lia. f_equal; lia.
    + apply in64_bits; [apply J|exact J|lia].
Qed.
(* the condition of an if *)
Theorem C164_condition : forall P name vars pre post c c' t f h h',
  one_change (p_text P c) (p_text P c') ->
  in_tail pre (TComb [SIf c t f]) post ->
  hash_generator P (Gen name vars (pre ++ TComb [SIf c t f] :: post) []) = Ok h ->
  hash_generator P (Gen name vars (pre ++ TComb [SIf c' t f] :: post) []) = Ok h' -> h <> h'.
Proof.
  intros P name vars pre post c c' t f h h' N C E E'.
  assert (forall c, hash_top P 1 (TComb [SIf c t f]) =
    olet a := hash_stmts P 4 t in olet b := hash_stmts P 4 f in
    Ok ([shl (rotl magic 3) 1] ++ Z.lxor (rotl magic 1) (shl (fnv (p_text P c)) 2) :: (a ++ b))) as T.
  { intros d. cbn [hash_top at_level obind]. change (1 + 1) with 2. rewrite hash_stmts_cons, hash_if. cbn [at_level obind]. change (2 + 2) with 4.
    destruct (hash_stmts P 4 t) as [a| |]; cbn [obind]; try reflexivity. destruct (hash_stmts P 4 f) as [b| |]; cbn [obind]; try reflexivity.
    change (at_level 2) with (fun h : list Z => Ok h). change (at_level 1) with (fun h : list Z => Ok h). cbn [hash_stmts obind app]. now rewrite app_nil_r. }
  destruct (hash_stmts P 4 t) as [a| |] eqn:Wt; [destruct (hash_stmts P 4 f) as [b| |] eqn:Wf|idtac|idtac].
  - revert E E'. eapply (modules_differ P name vars pre post _ _ [shl (rotl magic 3) 1] _ _ (a ++ b)); [apply T|apply T| | | |exact C].
    + apply lxor_in; [split; [discriminate|reflexivity]|apply u64_in].
    + apply lxor_in; [split; [discriminate|reflexivity]|apply u64_in].
    + intros X. apply lxor_inj_l in X. revert X. apply shl_differ; [lia|]. apply one_change_low; [lia|exact N].
  - exfalso. unfold hash_generator in E. rewrite leaf_words, tops_app in E. cbn [hash_tops] in E. rewrite T in E. destruct (hash_tops P 1 pre); discriminate.
  - exfalso. unfold hash_generator in E. rewrite leaf_words, tops_app in E. cbn [hash_tops] in E. rewrite T in E. destruct (hash_tops P 1 pre); discriminate.
  - exfalso. unfold hash_generator in E. rewrite leaf_words, tops_app in E. cbn [hash_tops] in E. rewrite T in E. destruct (hash_tops P 1 pre); discriminate.
  - exfalso. unfold hash_generator in E. rewrite leaf_words, tops_app in E. cbn [hash_tops] in E. rewrite T in E. destruct (hash_tops P 1 pre); discriminate.
Qed.

Definition nm164 (x : var) : string := (match x with O => "a" | 1%nat => "b" | 2%nat => "clk" | _ => "q" end)%string.
Definition P164 : printer :=
  {| p_text := fun e => match e with EVar x => nm164 x | _ => ""%string end;
     p_ltext := fun l => match l with LVar x => nm164 x | _ => ""%string end; p_lwidth := fun _ => 4; p_width := fun _ => 4 |}.
Definition as164 (x y : var) : top := TAssign Blocking (LVar x) (EVar y).
(* four assignments, then a sequential block and an assignment *)
Definition four164 : list top := [as164 3 0; as164 3 1; as164 0 1; as164 1 0]%nat.
Definition body164 (edge : bool) (x y : var) : list top :=
  four164 ++ TSeq [(edge, 2%nat)] [] :: [as164 x y].
Example C164_ex_edge : exists h h', hash_generator P164 (Gen "m" [] (body164 true 3%nat 0%nat) []) = Ok h /\
  hash_generator P164 (Gen "m" [] (body164 false 3%nat 0%nat) []) = Ok h' /\ h <> h'.
Proof.
  eexists. eexists. split; [vm_compute; reflexivity|]. split; [vm_compute; reflexivity|].
  eapply (C164_clock_edge P164 "m" [] four164 [as164 3%nat 0%nat] [] 2%nat [] []); try (vm_compute; reflexivity).
  exists four164, []. repeat split. cbn. lia.
Qed.
Example C164_ex_one : one_change "adder1" "adder2" /\ one_change (nm164 0%nat) (nm164 1%nat) /\ widths_fit P164.
Proof.
  split; [exists "adder"%string, "1"%char, "2"%char, ""%string; repeat split; discriminate|].
  split; [exists ""%string, "a"%char, "b"%char, ""%string; repeat split; discriminate|].
  split; intros; cbn; lia.
Qed.
Example C164_ex_swap : exists h h', hash_generator P164 (Gen "m" [] (body164 true 3%nat 0%nat) []) = Ok h /\
  hash_generator P164 (Gen "m" [] (body164 true 0%nat 3%nat) []) = Ok h' /\ h <> h'.
Proof.
  eexists. eexists. split; [vm_compute; reflexivity|]. split; [vm_compute; reflexivity|].
  eapply (C164_swapped_sides P164 "m" [] (four164 ++ [TSeq [(true, 2%nat)] []]) [] Blocking 3%nat 0%nat);
    try (vm_compute; reflexivity); try (vm_compute; discriminate).
  - split; intros; cbn; lia.
  - exists four164, [TSeq [(true, 2%nat)] []]. repeat split. cbn. lia.
Qed.
(* a change within a whole group of four is seen too in this module *)
Example C164_ex_group : hash_generator P164 (Gen "m" [] (as164 0%nat 3%nat :: body164 true 3%nat 0%nat) []) <> hash_generator P164 (Gen "m" [] (as164 0%nat 2%nat :: body164 true 3%nat 0%nat) []).
Proof. vm_compute. discriminate. Qed.
Print Assumptions C164_module_name.
Print Assumptions C164_variable_name.
Print Assumptions C164_clock_edge.
Print Assumptions C164_target.
Print Assumptions C164_source.
Print Assumptions C164_swapped_sides.
Print Assumptions C164_condition.
