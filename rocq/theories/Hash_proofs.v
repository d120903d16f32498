From Verif Require Import Base IR IR_lemmas IRSem_spec Hash_spec Hash_model.
From Coq Require Import Permutation.
Local Open Scope Z_scope.

Lemma lxor_swap : forall a b c, Z.lxor (Z.lxor a b) c = Z.lxor (Z.lxor b a) c.
Proof. intros. now rewrite (Z.lxor_comm a b). Qed.
Lemma blind_e_hash : forall P a b, blind_e a b -> hash_var P a = hash_var P b.
Proof. induction 1; cbn [hash_var]; try congruence; auto using lxor_swap. Qed.

Section unfold.
  Variable P : printer.
  Lemma hash_if : forall L c t f, hash_stmt P L (SIf c t f) =
    olet h := at_level L [Z.lxor (rotl magic 1) (shl (fnv (p_text P c)) L)] in
    olet a := hash_stmts P (L + 2) t in olet b := hash_stmts P (L + 2) f in Ok (h ++ a ++ b).
  Proof. reflexivity. Qed.
  Lemma hash_switch : forall L e cs d, hash_stmt P L (SSwitch e cs d) =
    olet h := at_level L [Z.lxor (rotl magic 2) (shl (fnv (p_text P e)) L)] in
    olet a := hash_cases P L cs in
    olet b := match d with Some b => hash_stmts P (L + 2) b | None => Ok [] end in Ok (h ++ a ++ b).
  Proof.
    intros L e cs d.
    assert ((fix cases (l : list (Z * list stmt)) : outcome (list Z) :=
       match l with [] => Ok [] | c :: r => olet a := hash_stmts P (L + 2) (snd c) in olet b := cases r in Ok (a ++ b) end) cs
       = hash_cases P L cs) as <-.
    { induction cs as [|c r IH]; [reflexivity|]. cbn [hash_cases]. now rewrite <- IH. }
    reflexivity.
  Qed.
  Lemma hash_for : forall L i a b s body, hash_stmt P L (SFor i a b s body) = hash_stmts P (L + 2) body.
  Proof. reflexivity. Qed.
  Lemma hash_block : forall L body, hash_stmt P L (SBlock body) = hash_stmts P (L + 1) body.
  Proof. reflexivity. Qed.
  Lemma hash_stmts_cons : forall L s r, hash_stmts P L (s :: r) = olet a := hash_stmt P L s in olet b := hash_stmts P L r in Ok (a ++ b).
  Proof. reflexivity. Qed.
  Lemma hash_cases_cons : forall L c r, hash_cases P L (c :: r) = olet a := hash_stmts P (L + 2) (snd c) in olet b := hash_cases P L r in Ok (a ++ b).
  Proof. reflexivity. Qed.
  Fixpoint hash_gens (L : Z) (l : list gen) : outcome (list Z) :=
    match l with [] => Ok [] | g :: r => olet a := hash_gen P (L + 1) g in olet b := hash_gens L r in Ok (a ++ b) end.
  Lemma hash_gen_unfold : forall L n v body kids, hash_gen P L (Gen n v body kids) =
    olet a := hash_tops P (L + 1) body in olet b := hash_gens L kids in Ok (a ++ b).
  Proof.
    intros L n v body kids.
    assert ((fix all (l : list gen) : outcome (list Z) :=
       match l with [] => Ok [] | g :: r => olet a := hash_gen P (L + 1) g in olet b := all r in Ok (a ++ b) end) kids
       = hash_gens L kids) as <-.
    { induction kids as [|c r IH]; [reflexivity|]. cbn [hash_gens]. now rewrite <- IH. }
    reflexivity.
  Qed.
End unfold.

Scheme blind_s_min := Minimality for blind_s Sort Prop
  with blind_l_min := Minimality for blind_l Sort Prop
  with blind_c_min := Minimality for blind_c Sort Prop.
Combined Scheme blind_min from blind_s_min, blind_l_min, blind_c_min.
Lemma blind_hash : forall P,
  (forall a b, blind_s a b -> forall L, hash_stmt P L a = hash_stmt P L b) /\
  (forall a b, blind_l a b -> forall L, hash_stmts P L a = hash_stmts P L b) /\
  (forall a b, blind_c a b -> forall L, hash_cases P L a = hash_cases P L b).
Proof.
  intros P. apply blind_min.
  - reflexivity.
  - intros k k' l e e' H L. cbn [hash_stmt]. unfold hash_assign. now rewrite (blind_e_hash P e e' H).
  - intros c t t' f f' _ H1 _ H2 L. rewrite !hash_if. now rewrite H1, H2.
  - intros e cs cs' _ H L. rewrite !hash_switch. now rewrite H.
  - intros e cs cs' d d' _ H _ H2 L. rewrite !hash_switch. now rewrite H, H2.
  - intros. rewrite !hash_for. auto.
  - intros. rewrite !hash_block. auto.
  - reflexivity.
  - intros s s' l l' _ H1 _ H2 L. rewrite !hash_stmts_cons. now rewrite H1, H2.
  - reflexivity.
  - intros v v' b b' l l' _ H1 _ H2 L. rewrite !hash_cases_cons. cbn [snd]. now rewrite H1, H2.
Qed.
Lemma blind_top_hash : forall P a b, blind_t a b -> forall L, hash_top P L a = hash_top P L b.
Proof.
  intros P a b H L. destruct (blind_hash P) as (_ & BL & _). destruct H; cbn [hash_top]; try reflexivity.
  - unfold hash_assign. now rewrite (blind_e_hash P e e' H).
  - now rewrite (BL _ _ H).
  - now rewrite (BL _ _ H).
  - now rewrite (BL _ _ H).
Qed.
Lemma blind_tops_hash : forall P a b, Forall2 blind_t a b -> forall L, hash_tops P L a = hash_tops P L b.
Proof. induction 1; intros L; cbn [hash_tops]; [reflexivity|]. now rewrite (blind_top_hash P _ _ H), IHForall2. Qed.

(* ---- copies ---- *)
Section copy.
  Variables (P P' : printer) (f : var -> var).
  Hypothesis Ht : forall e, p_text P' (ren_e f e) = p_text P e.
  Hypothesis Hw : forall e, p_width P' (ren_e f e) = p_width P e.
  Hypothesis Hlt : forall l, p_ltext P' (ren_l f l) = p_ltext P l.
  Hypothesis Hlw : forall l, p_lwidth P' (ren_l f l) = p_lwidth P l.
  Lemma copy_expr : forall e, hash_var P' (ren_e f e) = hash_var P e.
  Proof.
    induction e; cbn [ren_e hash_var]; try congruence.
    - rewrite <- (Ht (EVar x)), <- (Hw (EVar x)). reflexivity.
    - rewrite <- (Ht (ESlice e hi lo)), <- (Hw (ESlice e hi lo)). reflexivity.
  Qed.
  Lemma copy_assign : forall L l e, hash_assign P' L (ren_l f l) (ren_e f e) = hash_assign P L l e.
  Proof. intros. unfold hash_assign, hash_lhs. now rewrite copy_expr, Hlt, Hlw. Qed.
  Lemma copy_list : forall l, Forall (fun s => forall L, hash_stmt P' L (ren_s f s) = hash_stmt P L s) l ->
    forall L, hash_stmts P' L (map (ren_s f) l) = hash_stmts P L l.
  Proof. induction 1; intros L; [reflexivity|]. cbn [map]. rewrite !hash_stmts_cons, H, IHForall. reflexivity. Qed.
  Lemma copy_stmt : forall s L, hash_stmt P' L (ren_s f s) = hash_stmt P L s.
  Proof.
    induction s using stmt_ind'; intros L; cbn [ren_s].
    - apply copy_assign.
    - rewrite !hash_if, Ht, !copy_list by assumption. reflexivity.
    - rewrite !hash_switch, Ht.
      assert (hash_cases P' L (map (fun c => (fst c, map (ren_s f) (snd c))) cs) = hash_cases P L cs) as ->.
      { clear H0. induction H as [|c r Hc _ IH]; [reflexivity|]. cbn [map]. rewrite !hash_cases_cons. cbn [snd].
        rewrite copy_list by assumption. now rewrite IH. }
      destruct d as [b|]; [|reflexivity]. now rewrite (copy_list b (H0 b eq_refl)).
    - rewrite !hash_for. now apply copy_list.
    - rewrite !hash_block. now apply copy_list.
    - reflexivity.
    - reflexivity.
    - reflexivity.
  Qed.
  Lemma copy_stmts : forall l L, hash_stmts P' L (map (ren_s f) l) = hash_stmts P L l.
  Proof. intros. apply copy_list. apply Forall_forall. intros s _. apply copy_stmt. Qed.
  Lemma copy_events : forall evs, event_text P' (map (fun v => (fst v, f (snd v))) evs) = event_text P evs.
  Proof.
    induction evs as [|[p x] r IH]; [reflexivity|]. cbn [map event_text fst snd].
    rewrite IH. change (EVar (f x)) with (ren_e f (EVar x)). now rewrite Ht.
  Qed.
  Lemma copy_tops : forall l L, hash_tops P' L (map (ren_t f) l) = hash_tops P L l.
  Proof.
    induction l as [|t r IH]; intros L; [reflexivity|]. cbn [map hash_tops].
    assert (hash_top P' L (ren_t f t) = hash_top P L t) as ->.
    { destruct t; cbn [ren_t hash_top]; rewrite ?copy_stmts, ?copy_events; auto using copy_assign. }
    now rewrite IH.
  Qed.
  Scheme copy_min := Minimality for copy_of Sort Prop
    with copies_min := Minimality for copies_of Sort Prop.
  Combined Scheme copying from copy_min, copies_min.
  Lemma copy_gens :
    (forall a b, copy_of f a b -> forall L, hash_gen P' L b = hash_gen P L a) /\
    (forall a b, copies_of f a b -> forall L, hash_gens P' L b = hash_gens P L a).
  Proof.
    apply copying.
    - intros n v v' body kids kids' _ _ IH L. rewrite !hash_gen_unfold, copy_tops, IH. reflexivity.
    - reflexivity.
    - intros g g' l l' _ H1 _ H2 L. cbn [hash_gens]. now rewrite H1, H2.
  Qed.
End copy.
Lemma xor_perm : forall a b, Permutation a b -> forall h,
  fold_left (fun h v => Z.lxor h (fnv v)) a h = fold_left (fun h v => Z.lxor h (fnv v)) b h.
Proof.
  induction 1; intros h; cbn [fold_left]; auto.
  - f_equal. rewrite !Z.lxor_assoc. f_equal. apply Z.lxor_comm.
  - now rewrite IHPermutation1.
Qed.

(* ---- nesting ---- *)
Fixpoint nest (n : nat) (c : expr) (s : stmt) : stmt :=
  match n with O => s | S k => SIf c [nest k c s] [] end.
Lemma nest_ub : forall P n c s L, (forall L, 64 <= L -> hash_stmt P L s = UB) ->
  64 <= L + 2 * Z.of_nat n -> hash_stmt P L (nest n c s) = UB.
Proof.
  induction n as [|n IH]; intros c s L H B; cbn [nest]; [apply H; lia|].
  rewrite hash_if. unfold at_level. destruct (64 <=? L); [reflexivity|]. cbn [obind].
  rewrite hash_stmts_cons, (IH c s (L + 2)); [reflexivity|assumption|lia].
Qed.
