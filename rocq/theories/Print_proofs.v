From Verif Require Import Base SV_spec IR IRSem_spec IR_lemmas Print_spec Print_model.
Local Open Scope nat_scope.

(* more fuel never changes a result *)
Lemma parse_S n : forall m ts x, parse n m ts = Some x -> parse (S n) m ts = Some x.
Proof.
  induction n as [|n IH]; intros m ts x H; [discriminate|].
  cbn [parse] in H. destruct m.
  - change (parse (S (S n)) MTop ts) with
      (match parse (S n) (MBin 0) ts with
          | Some (c, TQ :: r) =>
              match parse (S n) MTop r with
              | Some (a, TColon :: r') =>
                  match parse (S n) MTop r' with
                  | Some (b, r'') => Some (ECond c a b, r'')
                  | None => None
                  end
              | _ => None
              end
          | x => x
          end).
    destruct (parse n (MBin 0) ts) as [[c r]|] eqn:E; [|discriminate].
    rewrite (IH _ _ _ E). destruct r as [|[] r]; auto.
    destruct (parse n MTop r) as [[a r2]|] eqn:E2; [|discriminate].
    rewrite (IH _ _ _ E2). destruct r2 as [|[] r2]; auto.
    destruct (parse n MTop r2) as [[b r3]|] eqn:E3; [|discriminate].
    now rewrite (IH _ _ _ E3).
  - change (parse (S (S n)) (MBin p) ts) with
      (match parse (S n) MUn ts with
          | Some (a, r) => parse (S n) (MLoop p a) r
          | None => None
          end).
    destruct (parse n MUn ts) as [[a r]|] eqn:E; [|discriminate].
    rewrite (IH _ _ _ E). now apply IH.
  - destruct ts as [|[] r]; try exact H.
    change (parse (S (S n)) (MLoop p a) (TSym s :: r)) with
      (match infix s with
              | Some (q, op) =>
                  if Nat.leb p q then
                    match parse (S n) (MBin (S q)) r with
                    | Some (b, r') => parse (S n) (MLoop p (EBin op a b)) r'
                    | None => None
                    end
                  else Some (a, TSym s :: r)
              | None => Some (a, TSym s :: r)
              end).
    destruct (infix s) as [[q op]|]; auto. destruct (Nat.leb p q); auto.
    destruct (parse n (MBin (S q)) r) as [[b r2]|] eqn:E; [|discriminate].
    rewrite (IH _ _ _ E). now apply IH.
  - destruct ts as [|[] r]; try exact H.
    + change (parse (S (S n)) MUn (TSym s :: r)) with
        (match prefix s with
              | Some op =>
                  match parse (S n) MUn r with
                  | Some (a, r') => Some (EUn op a, r')
                  | None => None
                  end
              | None => None
              end).
      destruct (prefix s); auto. destruct (parse n MUn r) as [[a r2]|] eqn:E; [|discriminate].
      now rewrite (IH _ _ _ E).
    + change (parse (S (S n)) MUn (TLP :: r)) with
        (match parse (S n) MTop r with
              | Some (e, TRP :: r') => Some (e, r')
              | _ => None
              end).
      destruct (parse n MTop r) as [[a r2]|] eqn:E; [|discriminate].
      rewrite (IH _ _ _ E). exact H.
Qed.
Lemma parse_mono n k m ts x : parse n m ts = Some x -> n <= k -> parse k m ts = Some x.
Proof. intros H. induction 1; auto using parse_S. Qed.

Definition goes (m : mode) (ts : list tok) (x : expr * list tok) : Prop := exists n, parse n m ts = Some x.
Lemma goes_fun m ts x y : goes m ts x -> goes m ts y -> x = y.
Proof.
  intros [n Hn] [k Hk]. pose proof (parse_mono n (n + k) m ts x Hn ltac:(lia)).
  pose proof (parse_mono k (n + k) m ts y Hk ltac:(lia)). congruence.
Qed.
Lemma reads_fun ts a b : reads ts a -> reads ts b -> a = b.
Proof. intros H K. enough ((a, @nil tok) = (b, @nil tok)) by congruence. eapply goes_fun; eassumption. Qed.

(* the rules *)
Lemma goes_top ts c r : goes (MBin 0) ts (c, r) -> (forall r', r <> TQ :: r') -> goes MTop ts (c, r).
Proof.
  intros [n H] K. exists (S n). cbn [parse]. rewrite H. destruct r as [|[] r]; auto. now edestruct K.
Qed.
Lemma goes_cond ts c r a r' b r'' : goes (MBin 0) ts (c, TQ :: r) -> goes MTop r (a, TColon :: r') ->
  goes MTop r' (b, r'') -> goes MTop ts (ECond c a b, r'').
Proof.
  intros [n1 H1] [n2 H2] [n3 H3]. exists (S (n1 + n2 + n3)). cbn [parse].
  rewrite (parse_mono _ (n1 + n2 + n3) _ _ _ H1), (parse_mono _ (n1 + n2 + n3) _ _ _ H2),
    (parse_mono _ (n1 + n2 + n3) _ _ _ H3) by lia. reflexivity.
Qed.
Lemma goes_bin p ts a r x : goes MUn ts (a, r) -> goes (MLoop p a) r x -> goes (MBin p) ts x.
Proof.
  intros [n1 H1] [n2 H2]. exists (S (n1 + n2)). cbn [parse].
  rewrite (parse_mono _ (n1 + n2) _ _ _ H1) by lia. eapply parse_mono; [exact H2|lia].
Qed.
Lemma goes_step p a s q op r b r' x : infix s = Some (q, op) -> p <= q ->
  goes (MBin (S q)) r (b, r') -> goes (MLoop p (EBin op a b)) r' x -> goes (MLoop p a) (TSym s :: r) x.
Proof.
  intros I L [n1 H1] [n2 H2]. exists (S (n1 + n2)). cbn [parse]. rewrite I.
  apply Nat.leb_le in L. rewrite L.
  rewrite (parse_mono _ (n1 + n2) _ _ _ H1) by lia. eapply parse_mono; [exact H2|lia].
Qed.
Definition ends (p : nat) (ts : list tok) : Prop :=
  match ts with
  | TSym s :: _ => match infix s with Some (q, _) => q < p | None => True end
  | _ => True
  end.
Lemma goes_end p a r : ends p r -> goes (MLoop p a) r (a, r).
Proof.
  intros H. exists 1. cbn [parse]. destruct r as [|[] r]; auto. cbn in H.
  destruct (infix s) as [[q op]|]; auto. destruct (Nat.leb_spec p q); auto; lia.
Qed.
Lemma goes_atom e r : goes MUn (TAtom e :: r) (e, r).
Proof. exists 1. reflexivity. Qed.
Lemma goes_paren ts e r : goes MTop (ts ++ TRP :: r) (e, TRP :: r) ->
  goes MUn (paren ts ++ r) (e, r).
Proof.
  intros [n H]. exists (S n). unfold paren. cbn [app parse]. rewrite <- app_assoc. cbn [app].
  now rewrite H.
Qed.
Lemma goes_prefix s op r a r' : prefix s = Some op -> goes MUn r (a, r') ->
  goes MUn (TSym s :: r) (EUn op a, r').
Proof. intros P [n H]. exists (S n). cbn [parse]. now rewrite P, H. Qed.

(* symbols of operators *)
Definition canon (op : expr_op) : expr_op := match op with Minus => UMinus | _ => op end.
Lemma unary_sym op : unary_op op = true ->
  exists s, sym_tok op = [TSym s] /\ prefix s = Some (canon op).
Proof. destruct op; try discriminate; intros _; cbn; eauto. Qed.
Lemma binary_sym op : binary_op op = true ->
  exists s q, sym_tok op = [TSym s] /\ infix s = Some (q, op).
Proof. destruct op; try discriminate; intros _; cbn; do 2 eexists; split; reflexivity. Qed.

Section V.
  Variable G : tenv.
  Local Notation eqv := (same_value G).
  Lemma eqv_refl a : eqv a a. Proof. repeat split. Qed.
  Lemma eqv_trans a b c : eqv a b -> eqv b c -> eqv a c.
  Proof. intros (A & B & C) (A' & B' & C'). repeat split; congruence. Qed.
  Lemma eqv_un op a a' : eqv a a' -> eqv (EUn op a) (EUn op a').
  Proof. intros (A & B & C). split; [|split]; cbn; intros; now rewrite ?A, ?B, ?C. Qed.
  Lemma eqv_canon op a : eqv (EUn (canon op) a) (EUn op a).
  Proof. split; [|split]; destruct op; reflexivity. Qed.
  Lemma eqv_bin op a a' b b' : eqv a a' -> eqv b b' -> eqv (EBin op a b) (EBin op a' b').
  Proof.
    intros (A & B & C) (A' & B' & C'). split; [|split]; cbn; intros; now rewrite ?A, ?B, ?C, ?A', ?B', ?C'.
  Qed.
  Lemma eqv_cond c c' a a' b b' : eqv c c' -> eqv a a' -> eqv b b' -> eqv (ECond c a b) (ECond c' a' b').
  Proof.
    intros (A & _ & _) (A' & B' & C') (A'' & _ & C''). split; [|split]; cbn; intros; now rewrite ?A, ?A', ?B', ?C', ?A'', ?C''.
  Qed.

  Local Open Scope Z_scope.
  Lemma num_mod s w v : 0 < w -> num s w v mod 2 ^ w = v mod 2 ^ w.
  Proof.
    intros H. destruct s; [|reflexivity]. cbn. unfold sval. destruct (v <? 2 ^ (w - 1)); [reflexivity|].
    rewrite Zminus_mod, Z_mod_same_full, Z.sub_0_r. now rewrite Z.mod_mod by (apply Z.pow_nonzero; lia).
  Qed.
  Lemma add_bits s w l r : 0 < w -> sv_bin Add s w l r = (l + r) mod 2 ^ w.
  Proof. intros H. cbn. unfold enc. rewrite Zplus_mod, !num_mod, <- Zplus_mod by auto. reflexivity. Qed.
  Lemma mul_bits s w l r : 0 < w -> sv_bin Multiply s w l r = (l * r) mod 2 ^ w.
  Proof. intros H. cbn. unfold enc. rewrite Zmult_mod, !num_mod, <- Zmult_mod by auto. reflexivity. Qed.
  Lemma bz_test b : negb (bz b =? 0) = b. Proof. now destruct b. Qed.

  (* enough typing to regroup *)
  Definition compat (op : expr_op) (a b : expr) : Prop :=
    0 < ewidth G a /\ (is_rel op = false -> ewidth G a = ewidth G b).
  Lemma eqv_assoc op a b c : associative op = true -> compat op a b ->
    eqv (EBin op (EBin op a b) c) (EBin op a (EBin op b c)).
  Proof.
    intros A (Pa & E).
    split; [|split; [cbn; destruct (is_rel op); reflexivity|cbn; destruct op; try discriminate A; cbn; try reflexivity; symmetry; apply andb_assoc]].
    intros r.
    cbn [ev ewidth]. destruct op; try discriminate A; cbn [is_rel] in *; cbn [esigned].
    - specialize (E eq_refl). rewrite <- E. rewrite !add_bits by auto.
      rewrite Zplus_mod_idemp_l, Zplus_mod_idemp_r. f_equal. ring.
    - specialize (E eq_refl). rewrite <- E. rewrite !mul_bits by auto.
      rewrite Zmult_mod_idemp_l, Zmult_mod_idemp_r. f_equal. ring.
    - cbn. symmetry. apply Z.lor_assoc.
    - cbn. symmetry. apply Z.land_assoc.
    - cbn. apply Z.lxor_assoc.
    - cbn [sv_bin]. rewrite !bz_test. now rewrite andb_assoc.
    - cbn [sv_bin]. rewrite !bz_test. now rewrite orb_assoc.
  Qed.

  Local Open Scope nat_scope.
  Definition stopper (ts : list tok) : Prop :=
    match ts with [] => True | TRP :: _ => True | TColon :: _ => True | _ => False end.
  Lemma stopper_ends p r : stopper r -> ends p r.
  Proof. destruct r as [|[] r]; cbn; tauto. Qed.
  Lemma stopper_q r r' : stopper r -> r <> TQ :: r'.
  Proof. destruct r as [|[] r]; cbn; congruence || tauto. Qed.

  (* the operand of an operator, as text t: read as one operand *)
  Definition operand (t : list tok) (e : expr) : Prop :=
    exists e', eqv e' e /\ forall rest, goes MUn (t ++ rest) (e', rest).
  Definition starts (q : nat) (t : list tok) (e : expr) : Prop :=
    exists e', eqv e' e /\ forall rest p x, p <= q -> ends (S q) rest ->
      goes (MLoop p e') rest x -> goes (MBin p) (t ++ rest) x.
  Definition continues (s : sym) (q : nat) (op : expr_op) (t : list tok) (e : expr) : Prop :=
    forall acc, compat op acc e ->
      exists e', eqv e' (EBin op acc e) /\ forall rest p x, p <= q -> ends (S q) rest ->
        goes (MLoop p e') rest x -> goes (MLoop p acc) (TSym s :: t ++ rest) x.
  Definition whole (t : list tok) (e : expr) : Prop :=
    exists e', eqv e' e /\ forall rest, stopper rest -> goes MTop (t ++ rest) (e', rest).

  Lemma operand_starts q t e : operand t e -> starts q t e.
  Proof.
    intros (e' & V & H). exists e'. split; auto. intros rest p x L E K.
    eapply goes_bin; [apply H|exact K].
  Qed.
  Lemma operand_continues s q op t e : infix s = Some (q, op) -> operand t e -> continues s q op t e.
  Proof.
    intros I (e' & V & H) acc _. exists (EBin op acc e'). split; [apply eqv_bin; auto using eqv_refl|].
    intros rest p x L E K. eapply goes_step; [exact I|exact L| |exact K].
    eapply goes_bin; [apply H|]. now apply goes_end.
  Qed.
  Lemma starts_whole q t e : starts q t e -> whole t e.
  Proof.
    intros (e' & V & H). exists e'. split; auto. intros rest S. apply goes_top.
    - apply H; [lia|now apply stopper_ends|]. apply goes_end. now apply stopper_ends.
    - intros r'. now apply stopper_q.
  Qed.
  Lemma whole_paren t e : whole t e -> operand (paren t) e.
  Proof.
    intros (e' & V & H). exists e'. split; auto. intros rest. apply goes_paren. apply H. exact I.
  Qed.
  (* the text of a left operand followed by that of a right operand *)
  Lemma chain_starts s q op ta tb a b : starts q ta a -> continues s q op tb b ->
    infix s = Some (q, op) -> compat op a b -> starts q (ta ++ [TSym s] ++ tb) (EBin op a b).
  Proof.
    intros (a' & Va & Ha) Hb I C.
    destruct (Hb a') as (r & Vr & Hr).
    { destruct C as [C1 C2], Va as (_ & W & _). split; [now rewrite W|]. intros R. now rewrite W, C2. }
    exists r. split; [eapply eqv_trans; [exact Vr|]; apply eqv_bin; auto using eqv_refl|].
    intros rest p x L E K. rewrite <- app_assoc. apply Ha; auto.
    { cbn. rewrite I. lia. }
    cbn [app]. apply Hr; auto.
  Qed.
  Lemma chain_continues s q op ta tb a b : associative op = true ->
    continues s q op ta a -> continues s q op tb b -> infix s = Some (q, op) -> compat op a b ->
    continues s q op (ta ++ [TSym s] ++ tb) (EBin op a b).
  Proof.
    intros As Ha Hb I C acc Cacc.
    assert (compat op acc a) as Ca.
    { destruct Cacc as [C1 C2]. split; auto. intros R. rewrite C2 by auto. cbn. now rewrite R. }
    destruct (Ha acc Ca) as (r1 & V1 & H1).
    destruct (Hb r1) as (r2 & V2 & H2).
    { destruct V1 as (_ & W & _). cbn in W. destruct C as [C1 C2], Ca as [C3 C4].
      split; rewrite W; destruct (is_rel op) eqn:R; try lia; try congruence. }
    exists r2. split.
    - eapply eqv_trans; [exact V2|]. eapply eqv_trans; [apply eqv_bin; [exact V1|apply eqv_refl]|].
      now apply eqv_assoc.
    - intros rest p x L E K. rewrite <- app_assoc. apply H1; auto.
      { cbn. rewrite I. lia. }
      cbn [app]. apply H2; auto.
  Qed.

  Definition good (e : expr) : Prop :=
    operand (expr_to_string false e) e /\ whole (expr_to_string true e) e /\
    match e with
    | EUn op a => operand (expr_to_string true e) e
    | EBin op a b => forall s q, infix s = Some (q, op) ->
        starts q (expr_to_string true e) e /\
        (associative op = true -> continues s q op (expr_to_string true e) e)
    | _ => True
    end.

  Lemma operand_atom e : operand [TAtom e] e.
  Proof. exists e. split; [apply eqv_refl|]. intros. apply goes_atom. Qed.
  Lemma good_atom e : (forall t, expr_to_string t e = [TAtom e]) ->
    match e with EUn _ _ | EBin _ _ _ => False | _ => True end -> good e.
  Proof.
    intros T M. unfold good. rewrite !T. split; [apply operand_atom|]. split.
    - eapply (starts_whole 0), operand_starts, operand_atom.
    - destruct e; tauto.
  Qed.

  (* an operand whose text is that of an operator's left or right child, when it is not an
     application of the same binary operator *)
  Lemma child_operand op a : good a ->
    match a with EBin op' _ _ => op' <> op | _ => True end ->
    operand (expr_to_string (same_op op a) a) a.
  Proof.
    intros (H1 & H2 & H3) N. destruct a; cbn [same_op]; try exact H1.
    - destruct (expr_op_eqb op op0); auto.
    - destruct (expr_op_eqb op op0) eqn:E; auto. apply expr_op_eqb_eq in E. congruence.
  Qed.
  Lemma child_starts s q op a : good a -> infix s = Some (q, op) ->
    starts q (expr_to_string (same_op op a) a) a.
  Proof.
    intros H I. destruct a as [| | |op' x y| | | |]; try (apply operand_starts, child_operand; [exact H|exact Logic.I]).
    destruct (expr_op_eq_dec op' op) as [->|N].
    - cbn [same_op]. rewrite (proj2 (expr_op_eqb_eq op op) eq_refl). apply H with (s := s); auto.
    - apply operand_starts, child_operand; auto.
  Qed.
  Lemma child_continues s q op a : good a -> infix s = Some (q, op) ->
    match a with EBin op' _ _ => op' = op -> associative op = true | _ => True end ->
    continues s q op (expr_to_string (same_op op a) a) a.
  Proof.
    intros H I As. destruct a as [| | |op' x y| | | |];
      try (apply operand_continues; [exact I|apply child_operand; [exact H|exact Logic.I]]).
    destruct (expr_op_eq_dec op' op) as [->|N].
    - cbn [same_op]. rewrite (proj2 (expr_op_eqb_eq op op) eq_refl). apply H; auto.
    - apply operand_continues; auto. apply child_operand; auto.
  Qed.

  Lemma good_all e : plain e -> wt G e -> good e.
  Proof.
    induction e as [x|v w sg|op a IHa|op a IHa b IHb|c IHc a IHa b IHb|a IHa hi lo|a IHa b IHb|a IHa w];
      intros P W; try (apply good_atom; [reflexivity|exact I]).
    - destruct P as (Hop & Pa & N). specialize (IHa Pa W).
      destruct (unary_sym op Hop) as (s & Es & Ps).
      assert (operand (expr_to_string true (EUn op a)) (EUn op a)) as O.
      { cbn [expr_to_string]. rewrite Es. destruct (child_operand op a IHa N) as (a' & Va & Ha).
        exists (EUn (canon op) a'). split; [eapply eqv_trans; [apply eqv_canon|now apply eqv_un]|].
        intros rest. cbn [app]. eapply goes_prefix; [exact Ps|apply Ha]. }
      assert (whole (expr_to_string true (EUn op a)) (EUn op a)) as Wh
        by (eapply (starts_whole 0), operand_starts, O).
      split; [|split]; auto. exact (whole_paren _ _ Wh).
    - destruct P as (Hop & Pa & Pb & As), W as (Wa & Wb & Hw).
      specialize (IHa Pa Wa). specialize (IHb Pb Wb).
      destruct (binary_sym op Hop) as (s0 & q0 & Es & Is).
      assert (forall s q, infix s = Some (q, op) ->
        starts q (expr_to_string true (EBin op a b)) (EBin op a b) /\
        (associative op = true -> continues s q op (expr_to_string true (EBin op a b)) (EBin op a b))) as K.
      { intros s q I.
        assert (s = s0) as -> by (destruct s, s0; cbn in I, Is; congruence || reflexivity).
        assert (q = q0) as -> by congruence.
        cbn [expr_to_string]. rewrite Es. split.
        - destruct (child_starts s0 q0 op a IHa Is) as (a' & Va & Ha).
          destruct (associative op) eqn:Ass.
          + apply chain_starts with (s := s0); [exists a'; split; assumption| |exact Is|].
            * apply child_continues; auto. destruct b; auto.
            * split; [now apply ewidth_pos|]. intros R. destruct Hw as [Hw|Hw]; auto.
              destruct op; discriminate.
          + assert (operand (expr_to_string (same_op op b) b) b) as (b' & Vb & Hb).
            { apply child_operand; auto. destruct b; auto. intros ->. now specialize (As eq_refl). }
            exists (EBin op a' b'). split; [now apply eqv_bin|].
            intros rest p x L E Kx. rewrite <- app_assoc. apply Ha; auto.
            { cbn. rewrite Is. lia. }
            cbn [app]. eapply goes_step; [exact Is|exact L| |exact Kx].
            eapply goes_bin; [apply Hb|]. now apply goes_end.
        - intros Ass. apply chain_continues; [exact Ass| | |exact Is|].
          + apply child_continues; auto. destruct a; auto.
          + apply child_continues; auto.
          + split; [now apply ewidth_pos|]. intros R. destruct Hw as [Hw|Hw]; auto.
            destruct op; discriminate. }
      assert (whole (expr_to_string true (EBin op a b)) (EBin op a b)) as Wh
        by (eapply starts_whole, (K s0 q0 Is)).
      split; [|split]; auto. exact (whole_paren _ _ Wh).
    - destruct P as (Pc & Pa & Pb), W as (Wc & Wa & Wb & _).
      specialize (IHc Pc Wc). specialize (IHa Pa Wa). specialize (IHb Pb Wb).
      assert (operand (if is_expr c then paren (expr_to_string true c) else expr_to_string true c) c)
        as (c' & Vc & Hc).
      { destruct (is_expr c) eqn:E; [apply whole_paren; apply IHc|].
        destruct c; try discriminate; apply operand_atom. }
      destruct IHa as (_ & (a' & Va & Ha) & _). destruct IHb as (_ & (b' & Vb & Hb) & _).
      assert (whole (expr_to_string true (ECond c a b)) (ECond c a b)) as Wh.
      { exists (ECond c' a' b'). split; [now apply eqv_cond|]. intros rest S.
        cbn [expr_to_string]. rewrite <- !app_assoc. cbn [app].
        eapply goes_cond.
        - eapply goes_bin; [apply Hc|]. apply goes_end. exact I.
        - apply Ha. exact I.
        - apply Hb. exact S. }
      split; [|split]; auto. exact (whole_paren _ _ Wh).
  Qed.

  Lemma to_string_reads e : plain e -> wt G e ->
    exists e', reads (to_string e) e' /\ same_value G e' e.
  Proof.
    intros P W. destruct (good_all e P W) as (_ & (e' & V & H) & _). exists e'. split; auto.
    specialize (H [] I). now rewrite app_nil_r in H.
  Qed.
End V.
