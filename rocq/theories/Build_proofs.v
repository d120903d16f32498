From Verif Require Import Base SV_spec IR IRSem_spec IR_lemmas Build_spec Const_model Const_spec Sim_model Build_model.
Local Open Scope Z_scope.

Lemma num_mod' : forall s w v, 0 < w -> num s w v mod 2 ^ w = v mod 2 ^ w.
Proof.
  intros s w v P. destruct s; [|reflexivity]. cbn. unfold sval. destruct (v <? 2 ^ (w - 1)); [reflexivity|].
  rewrite Zminus_mod, Z_mod_same_full, Z.sub_0_r. now rewrite Z.mod_mod by (apply Z.pow_nonzero; lia).
Qed.
Lemma widen_same : forall S w v, 0 < w -> 0 <= v < 2 ^ w -> widen S w w v = v.
Proof. intros S w v P F. unfold widen, enc. rewrite num_mod' by exact P. now apply Z.mod_small. Qed.
(* the operations that do not look at signs *)
Definition sign_free (op : expr_op) : bool := match op with Divide | Mod | SignedShiftRight | Power | LessThan | LessEqThan | GreaterThan | GreaterEqThan => false | _ => true end.
Lemma sv_bin_sign : forall op s s' w l r, sign_free op = true -> 0 < w -> sv_bin op s w l r = sv_bin op s' w l r.
Proof.
  intros op s s' w l r A P. destruct op; try discriminate A; cbn [sv_bin]; try reflexivity; unfold enc.
  - now rewrite Zplus_mod, !num_mod', <- Zplus_mod, (Zplus_mod (num s' w l)), !num_mod', <- Zplus_mod by exact P.
  - now rewrite Zminus_mod, !num_mod', <- Zminus_mod, (Zminus_mod (num s' w l)), !num_mod', <- Zminus_mod by exact P.
  - now rewrite Zmult_mod, !num_mod', <- Zmult_mod, (Zmult_mod (num s' w l)), !num_mod', <- Zmult_mod by exact P.
Qed.
Section Ctx.
  Variable G : tenv.
  Lemma cwidth_ewidth : forall e, wt G e -> cwidth G e = ewidth G e.
  Proof.
    induction e; cbn [wt cwidth ewidth]; intros W; try reflexivity.
    - now rewrite IHe.
    - destruct W as (Wa & Wb & E). rewrite IHe1, IHe2 by assumption. destruct (is_rel op); [reflexivity|]. destruct (is_shift op); [reflexivity|]. destruct E as [E|E]; [discriminate|]. destruct op; try reflexivity; lia.
    - destruct W as (_ & Wa & Wb & _ & E). rewrite IHe2, IHe3 by assumption. lia.
    - destruct W as (Wa & Wb). now rewrite IHe1, IHe2.
  Qed.
  Lemma one_bit : forall op w l r s, is_rel op = true -> 0 <= sv_bin op s w l r < 2 ^ 1.
  Proof. intros op w l r s R. change (2 ^ 1) with 2. destruct op; try discriminate R; cbn [sv_bin]; apply bz_range. Qed.
  Lemma one_bit_un : forall op w v, is_red op = true -> 0 <= sv_un op w v < 2 ^ 1.
  Proof. intros op w v R. change (2 ^ 1) with 2. destruct op; try discriminate R; cbn [sv_un]; apply bz_range. Qed.
  Lemma cev_ev : forall r e S, wt G e -> one_sign G S e -> cev G r (ewidth G e) S e = ev G r e.
  Proof.
    intros r. induction e as [x|v w s|op a IHa|op a IHa b IHb|c IHc a IHa b IHb|a IHa hi lo|a IHa b IHb|a IHa w]; intros S W O; pose proof (ev_fits G r _ W) as F; pose proof (ewidth_pos G _ W) as P.
    - cbn [cev ev ewidth] in *. now apply widen_same.
    - cbn [cev ev ewidth] in *. now apply widen_same.
    - cbn [wt one_sign cev ev] in *. cbn [ewidth] in *. destruct (is_red op) eqn:R.
      + rewrite (cwidth_ewidth a W), (IHa _ W O). apply widen_same; [lia|]. now apply one_bit_un.
      + now rewrite (IHa S W O).
    - cbn [wt] in W. destruct W as (Wa & Wb & E). pose proof (ewidth_pos G _ Wa) as Pa. cbn [cev ev one_sign ewidth] in *. rewrite (cwidth_ewidth a Wa), (cwidth_ewidth b Wb).
      destruct op; cbn [is_rel is_shift sign_free] in *; try contradiction;
      try (destruct E as [E|E]; [discriminate E|]); cbv zeta in *;
      try (rewrite <- E, Z.max_id in * );
      try (destruct O as [Oa Ob]; rewrite (IHa _ Wa Oa); first [rewrite E, (IHb _ Wb Ob), <- E|rewrite (IHb _ Wb Ob)]).
      all: try (apply sv_bin_sign; [reflexivity|exact Pa]).
      all: try (apply widen_same; [lia|]; now apply one_bit).
      all: try reflexivity.
      all: destruct O as (Oa & Ob & Sg); rewrite (IHa _ Wa Oa); first [rewrite E, (IHb _ Wb Ob), <- E|rewrite (IHb _ Wb Ob)]; unfold sign2; cbn [is_shift]; now rewrite Sg.
    - cbn [wt one_sign] in W, O. destruct W as (Wc & Wa & Wb & Ec & E). destruct O as (Oc & Oa & Ob). cbn [cev ev ewidth]. rewrite (cwidth_ewidth c Wc), (IHc _ Wc Oc), (IHa _ Wa Oa). now rewrite E, (IHb _ Wb Ob).
    - cbn [wt one_sign cev ev ewidth] in *. destruct W as (Wa & L & Hh). rewrite (cwidth_ewidth a Wa), (IHa _ Wa O). apply widen_same; [lia|]. exact F.
    - cbn [wt one_sign cev ev ewidth] in *. destruct W as (Wa & Wb). destruct O as (Oa & Ob). rewrite (cwidth_ewidth a Wa), (cwidth_ewidth b Wb), (IHa _ Wa Oa), (IHb _ Wb Ob). now apply widen_same.
    - cbn [wt one_sign cev ev ewidth] in *. destruct W as (Wa & L). rewrite (cwidth_ewidth a Wa), (IHa _ Wa O). now apply widen_same.
  Qed.
  Lemma unsigned_esigned : forall e, unsigned_leaves G e -> esigned G e = false.
  Proof.
    induction e; cbn [unsigned_leaves esigned]; intros U; try assumption; try reflexivity; auto.
    - rewrite (IHe U). apply andb_false_r.
    - destruct U as [Ua Ub]. rewrite (IHe1 Ua), (IHe2 Ub). unfold sign2. destruct (is_shift op); apply andb_false_r.
    - destruct U as (_ & Ua & Ub). now rewrite (IHe2 Ua).
  Qed.
  Lemma unsigned_one_sign : forall e, unsigned_leaves G e -> no_power e -> one_sign G false e.
  Proof.
    induction e; cbn [unsigned_leaves no_power one_sign]; intros U N; auto.
    - rewrite (unsigned_esigned e U). destruct (is_red op); auto.
    - destruct U as [Ua Ub]. destruct N as (No & Na & Nb). rewrite (unsigned_esigned e1 Ua), (unsigned_esigned e2 Ub). destruct op; cbn [andb]; auto.
    - destruct U as (Uc & Ua & Ub). destruct N as (Nc & Na & Nb). rewrite (unsigned_esigned e1 Uc). auto.
    - rewrite (unsigned_esigned e U). auto.
    - destruct U as [Ua Ub]. destruct N as [Na Nb]. rewrite (unsigned_esigned e1 Ua), (unsigned_esigned e2 Ub). auto.
    - rewrite (unsigned_esigned e U). auto.
  Qed.
  Lemma free_one_sign : forall e S, no_sign_op e -> one_sign G S e.
  Proof.
    induction e; cbn [no_sign_op one_sign]; intros S N; auto.
    - destruct (is_red op); auto.
    - destruct op; try contradiction; cbv zeta; destruct N; auto.
    - destruct N as (A & B & C). auto.
    - destruct N as (A & B). auto.
  Qed.
  (* writing a variable out *)
  Section Out.
    Variables (t : var) (s : expr) (r : venv).
    Hypothesis Wd : d_width (G t) = ewidth G s.
    Hypothesis Sd : d_signed (G t) = esigned G s.
    Hypothesis Ws : wt G s.
    Lemma out_type : forall e, ewidth G (written_out t s e) = ewidth G e /\ esigned G (written_out t s e) = esigned G e.
    Proof.
      induction e; cbn [written_out]; try (split; reflexivity).
      - destruct (Nat.eqb_spec x t) as [E|]; [subst; cbn; auto|auto].
      - destruct IHe as [A B]. cbn. now rewrite A, B.
      - destruct IHe1 as [A B], IHe2 as [C D]. cbn. now rewrite A, B, D.
      - destruct IHe2 as [A B], IHe3 as [C D]. cbn. now rewrite A, B, D.
      - destruct IHe1 as [A B], IHe2 as [C D]. cbn. now rewrite A, C.
      - destruct IHe as [A B]. cbn. now rewrite B.
    Qed.
    Lemma out_wt : forall e, wt G e -> wt G (written_out t s e).
    Proof.
      induction e; cbn [written_out]; intros W; auto.
      - destruct (Nat.eqb x t); auto.
      - cbn [wt] in *. destruct W as (A & B & C). rewrite (proj1 (out_type e1)), (proj1 (out_type e2)). auto.
      - cbn [wt] in *. rewrite (proj1 (out_type e1)), (proj1 (out_type e2)), (proj1 (out_type e3)). tauto.
      - cbn [wt] in *. rewrite (proj1 (out_type e)). tauto.
      - cbn [wt] in *. tauto.
      - cbn [wt] in *. rewrite (proj1 (out_type e)). tauto.
    Qed.
    Lemma out_ev : forall e, r t = ev G r s -> ev G r (written_out t s e) = ev G r e.
    Proof.
      intros e V. induction e; cbn [written_out]; auto.
      - destruct (Nat.eqb_spec x t) as [E|]; [|reflexivity]. subst x. cbn [ev]. rewrite V, Wd. unfold enc. rewrite Z.mod_small; [reflexivity|]. now apply ev_fits.
      - cbn [ev]. now rewrite (proj1 (out_type e)), IHe.
      - cbn [ev]. now rewrite (proj1 (out_type e1)), (proj2 (out_type e1)), (proj2 (out_type e2)), IHe1, IHe2.
      - cbn [ev]. now rewrite IHe1, IHe2, IHe3.
      - cbn [ev]. now rewrite IHe.
      - cbn [ev]. now rewrite (proj1 (out_type e2)), IHe1, IHe2.
      - cbn [ev]. now rewrite (proj1 (out_type e)), (proj2 (out_type e)), IHe.
    Qed.
  End Out.
End Ctx.

(* extending keeps the number *)
Lemma pow_half : forall w, 0 < w -> 2 ^ w = 2 * 2 ^ (w - 1).
Proof. intros w P. rewrite <- Z.pow_succ_r by lia. f_equal. lia. Qed.
Lemma num_range : forall (s : bool) w v, 0 < w -> 0 <= v < 2 ^ w -> if s then - 2 ^ (w - 1) <= num s w v < 2 ^ (w - 1) else 0 <= num s w v < 2 ^ w.
Proof.
  intros s w v P F. destruct s; [|exact F]. cbn. unfold sval. pose proof (pow_half w P). destruct (Z.ltb_spec v (2 ^ (w - 1))); lia.
Qed.
Lemma num_enc : forall (s : bool) w n, 0 < w -> (if s then - 2 ^ (w - 1) <= n < 2 ^ (w - 1) else 0 <= n < 2 ^ w) -> num s w (enc w n) = n.
Proof.
  intros s w n P F. pose proof (pow_half w P) as H. assert (0 < 2 ^ (w - 1)) by (apply Z.pow_pos_nonneg; lia). unfold enc. destruct s; cbn [num].
  - unfold sval. destruct (Z.ltb_spec n 0) as [L|L].
    + replace (n mod 2 ^ w) with (n + 2 ^ w); [destruct (Z.ltb_spec (n + 2 ^ w) (2 ^ (w - 1))); lia|]. rewrite <- (Z.mod_add n 1) by lia. rewrite Z.mod_small; lia.
    + rewrite Z.mod_small by lia. destruct (Z.ltb_spec n (2 ^ (w - 1))); lia.
  - now apply Z.mod_small.
Qed.
Lemma num_widen : forall s w w' v, 0 < w -> w <= w' -> 0 <= v < 2 ^ w -> num s w' (enc w' (num s w v)) = num s w v.
Proof.
  intros s w w' v P L F. apply num_enc; [lia|]. pose proof (num_range s w v P F) as N. destruct s.
  - assert (2 ^ (w - 1) <= 2 ^ (w' - 1)) by (apply Z.pow_le_mono_r; lia). lia.
  - assert (2 ^ w <= 2 ^ w') by (apply Z.pow_le_mono_r; lia). lia.
Qed.
Section Build.
  Variable G : tenv.
  Lemma resize_width : forall e w, ewidth G (resize_var e w) = w.
  Proof. intros e w. now destruct e. Qed.
  Lemma resize_sign : forall e w, esigned G (resize_var e w) = esigned G e.
  Proof. intros e w. now destruct e. Qed.
  Lemma resize_number : forall e w r, wt G e -> ewidth G e <= w -> is_const e = false -> number G r (resize_var e w) = number G r e.
  Proof.
    intros e w r W L C. pose proof (ev_fits G r e W) as F. pose proof (ewidth_pos G e W) as P. unfold number.
    assert (resize_var e w = EExtend e w) as -> by (destruct e; try reflexivity; discriminate C). cbn [ewidth esigned ev]. now apply num_widen.
  Qed.
  Lemma const_number : forall v w s r, 0 < w -> representable v w s -> number G r (EConst v w s) = v.
  Proof. intros v w s r P R. unfold number. cbn [ewidth esigned ev]. apply num_enc; [exact P|]. unfold representable in R. destruct s; lia. Qed.
End Build.
