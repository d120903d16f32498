(* Proofs about Sim_model. *)
From Coq Require Import Permutation.
From Verif Require Import Base SV_spec Eval_model Eval_proofs IR IRSem_spec IR_lemmas Bits
  Sim_spec Sim_model.
Local Open Scope Z_scope.

Lemma pow_le_64 : forall w, 0 <= w <= 64 -> 2 ^ w <= 2 ^ 64.
Proof. intros. apply Z.pow_le_mono_r; lia. Qed.

Lemma low_mask_1 : low_mask 1 = Ok 1.
Proof. reflexivity. Qed.
Lemma land_b2z : forall b, Z.land (b2z b) 1 = b2z b.
Proof. intros []; reflexivity. Qed.
Lemma b2z_bz : forall b, b2z b = bz b.
Proof. intros []; reflexivity. Qed.

(* comparisons are evaluated at width 1 *)
Lemma order_eval : forall pow op l r w, order_op op = true ->
  eval_bin_op pow l r op 1 false = Ok (sv_bin op false w l r).
Proof.
  intros pow op l r w H. unfold eval_bin_op. cbn [is_negative obind abs_value].
  change (shl64 (b2z (xorb false false)) (u32 (1 - 1))) with (Ok 0). cbn [obind].
  rewrite low_mask_1. cbn [obind].
  destruct op; try discriminate H; cbn [bin_switch obind]; unfold relational;
    cbn [negb andb xorb]; rewrite xorb_false_r, land_b2z, b2z_bz; cbn [sv_bin num]; f_equal; f_equal.
  - rewrite Z.gtb_ltb. reflexivity.
  - rewrite Z.geb_leb. reflexivity.
Qed.
Lemma two_comp_1 : forall v, exists z, two_complement v 1 = Ok z.
Proof. intros. unfold two_complement, invert. eexists. reflexivity. Qed.
Lemma eq_eval : forall pow l r s w, 0 <= l -> 0 <= r ->
  eval_bin_op pow l r Eq 1 s = Ok (sv_bin Eq s w l r).
Proof.
  intros pow l r s w Hl Hr. unfold eval_bin_op.
  assert (forall v, exists b, is_negative s v 1 = Ok b) as K.
  { intros v. unfold is_negative. destruct s; [|eauto]. change (u32 (1 - 1)) with 0.
    unfold shr64. cbn. eauto. }
  assert (forall b v, exists z, abs_value b v 1 = Ok z) as K2.
  { intros [] v; cbn; [apply two_comp_1|eauto]. }
  destruct (K l) as [ln ->]. cbn [obind]. destruct (K r) as [rn ->]. cbn [obind].
  destruct (K2 ln l) as [la ->]. cbn [obind]. destruct (K2 rn r) as [ra ->]. cbn [obind].
  assert (exists z, shl64 (b2z (xorb ln rn)) (u32 (1 - 1)) = Ok z) as [z ->] by (unfold shl64; cbn; eauto).
  cbn [obind]. rewrite low_mask_1. cbn [obind bin_switch]. rewrite land_b2z, b2z_bz. reflexivity.
Qed.

Lemma arith_eval : forall pow op s w l r,
  arith_op op = true -> 1 <= w <= (if s : bool then 63 else 64) -> fits w l -> fits w r ->
  eval_bin_op pow l r op w s = Ok (sv_bin op s w l r).
Proof.
  intros pow op s w l r H W Hl Hr.
  destruct op; try discriminate H; cbn [sv_bin].
  - rewrite (arith_correct pow Add s w l r (num s w l + num s w r)); auto. constructor.
  - rewrite (arith_correct pow Minus s w l r (num s w l - num s w r)); auto. constructor.
  - rewrite (arith_correct pow Multiply s w l r (num s w l * num s w r)); auto. constructor.
  - destruct (bitwise_correct pow Or orb s w l r) as (v & E & F & B); auto.
    rewrite E. f_equal. apply Z.bits_inj'. intros i Hi. rewrite Z.lor_spec.
    destruct (Z_lt_le_dec i w); [apply B; lia|].
    rewrite !(testbit_high w) by (unfold fits in *; lia). reflexivity.
  - destruct (bitwise_correct pow And andb s w l r) as (v & E & F & B); auto.
    rewrite E. f_equal. apply Z.bits_inj'. intros i Hi. rewrite Z.land_spec.
    destruct (Z_lt_le_dec i w); [apply B; lia|].
    rewrite !(testbit_high w) by (unfold fits in *; lia). reflexivity.
  - destruct (bitwise_correct pow Xor xorb s w l r) as (v & E & F & B); auto.
    rewrite E. f_equal. apply Z.bits_inj'. intros i Hi. rewrite Z.lxor_spec.
    destruct (Z_lt_le_dec i w); [apply B; lia|].
    rewrite !(testbit_high w) by (unfold fits in *; lia). reflexivity.
Qed.

Lemma invert_enc : forall w v, 1 <= w <= 63 -> fits w v ->
  eval_unary_op v UInvert w = Ok (enc w (- v - 1)).
Proof.
  intros w v W F. destruct (uinvert_correct w v W F) as (x & E & Fx & B). rewrite E. f_equal.
  apply Z.bits_inj'. intros i Hi. unfold enc. destruct (Z_lt_le_dec i w).
  - rewrite B by lia. rewrite Z.mod_pow2_bits_low by lia.
    replace (- v - 1) with (Z.lnot v) by (unfold Z.lnot; lia). rewrite Z.lnot_spec by lia. reflexivity.
  - rewrite Z.mod_pow2_bits_high by lia. apply (testbit_high w); [exact Fx|lia].
Qed.
Lemma land_ones_id : forall w v, 0 <= w -> 0 <= v < 2 ^ w -> Z.land v (Z.ones w) = v.
Proof. intros. rewrite Z.land_ones by lia. apply Z.mod_small. lia. Qed.

Lemma low_mask_eq : forall w, 1 <= w <= 64 -> low_mask w = Ok (Z.ones w).
Proof. intros. apply low_mask_ok; lia. Qed.
Lemma ternary_eval : forall c l r w, 1 <= w <= 64 -> fits w l -> fits w r ->
  eval_ternary_op c l r w = Ok (if c then l else r).
Proof.
  intros c l r w W Hl Hr. unfold eval_ternary_op. rewrite low_mask_eq by exact W. cbn [obind].
  f_equal. destruct c; apply land_ones_id; unfold fits in *; lia.
Qed.

Section Expr.
  Variable pow : Z -> Z -> outcome Z.
  Variable G : tenv.

  Lemma width_64 : forall e, wt G e -> sim_ok G e -> ewidth G e <= 64.
  Proof.
    induction e; cbn [wt sim_ok ewidth]; intros W S.
    - lia.
    - lia.
    - destruct S as [S _]. destruct (is_red op); [lia|auto].
    - destruct (is_rel op); [lia|]. tauto.
    - tauto.
    - contradiction.
    - lia.
    - lia.
  Qed.

  Lemma ksigned_all : forall e, ksigned G e = all_signed G e.
  Proof. induction e; cbn; congruence. Qed.
  Lemma arith_sign : forall op s s' w l r, arith_op op = true -> 0 < w -> sv_bin op s w l r = sv_bin op s' w l r.
  Proof.
    assert (forall s w v, 0 < w -> num s w v mod 2 ^ w = v mod 2 ^ w) as N.
    { intros s w v P. destruct s; [|reflexivity]. cbn. unfold sval. destruct (v <? 2 ^ (w - 1)); [reflexivity|].
      rewrite Zminus_mod, Z_mod_same_full, Z.sub_0_r. now rewrite Z.mod_mod by (apply Z.pow_nonzero; lia). }
    intros op s s' w l r A P. destruct op; try discriminate A; cbn [sv_bin]; try reflexivity; unfold enc.
    - now rewrite Zplus_mod, !N, <- Zplus_mod, (Zplus_mod (num s' w l)), !N, <- Zplus_mod by exact P.
    - now rewrite Zminus_mod, !N, <- Zminus_mod, (Zminus_mod (num s' w l)), !N, <- Zminus_mod by exact P.
    - now rewrite Zmult_mod, !N, <- Zmult_mod, (Zmult_mod (num s' w l)), !N, <- Zmult_mod by exact P.
  Qed.
  Lemma sim_eval_ok : forall e r m,
    (forall x, m x = Some (r x)) -> in_range G r ->
    wt G e -> sim_ok G e -> defined G r e -> sim_eval pow G m e = Ok (Some (ev G r e)).
  Proof.
    intros e r m M R. induction e as [x|v w s|op a IHa|op a IHa b IHb|c IHc a IHa b IHb|a IHa hi lo|a IHa b IHb|a IHa w];
      intros W S D; cbn [sim_eval].
    - rewrite M. cbn [ev]. unfold enc. rewrite Z.mod_small; [reflexivity|apply R].
    - cbn [sim_ok] in S. destruct S as [S1 S2]. pose proof (pow_le_64 w ltac:(lia)).
      cbn [ev]. unfold enc, u64. rewrite !Z.mod_small by lia. reflexivity.
    - cbn [wt sim_ok defined] in W, S, D. destruct S as [S1 S2]. rewrite (IHa W S1 D). cbn [obind].
      pose proof (ev_fits G r a W) as F. pose proof (ewidth_pos G a W) as P.
      cbn [ev ewidth]. destruct op; try contradiction; cbn [is_unary_op is_red sv_un].
      + rewrite invert_enc; [reflexivity|lia|exact F].
      + reflexivity.
      + cbn [eval_unary_op omap]. rewrite b2z_bz. reflexivity.
      + cbn [eval_unary_op omap]. rewrite b2z_bz. reflexivity.
      + change (eval_unary_op (ev G r a) UXor 1) with (eval_unary_op (ev G r a) UXor (ewidth G a)).
        rewrite uxor_correct; [reflexivity|lia|exact F].
    - cbn [wt] in W. cbn [sim_ok] in S. cbv zeta in S. cbn [defined] in D.
      destruct W as (Wa & Wb & _). destruct S as (Sa & Sb & Q & S). destruct D as (Da & Db & D1 & D2).
      rewrite (IHa Wa Sa Da). cbn [obind]. rewrite (IHb Wb Sb Db). cbn [obind].
      pose proof (ev_fits G r a Wa) as Fa. pose proof (ev_fits G r b Wb) as Fb. rewrite <- Q in Fb.
      pose proof (ewidth_pos G a Wa) as P. cbn [ev ewidth ksigned]. rewrite (ksigned_all a), (ksigned_all b).
      destruct S as [[S1 S2]|[[S1 S2]|S1]].
      + assert (1 <= ewidth G a <= (if all_signed G a && all_signed G b then 63 else 64)) as W1 by lia.
        destruct S1 as [S1|[[S1 S3]|S1]].
        * assert (is_rel op = false) as -> by (destruct op; try discriminate S1; reflexivity).
          rewrite arith_eval; [|exact S1|exact W1|exact Fa|exact Fb]. cbn [omap].
          now rewrite (arith_sign op (sign2 op _ _) (all_signed G a && all_signed G b)) by (assumption || lia).
        * subst op. cbn [is_rel]. specialize (D1 eq_refl). unfold sign2. cbn [is_shift]. rewrite S3.
          assert (num (all_signed G a && all_signed G b) (ewidth G a) (ev G r b) <> 0) as NZ.
          { unfold num, sval. destruct (all_signed G a && all_signed G b); [|exact D1].
            destruct (ev G r b <? 2 ^ (ewidth G a - 1)) eqn:E; lia. }
          rewrite (arith_correct pow Divide _ _ _ _
                     (Z.quot (num (all_signed G a && all_signed G b) (ewidth G a) (ev G r a))
                             (num (all_signed G a && all_signed G b) (ewidth G a) (ev G r b)))
                     W1 Fa Fb); [reflexivity|].
          constructor. exact NZ.
        * subst op. cbn [is_rel sv_bin]. rewrite lshr_correct; [reflexivity|exact W1|exact Fa|exact Fb|auto].
      + destruct S2 as [S2 S3]. rewrite S2. assert (is_rel op = true) as -> by (destruct op; try discriminate S1; reflexivity).
        rewrite (order_eval pow op _ _ (ewidth G a)) by exact S1. cbn [omap]. unfold sign2.
        replace (is_shift op) with false by (destruct op; try discriminate S1; reflexivity). now rewrite S3.
      + subst op. cbn [is_rel]. rewrite (eq_eval pow _ _ _ (ewidth G a)) by lia. reflexivity.
    - cbn [wt sim_ok defined] in W, S, D.
      destruct W as (Wc & Wa & Wb & Q1 & Q2). destruct S as (Sc & Sa & Sb). destruct D as (Dc & Da & Db).
      rewrite (IHa Wa Sa Da). cbn [obind]. rewrite (IHb Wb Sb Db). cbn [obind]. rewrite (IHc Wc Sc Dc). cbn [obind].
      cbn [ev ewidth].
      rewrite ternary_eval.
      + cbn [omap]. destruct (ev G r c =? 0); reflexivity.
      + pose proof (ewidth_pos G a Wa). pose proof (width_64 a Wa Sa). lia.
      + exact (ev_fits G r a Wa).
      + rewrite Q2. exact (ev_fits G r b Wb).
    - contradiction S.
    - cbn [wt sim_ok defined] in W, S, D.
      destruct W as (Wa & Wb). destruct S as (Sa & Sb & Q). destruct D as (Da & Db).
      rewrite (IHb Wb Sb Db). cbn [obind]. rewrite (IHa Wa Sa Da). cbn [obind].
      pose proof (ewidth_pos G a Wa). pose proof (ewidth_pos G b Wb).
      pose proof (ev_fits G r a Wa) as Fa. pose proof (ev_fits G r b Wb) as Fb.
      unfold shl64. replace ((0 <=? ewidth G b) && (ewidth G b <? 64)) with true by lia. cbn [obind].
      do 2 f_equal. cbn [ev].
      assert (0 <= ev G r a * 2 ^ ewidth G b < 2 ^ 64) as Rg.
      { split; [nia|]. apply Z.lt_le_trans with (2 ^ (ewidth G a + ewidth G b)).
        - rewrite Z.pow_add_r by lia. nia.
        - apply Z.pow_le_mono_r; lia. }
      rewrite Z.shiftl_mul_pow2 by lia. unfold u64. rewrite (Z.mod_small _ _ Rg).
      assert (Z.land (ev G r a * 2 ^ ewidth G b) (ev G r b) = 0) as N;
        [|rewrite Z.lor_comm, <- Z.lxor_lor, <- Z.add_nocarry_lxor by exact N; reflexivity].
      apply Z.bits_inj'. intros i Hi. rewrite Z.land_spec, Z.bits_0.
      destruct (Z_lt_le_dec i (ewidth G b)).
      + rewrite Z.mul_pow2_bits_low by lia. reflexivity.
      + rewrite (testbit_high (ewidth G b) (ev G r b)) by lia. apply andb_false_r.
    - cbn [wt sim_ok defined] in W, S, D. destruct W as [Wa Q]. destruct S as (Sa & Sg & Sg' & Q2).
      rewrite (IHa Wa Sa D). cbn [obind ksigned]. rewrite ksigned_all, Sg. cbn [ev]. rewrite Sg'. cbn [num].
      pose proof (ev_fits G r a Wa) as Fa. pose proof (ewidth_pos G a Wa).
      assert (2 ^ ewidth G a <= 2 ^ w) by (apply Z.pow_le_mono_r; lia).
      unfold enc. rewrite Z.mod_small by lia. reflexivity.
  Qed.
End Expr.

(* ---- procedural blocks ---- *)
Lemma put_whole : forall old w v, 0 <= w -> 0 <= old < 2 ^ w -> 0 <= v < 2 ^ w -> put_bits old 0 w v = v.
Proof.
  intros old w v W O V. unfold put_bits. rewrite !Z.shiftl_0_r, Z.mod_small by lia.
  apply Z.bits_inj'. intros i Hi. rewrite Z.lor_spec, Z.ldiff_spec.
  destruct (Z_lt_le_dec i w).
  - rewrite Z.ones_spec_low by lia. rewrite andb_false_r. reflexivity.
  - rewrite (testbit_high w old), (testbit_high w v) by lia. reflexivity.
Qed.

Section Block.
  Variable pow : Z -> Z -> outcome Z.
  Variable G : tenv.

  Lemma sim_stmt_if : forall c t f st, sim_stmt pow G (SIf c t f) st =
    (olet v := sim_eval pow G (ss_vals st) c in
     match v with
     | Some v => if negb (v =? 0) then sim_block pow G t st else sim_block pow G f st
     | None => sim_block pow G f st
     end).
  Proof. reflexivity. Qed.
  Lemma sim_stmt_switch : forall e cs d st, sim_stmt pow G (SSwitch e cs d) st =
    (olet v := sim_eval pow G (ss_vals st) e in
     match v with
     | None => match d with None => Ok st | Some b => sim_block pow G b st end
     | Some v => sim_pick pow G v (ewidth G e) cs d st
     end).
  Proof.
    intros. cbn [sim_stmt]. destruct (sim_eval pow G (ss_vals st) e) as [[v|]| |]; cbn [obind]; try reflexivity.
    induction cs as [|[k b] cs IH]; [reflexivity|]. cbn [sim_pick fst snd].
    destruct (case_bits (ewidth G e) k) as [z| |]; cbn [obind]; [|reflexivity|reflexivity].
    destruct (v =? z); [reflexivity|]. exact IH.
  Qed.

  (* queued writes: whole variables, each with a value of the variable's width *)
  Definition whole (u : write) : Prop :=
    w_lo u = 0 /\ w_n u = d_width (G (w_var u)) /\ 0 <= w_val u < 2 ^ d_width (G (w_var u)).
  Definition pairs (l : list write) : list (var * Z) := map (fun u => (w_var u, w_val u)) l.
  (* the first write of each variable *)
  Definition firsts (l : list write) : list (var * Z) :=
    fold_left (fun a u => nba_emplace a (w_var u) (w_val u)) l [].
  Record rel (st : pstate) (ss : sim_state) : Prop := {
    rel_run : st_status st = Running;
    rel_vals : forall x, ss_vals ss x = Some (st_cur st x);
    rel_range : in_range G (st_cur st);
    rel_nba : ss_nba ss = firsts (st_nba st);
    rel_whole : Forall whole (st_nba st)
  }.
  Definition sim_of (f : sim_state -> outcome sim_state) (g : pstate -> pstate) : Prop :=
    forall st ss, rel st ss -> exists ss', f ss = Ok ss' /\ rel (g st) ss'.

  Lemma eval_good : forall e st ss, good_expr G e -> rel st ss ->
    sim_eval pow G (ss_vals ss) e = Ok (Some (ev G (st_cur st) e)).
  Proof. intros e st ss (A & B & C) [H1 H2 H3 H4 H5]. apply sim_eval_ok; auto. Qed.

  Lemma assign_sim : forall k x e, good_expr G e -> ewidth G e = d_width (G x) ->
    sim_of (sim_stmt pow G (SAssign k (LVar x) e)) (exec G (SAssign k (LVar x) e)).
  Proof.
    intros k x e He W st ss R. cbn [sim_stmt]. rewrite (eval_good e st ss He R). cbn [obind].
    pose proof (ev_fits G (st_cur st) e (proj1 He)) as F. unfold fits in F. rewrite W in F.
    assert (0 <= d_width (G x)) as P by (pose proof (ewidth_pos G e (proj1 He)); lia).
    destruct R as [R1 R2 R3 R4 R5]. cbn [exec]. unfold do_assign. cbn [target].
    assert (forall y, set_val (ss_vals ss) x (ev G (st_cur st) e) y =
              Some (do_write (st_cur st) {| w_var := x; w_lo := 0; w_n := d_width (G x);
                                            w_val := ev G (st_cur st) e |} y)) as SV.
    { intros y. unfold set_val, do_write, upd. cbn [w_var w_lo w_n w_val].
      rewrite put_whole by (auto; apply R3). destruct (Nat.eqb y x); auto. }
    assert (in_range G (do_write (st_cur st) {| w_var := x; w_lo := 0; w_n := d_width (G x);
                                            w_val := ev G (st_cur st) e |})) as IR.
    { intros y. unfold do_write, upd. cbn [w_var w_lo w_n w_val].
      rewrite put_whole by (auto; apply R3). destruct (Nat.eqb_spec y x) as [->|]; [exact F|apply R3]. }
    destruct k; eexists; split; try reflexivity; constructor; cbn [st_cur st_nba st_status ss_vals ss_nba]; auto.
    - rewrite R4. unfold firsts. rewrite fold_left_app. reflexivity.
    - apply Forall_app. split; [exact R5|]. constructor; [|constructor]. repeat split; cbn; lia.
  Qed.

  Lemma run_sim : forall l, Forall (fun s => sim_of (sim_stmt pow G s) (exec G s)) l ->
    sim_of (sim_block pow G l) (run G l).
  Proof.
    induction l as [|s l IH]; intros H st ss R.
    - exists ss. split; [reflexivity|exact R].
    - apply Forall_cons_iff in H as [H1 H2]. destruct (H1 st ss R) as (s1 & E1 & R1).
      destruct (IH H2 _ _ R1) as (s2 & E2 & R2).
      exists s2. cbn [sim_block run]. rewrite E1. cbn [obind]. split; [exact E2|].
      rewrite (rel_run _ _ R1). exact R2.
  Qed.
  Lemma case_bits_ok : forall w k, 0 < w <= 32 -> 0 <= k < 2 ^ w -> case_bits w k = Ok (enc w k).
  Proof.
    intros w k W K. unfold case_bits, shr64. replace ((0 <=? w) && (w <? 64)) with true by lia. cbn [obind].
    assert (2 ^ w <= 2 ^ 32) by (apply Z.pow_le_mono_r; lia).
    f_equal. unfold u64, enc. rewrite !Z.mod_small by lia.
    change UINT64_MASK with (Z.ones 64). rewrite Z.shiftr_div_pow2 by lia.
    rewrite Z.ones_div_pow2 by lia. apply land_ones_id; [lia|].
    assert (2 ^ 32 <= 2 ^ (64 - w)) by (apply Z.pow_le_mono_r; lia). lia.
  Qed.
  Lemma pick_sim : forall v w cs d, 0 < w <= 32 ->
    Forall (fun cb => 0 <= fst cb < 2 ^ w /\ sim_of (sim_block pow G (snd cb)) (run G (snd cb))) cs ->
    (forall b, d = Some b -> sim_of (sim_block pow G b) (run G b)) ->
    sim_of (sim_pick pow G v w cs d) (pick G v w cs d).
  Proof.
    intros v w cs d W H D. induction cs as [|[k b] cs IH]; intros st ss R.
    - cbn [sim_pick pick]. destruct d as [b|]; [exact (D b eq_refl st ss R)|]. exists ss. auto.
    - apply Forall_cons_iff in H as [[H1 H2] H3]. cbn [fst snd] in *. cbn [sim_pick pick fst snd].
      rewrite case_bits_ok by auto. cbn [obind]. destruct (v =? enc w k).
      + apply H2, R.
      + apply IH; auto.
  Qed.
  Lemma good_sim : forall s, good_stmt G s -> sim_of (sim_stmt pow G s) (exec G s).
  Proof.
    induction s as [k l e|c t f IHt IHf|e cs d IHc IHd|i a b st body IH|body IH|e| |n] using stmt_ind';
      intros H; inversion H as [? ? ? GE GW|? ? ? GE Gt Gf|? ? ? GE GW Gc Gd|? Gb]; subst.
    - apply assign_sim; auto.
    - intros st ss R. rewrite sim_stmt_if, exec_if. rewrite (eval_good c st ss) by auto. cbn [obind].
      unfold truth. destruct (negb (ev G (st_cur st) c =? 0)); apply run_sim; auto; rewrite Forall_forall in *; auto.
    - intros st ss R. rewrite sim_stmt_switch, exec_switch. rewrite (eval_good e st ss) by auto. cbn [obind].
      apply pick_sim; auto.
      + pose proof (ewidth_pos G e (proj1 GE)). lia.
      + rewrite Forall_forall in *. intros cb I. destruct (Gc cb I) as [K1 K2]. split; [exact K1|].
        apply run_sim. specialize (IHc cb I). rewrite Forall_forall in *. auto.
      + intros bb ->. apply run_sim. specialize (IHd bb eq_refl). specialize (Gd bb eq_refl).
        rewrite Forall_forall in *. auto.
    - intros st ss R. change (sim_stmt pow G (SBlock body) ss) with (sim_block pow G body ss).
      change (exec G (SBlock body) st) with (run G body st). apply run_sim; auto. rewrite Forall_forall in *. auto.
  Qed.
  Lemma good_block_sim : forall b, Forall (good_stmt G) b -> sim_of (sim_block pow G b) (run G b).
  Proof. intros b H. apply run_sim. rewrite Forall_forall in *. intros s I. apply good_sim; auto. Qed.

  (* the non-blocking queue *)
  Lemma nba_fresh : forall l x v, ~ In x (map fst l) -> nba_emplace l x v = l ++ [(x, v)].
  Proof.
    intros l x v H. unfold nba_emplace. replace (existsb _ l) with false; [reflexivity|].
    symmetry. apply not_true_iff_false. intros E. apply existsb_exists in E as ([y z] & I & Q).
    apply Nat.eqb_eq in Q. cbn in Q. subst. apply H. apply (in_map fst) in I. exact I.
  Qed.
  Lemma firsts_nodup_from : forall l a, NoDup (map fst a ++ map w_var l) ->
    fold_left (fun a u => nba_emplace a (w_var u) (w_val u)) l a = a ++ pairs l.
  Proof.
    induction l as [|u l IH]; intros a H; cbn [fold_left pairs map]; [rewrite app_nil_r; reflexivity|].
    rewrite nba_fresh.
    - rewrite IH.
      + rewrite <- app_assoc. reflexivity.
      + rewrite map_app. cbn. rewrite <- app_assoc. exact H.
    - cbn [map] in H. apply NoDup_remove_2 in H. intros I. apply H. apply in_app_iff. auto.
  Qed.
  Lemma firsts_nodup : forall l, NoDup (map w_var l) -> firsts l = pairs l.
  Proof. intros l H. unfold firsts. rewrite firsts_nodup_from; auto. Qed.
  Lemma apply_out : forall l m x, ~ In x (map fst l) -> apply_nba l m x = m x.
  Proof.
    induction l as [|[y v] l IH]; intros m x H; [reflexivity|]. cbn [apply_nba fold_left] in *.
    change (apply_nba l (set_val m y v) x = m x). rewrite IH by (cbn in H; tauto).
    unfold set_val. destruct (Nat.eqb_spec x y) as [->|]; [cbn in H; tauto|reflexivity].
  Qed.
  Lemma apply_in : forall l m x v, NoDup (map fst l) -> In (x, v) l -> apply_nba l m x = Some v.
  Proof.
    induction l as [|[y z] l IH]; intros m x v N I; [destruct I|]. cbn [map fst] in N.
    apply NoDup_cons_iff in N as [N1 N2]. change (apply_nba l (set_val m y z) x = Some v).
    destruct I as [E|I].
    - inversion E; subst. rewrite apply_out by exact N1. unfold set_val. rewrite Nat.eqb_refl. reflexivity.
    - apply IH; auto.
  Qed.
  Lemma commit_out : forall l r x, ~ In x (map w_var l) -> fold_left do_write l r x = r x.
  Proof.
    induction l as [|u l IH]; intros r x H; [reflexivity|]. cbn [fold_left]. cbn in H.
    rewrite IH by tauto. unfold do_write, upd. destruct (Nat.eqb_spec x (w_var u)) as [E|]; [|reflexivity].
    exfalso. apply H. auto.
  Qed.
  Lemma commit_in : forall l r u, Forall whole l -> in_range G r -> NoDup (map w_var l) -> In u l ->
    fold_left do_write l r (w_var u) = w_val u.
  Proof.
    induction l as [|u l IH]; intros r u' F R N I; [destruct I|]. cbn [map] in N.
    apply NoDup_cons_iff in N as [N1 N2]. apply Forall_cons_iff in F as [(F1 & F2 & F3) F4]. cbn [fold_left].
    assert (put_bits (r (w_var u)) (w_lo u) (w_n u) (w_val u) = w_val u) as PW.
    { rewrite F1, F2. apply put_whole; [|apply R|exact F3].
      destruct (Z_lt_le_dec (d_width (G (w_var u))) 0); [|lia]. rewrite Z.pow_neg_r in F3 by lia. lia. }
    destruct I as [->|I].
    - rewrite commit_out by exact N1. unfold do_write, upd. rewrite Nat.eqb_refl. exact PW.
    - apply IH; auto. intros y. unfold do_write, upd. destruct (Nat.eqb_spec y (w_var u)) as [->|]; [|apply R].
      rewrite PW. exact F3.
  Qed.
  Lemma flush_ok : forall st ss order, rel st ss -> NoDup (map w_var (st_nba st)) ->
    Permutation order (ss_nba ss) -> forall x, apply_nba order (ss_vals ss) x = Some (commit st x).
  Proof.
    intros st ss order [R1 R2 R3 R4 R5] N P x. rewrite R4, firsts_nodup in P by exact N.
    assert (map fst (pairs (st_nba st)) = map w_var (st_nba st)) as E1.
    { unfold pairs. rewrite map_map. reflexivity. }
    assert (Permutation (map fst order) (map w_var (st_nba st))) as P2.
    { rewrite <- E1. apply Permutation_map, P. }
    unfold commit. destruct (in_dec Nat.eq_dec x (map w_var (st_nba st))) as [I|I].
    - apply in_map_iff in I as (u & Q & I). subst x. rewrite (commit_in _ _ u); auto.
      apply apply_in.
      + apply (Permutation_NoDup (Permutation_sym P2)). exact N.
      + apply (Permutation_in (l:=pairs (st_nba st))); [apply Permutation_sym, P|].
        unfold pairs. apply in_map_iff. exists u. auto.
    - rewrite commit_out by exact I. rewrite apply_out; [apply R2|].
      intros J. apply I. apply (Permutation_in _ P2). exact J.
  Qed.
  Lemma start_rel : forall r, in_range G r ->
    rel (start_state r) {| ss_vals := fun x => Some (r x); ss_nba := [] |}.
  Proof. intros r R. constructor; cbn; auto. Qed.
End Block.

(* ---- slices ---- *)
From Verif Require Import Slice_spec Util_spec Util_proofs.
Lemma fold_mul : forall l a, fold_left Z.mul l a = a * prod l.
Proof.
  induction l as [|x l IH]; intros a; cbn [fold_left prod]; [lia|]. rewrite IH. lia.
Qed.
Definition single (idx : list Z) : list (Z * Z) := map (fun i => (i, i)) idx.
Lemma dim_loop_index : forall dims idx w low high, valid_index dims idx -> Forall (fun d => 1 < d) dims ->
  dims <> [] ->
  dim_loop (single idx) dims (bases_of dims w) w low high
  = Ok (low + linear dims idx * w + w - 1, low + linear dims idx * w).
Proof.
  intros dims idx w low high V. revert low high.
  induction V as [|d i ds r H V IH]; intros low high F N; [contradiction|].
  apply Forall_cons_iff in F as [F1 F2].
  cbn [single map dim_loop bases_of]. replace (i >? i) with false by lia.
  replace ((i =? i) && (d >? 1)) with true by lia. rewrite fold_mul. cbn [linear].
  destruct V as [|d' i' ds' r' H' V'].
  - cbn [map dim_loop prod linear]. do 2 f_equal; lia.
  - fold (single (i' :: r')). rewrite IH by (auto; discriminate). do 2 f_equal; nia.
Qed.
Lemma high_low_index : forall dims idx w, valid_index dims idx -> Forall (fun d => 1 < d) dims -> dims <> [] ->
  compute_var_high_low dims w (single idx) = Ok (linear dims idx * w + w - 1, linear dims idx * w).
Proof. intros. unfold compute_var_high_low. rewrite dim_loop_index by auto. do 2 f_equal; lia. Qed.
Lemma big_pos : forall dims, Forall (fun d => 1 < d) dims -> 0 < prod dims.
Proof. intros dims H. apply prod_pos. eapply Forall_impl; [|exact H]. cbn. lia. Qed.
Lemma index_width : forall dims idx w, Forall (fun d => 1 < d) dims -> 0 < w ->
  (linear dims idx * w + w - 1 + 1 - linear dims idx * w >? total_width dims w) = false.
Proof. intros. unfold total_width. rewrite fold_mul. pose proof (big_pos dims). nia. Qed.
Lemma not64_high : forall w, 0 <= w < 64 -> not64 (u64 (Z.shiftl UINT64_MASK w)) = Z.ones w.
Proof.
  intros w W. unfold not64, u64. change UINT64_MASK with (Z.ones 64).
  apply Z.bits_inj'. intros i Hi. rewrite Z.testbit_ones_nonneg by lia.
  rewrite Z.lxor_spec, Z.testbit_ones_nonneg by lia.
  destruct (Z_lt_le_dec i 64).
  - rewrite Z.mod_pow2_bits_low, Z.shiftl_spec by lia. replace (i <? 64) with true by lia.
    destruct (Z_lt_le_dec i w).
    + rewrite Z.testbit_neg_r by lia. replace (i <? w) with true by lia. reflexivity.
    + rewrite Z.testbit_ones_nonneg by lia. replace (i - w <? 64) with true by lia.
      replace (i <? w) with false by lia. reflexivity.
  - rewrite Z.mod_pow2_bits_high by lia. replace (i <? 64) with false by lia.
    replace (i <? w) with false by lia. reflexivity.
Qed.
Lemma shr64_ok : forall v k, 0 <= k < 64 -> shr64 v k = Ok (Z.shiftr v k).
Proof. intros. unfold shr64. replace ((0 <=? k) && (k <? 64)) with true by lia. reflexivity. Qed.
Lemma shl64_ok : forall v k, 0 <= k < 64 -> shl64 v k = Ok (u64 (Z.shiftl v k)).
Proof. intros. unfold shl64. replace ((0 <=? k) && (k <? 64)) with true by lia. reflexivity. Qed.
Lemma mask_shr : forall k, 0 <= k <= 64 -> Z.shiftr UINT64_MASK k = Z.ones (64 - k).
Proof. intros. change UINT64_MASK with (Z.ones 64). rewrite Z.shiftr_div_pow2, Z.ones_div_pow2 by lia. reflexivity. Qed.

Lemma get_element : forall dims idx w values v,
  valid_index dims idx -> Forall (fun d => 1 < d) dims -> dims <> [] -> 0 < w < 64 ->
  nth_error values (Z.to_nat (linear dims idx)) = Some v -> 0 <= v < 2 ^ w ->
  get_slice dims w values (single idx) = Ok v.
Proof.
  intros dims idx w values v V F N W E R. unfold get_slice. rewrite high_low_index by auto. cbn [obind].
  rewrite index_width by (auto; lia).
  rewrite Z.div_mul, Z.mod_mul by lia. rewrite E. rewrite shr64_ok by lia. cbn [obind].
  replace ((linear dims idx * w + w - 1) mod w) with (w - 1).
  2:{ replace (linear dims idx * w + w - 1) with (w - 1 + linear dims idx * w) by lia.
      rewrite Z.mod_add by lia. symmetry. apply Z.mod_small. lia. }
  rewrite shl64_ok by lia. cbn [obind]. replace (w - 1 + 1) with w by lia.
  rewrite not64_high by lia. rewrite Z.shiftr_0_r. f_equal. apply land_ones_id; lia.
Qed.
Lemma not64_mask : forall v n w, 0 <= w <= n -> n <= 64 -> 0 <= v < 2 ^ w -> Z.land v (not64 (Z.ones n)) = 0.
Proof.
  intros v n w W N V. apply Z.bits_inj'. intros i Hi. rewrite Z.land_spec, Z.bits_0.
  destruct (Z_lt_le_dec i w); [|rewrite (testbit_high w v) by lia; reflexivity].
  unfold not64. change UINT64_MASK with (Z.ones 64). rewrite Z.lxor_spec, !Z.testbit_ones_nonneg by lia.
  replace (i <? 64) with true by lia. replace (i <? n) with true by lia. apply andb_false_r.
Qed.
Lemma set_element : forall dims idx w values v old,
  valid_index dims idx -> Forall (fun d => 1 < d) dims -> dims <> [] -> 0 < w <= 32 ->
  nth_error values (Z.to_nat (linear dims idx)) = Some old -> 0 <= old < 2 ^ w -> 0 <= v < 2 ^ w ->
  set_slice dims w values (single idx) v = Ok (set_nth values (Z.to_nat (linear dims idx)) v).
Proof.
  intros dims idx w values v old V F N W E R Rv. unfold set_slice. rewrite high_low_index by auto. cbn [obind].
  rewrite index_width by (auto; lia). rewrite Z.div_mul by lia. rewrite E.
  replace (linear dims idx * w + w - 1 - linear dims idx * w + 1) with w by lia.
  replace (linear dims idx * w - linear dims idx * w) with 0 by lia.
  replace (linear dims idx * w + w - 1 - linear dims idx * w - 0 + 1) with w by lia.
  rewrite !shr64_ok, mask_shr by lia. cbn [obind]. rewrite !shr64_ok, Z.shiftr_0_r by lia. cbn [obind].
  rewrite shl64_ok by lia. cbn [obind]. do 2 f_equal.
  assert (2 ^ w <= 2 ^ (64 - w)) by (apply Z.pow_le_mono_r; lia).
  rewrite (not64_mask old (64 - w) w), Z.lor_0_l by lia. rewrite Z.shiftl_0_r, land_ones_id by lia.
  unfold u64. apply Z.mod_small. pose proof (pow_le_64 w). lia.
Qed.
Lemma set_nth_spec : forall l n v m, (n < length l)%nat ->
  nth_error (set_nth l n v) m = if Nat.eqb m n then Some v else nth_error l m.
Proof.
  induction l as [|x l IH]; intros n v m H; [cbn in H; lia|].
  destruct n, m; cbn in *; try reflexivity. apply IH. lia.
Qed.
Lemma set_nth_length : forall l n v, length (set_nth l n v) = length l.
Proof. induction l as [|x l IH]; intros [|n] v; cbn; auto. Qed.

(* bits of a scalar *)
Lemma high_low_bit : forall w i, 0 <= i -> compute_var_high_low [1] w [(i, i)] = Ok (i, i).
Proof.
  intros. unfold compute_var_high_low. cbn [dim_loop bases_of fold_left].
  replace (i >? i) with false by lia. replace ((i =? i) && (1 >? 1)) with false by lia.
  cbn [bit_loop]. do 2 f_equal; lia.
Qed.
Lemma get_bit : forall w v i, 0 <= i < w -> i < 63 ->
  get_slice [1] w [v] [(i, i)] = Ok (Z.shiftr v i mod 2 ^ (i + 1)).
Proof.
  intros w v i H L. unfold get_slice. rewrite high_low_bit by lia. cbn [obind].
  unfold total_width. cbn [fold_left]. replace (i + 1 - i >? w * (1 * 1)) with false by lia.
  rewrite Z.div_small, Z.mod_small by lia. cbn [Z.to_nat nth_error].
  rewrite shr64_ok, shl64_ok by lia. cbn [obind]. rewrite not64_high, Z.land_ones by lia. reflexivity.
Qed.
Lemma get_range : forall w v h l, 0 < w -> 0 <= l < h -> get_slice [1] w [v] [(h, l)] = Throw.
Proof.
  intros w v h l W H. unfold get_slice, compute_var_high_low. cbn [dim_loop bases_of fold_left].
  replace (h >? l) with true by lia. cbn [obind]. unfold total_width. cbn [fold_left].
  match goal with |- (if ?c then _ else _) = _ => assert (c = true) as -> end; [|reflexivity].
  assert ((h - l + 1) * (1 * w) * w > w) by nia. lia.
Qed.
Lemma set_bit : forall w v i b, 0 <= i < w -> 2 * i + w <= 63 -> 0 <= v < 2 ^ w -> 0 <= b <= 1 ->
  set_slice [1] w [v] [(i, i)] b = Ok [b * 2 ^ i].
Proof.
  intros w v i b H L V B. unfold set_slice. rewrite high_low_bit by lia. cbn [obind].
  unfold total_width. cbn [fold_left]. replace (i + 1 - i >? w * (1 * 1)) with false by lia.
  rewrite Z.div_small by lia. cbn [Z.to_nat nth_error].
  replace (i - 0 * w) with i by lia. replace (i - i + 1) with 1 by lia.
  rewrite !shr64_ok by lia. cbn [obind]. rewrite !mask_shr by lia. rewrite !shr64_ok by lia. cbn [obind].
  rewrite shl64_ok by lia. cbn [obind set_nth]. do 2 f_equal.
  rewrite Z.shiftr_div_pow2, Z.ones_div_pow2 by lia.
  rewrite (not64_mask v (64 - (i + 1) - i) w), Z.lor_0_l by lia.
  rewrite land_ones_id by (change (2 ^ (64 - 1)) with 9223372036854775808; lia).
  rewrite Z.shiftl_mul_pow2 by lia. unfold u64. apply Z.mod_small.
  assert (0 < 2 ^ i <= 2 ^ 63) by (split; [apply Z.pow_pos_nonneg; lia|apply Z.pow_le_mono_r; lia]).
  change (2 ^ 64) with (2 * 2 ^ 63). nia.
Qed.
