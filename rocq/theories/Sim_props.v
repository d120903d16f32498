(* Properties of the built-in simulator. *)
From Coq Require Import Permutation.
From Verif Require Import Base SV_spec Eval_model IR IRSem_spec IR_lemmas Slice_spec Util_spec
  Sim_spec Sim_model Sim_proofs.
Local Open Scope Z_scope.

(* ---- C38: expressions ---- *)
Theorem C38_expression_value :
  forall pow G e r m,
    wt G e -> sim_ok G e -> defined G r e ->
    (forall x, m x = Some (r x)) -> in_range G r ->
    sim_eval pow G m e = Ok (Some (ev G r e)).
Proof. intros. apply sim_eval_ok; auto. Qed.
Print Assumptions C38_expression_value.

Definition G38 : tenv := fun x => {| d_width := if Nat.eqb x 0 then 1 else 8; d_signed := Nat.eqb x 3 |}.
Definition r38 : venv := fun x => match x with 0%nat => 1 | 1%nat => 200 | 2%nat => 7 | 3%nat => 255 | _ => 0 end.
(* c ? (x / y) + ~s : {4'd5, 4'd1} *)
Definition e38 : expr :=
  ECond (EVar 0) (EBin Add (EBin Divide (EVar 1) (EVar 2)) (EUn UInvert (EVar 3)))
        (EConcat (EConst 5 4 false) (EConst 1 4 false)).
Example C38_ex : wt G38 e38 /\ sim_ok G38 e38 /\ defined G38 r38 e38 /\ in_range G38 r38
  /\ sim_eval (fun _ _ => UB) G38 (fun x => Some (r38 x)) e38 = Ok (Some 28).
Proof.
  split; [cbn; intuition lia|]. split; [cbn; intuition lia|]. split; [cbn; intuition discriminate|].
  split; [|vm_compute; reflexivity].
  intros [|[|[|[|x]]]]; cbn; lia.
Qed.

(* ---- C39: elements of arrays ---- *)
Theorem C39_read_element :
  forall dims idx w values v,
    valid_index dims idx -> Forall (fun d => 1 < d) dims -> dims <> [] -> 0 < w < 64 ->
    nth_error values (Z.to_nat (linear dims idx)) = Some v -> 0 <= v < 2 ^ w ->
    get_slice dims w values (map (fun i => (i, i)) idx) = Ok v.
Proof. exact get_element. Qed.
Print Assumptions C39_read_element.
Theorem C39_write_element :
  forall dims idx w values v old,
    valid_index dims idx -> Forall (fun d => 1 < d) dims -> dims <> [] -> 0 < w <= 32 ->
    nth_error values (Z.to_nat (linear dims idx)) = Some old -> 0 <= old < 2 ^ w -> 0 <= v < 2 ^ w ->
    exists values', set_slice dims w values (map (fun i => (i, i)) idx) v = Ok values'
      /\ length values' = length values
      /\ forall n, nth_error values' n
                   = if Nat.eqb n (Z.to_nat (linear dims idx)) then Some v else nth_error values n.
Proof.
  intros dims idx w values v old V F N W E R Rv. eexists. split; [eapply set_element; eauto|].
  split; [apply set_nth_length|]. intros n. apply set_nth_spec. apply nth_error_Some. congruence.
Qed.
Print Assumptions C39_write_element.
(* a 2 x 3 array of bytes *)
Example C39_ex : valid_index [2; 3] [1; 0]
  /\ get_slice [2; 3] 8 [10; 11; 12; 20; 21; 22] [(1, 1); (0, 0)] = Ok 20
  /\ set_slice [2; 3] 8 [10; 11; 12; 20; 21; 22] [(1, 1); (0, 0)] 99 = Ok [10; 11; 12; 99; 21; 22].
Proof. split; [repeat constructor; lia|]. split; vm_compute; reflexivity. Qed.

(* ---- C40: procedural blocks ---- *)
Theorem C40_block :
  forall pow G body r,
    Forall (good_stmt G) body -> in_range G r ->
    NoDup (map w_var (st_nba (run G body (start_state r)))) ->
    exists st, sim_block pow G body {| ss_vals := fun x => Some (r x); ss_nba := [] |} = Ok st
      /\ forall order, Permutation order (ss_nba st) ->
         forall x, apply_nba order (ss_vals st) x = Some (activate G body r x).
Proof.
  intros pow G body r H R N.
  destruct (good_block_sim pow G body H _ _ (start_rel G r R)) as (ss & E & Rl).
  exists ss. split; [exact E|]. intros order P x. eapply flush_ok; eauto.
Qed.
Print Assumptions C40_block.

(* swap two registers, unless held *)
Definition b40 : list stmt :=
  [SIf (EVar 0) [SAssign NonBlocking (LVar 1) (EVar 2); SAssign NonBlocking (LVar 2) (EVar 1)] []].
Example C40_ex : Forall (good_stmt G38) b40 /\ in_range G38 r38
  /\ NoDup (map w_var (st_nba (run G38 b40 (start_state r38))))
  /\ activate G38 b40 r38 1%nat = 7 /\ activate G38 b40 r38 2%nat = 200.
Proof.
  assert (forall x, good_expr G38 (EVar x)) as K.
  { intros x. split; [|split]; [| |cbn; auto]; destruct x as [|x]; cbn; lia. }
  split; [|split; [intros [|[|[|[|x]]]]; cbn; lia|split; [|split; vm_compute; reflexivity]]].
  - constructor; [|constructor]. constructor; [apply K| |constructor].
    constructor; [|constructor; [|constructor]]; constructor; try apply K; reflexivity.
  - vm_compute. constructor; [|constructor; [|constructor]]; cbn; intuition congruence.
Qed.

(* ---- where the simulator disagrees with SystemVerilog ---- *)
Definition G8s : tenv := fun _ => {| d_width := 8; d_signed := true |}.
Definition G8 : tenv := fun _ => {| d_width := 8; d_signed := false |}.

(* ordering of signed operands *)
Theorem C76_signed_order_refuted :
  ~ (forall pow G r x y, d_signed (G x) = true -> d_signed (G y) = true ->
       d_width (G x) = d_width (G y) -> 1 <= d_width (G x) <= 64 -> in_range G r ->
       sim_eval pow G (fun x => Some (r x)) (EBin LessThan (EVar x) (EVar y))
       = Ok (Some (ev G r (EBin LessThan (EVar x) (EVar y))))).
Proof.
  intros H. specialize (H (fun _ _ => UB) G8s (fun x => match x with 0%nat => 2 | _ => 3 end) 0%nat 1%nat
                         eq_refl eq_refl eq_refl ltac:(cbn; lia) ltac:(intros [|x]; cbn; lia)).
  vm_compute in H. congruence.
Qed.
Print Assumptions C76_signed_order_refuted.

(* -x and &x have no value at all, whatever x is *)
Theorem C77_negation_and_reduction_have_a_value_refuted :
  forall pow G m op a v, op = Minus \/ op = UAnd ->
    sim_eval pow G m a = Ok (Some v) -> sim_eval pow G m (EUn op a) = Ok None.
Proof. intros pow G m op a v [-> | ->] E; cbn [sim_eval]; rewrite E; reflexivity. Qed.
Print Assumptions C77_negation_and_reduction_have_a_value_refuted.
Example C77_ex :
  sim_eval (fun _ _ => UB) G8 (fun _ => Some 5) (EUn Minus (EVar 0)) = Ok None.
Proof. reflexivity. Qed.

(* a signed value that is widened keeps its bit pattern: never sign-extended *)
Theorem C78_sign_extension_refuted :
  forall pow G m a v w, sim_eval pow G m a = Ok (Some v) ->
    0 <= v < 2 ^ ewidth G a -> 0 < ewidth G a < w -> w <= 64 ->
    sim_eval pow G m (EExtend a w) = Ok (Some v).
Proof.
  intros pow G m a v w E R W W2. cbn [sim_eval]. rewrite E. cbn [obind].
  destruct (ksigned G (EExtend a w)); [|reflexivity].
  unfold u32. rewrite Z.mod_small by (change (2 ^ 32) with 4294967296; lia).
  rewrite shr64_ok by lia. cbn [obind].
  assert (Z.shiftr v (w - 1) = 0) as ->; [|reflexivity].
  rewrite Z.shiftr_div_pow2 by lia. apply Z.div_small. split; [lia|].
  apply Z.lt_le_trans with (2 ^ ewidth G a); [lia|]. apply Z.pow_le_mono_r; lia.
Qed.
Print Assumptions C78_sign_extension_refuted.
Example C78_ex : (* -1 in 8 bits, extended to 16 bits *)
  sim_eval (fun _ _ => UB) G8s (fun _ => Some 255) (EExtend (EVar 0) 16) = Ok (Some 255)
  /\ ev G8s (fun _ => 255) (EExtend (EVar 0) 16) = 65535.
Proof. split; vm_compute; reflexivity. Qed.

(* reading bit i of a scalar returns the i+1 bits from i on; reading a range is an error;
   writing bit i of a narrow scalar clears all other bits *)
Theorem C79_bit_read_refuted :
  forall w v i, 0 <= i < w -> i < 63 ->
    get_slice [1] w [v] [(i, i)] = Ok (Z.shiftr v i mod 2 ^ (i + 1)).
Proof. exact get_bit. Qed.
Print Assumptions C79_bit_read_refuted.
Theorem C79_range_read_refuted :
  forall w v h l, 0 < w -> 0 <= l < h -> get_slice [1] w [v] [(h, l)] = Throw.
Proof. exact get_range. Qed.
Print Assumptions C79_range_read_refuted.
Theorem C79_bit_write_refuted :
  forall w v i b, 0 <= i < w -> 2 * i + w <= 63 -> 0 <= v < 2 ^ w -> 0 <= b <= 1 ->
    set_slice [1] w [v] [(i, i)] b = Ok [b * 2 ^ i].
Proof. exact set_bit. Qed.
Print Assumptions C79_bit_write_refuted.
Example C79_ex : get_slice [1] 8 [255] [(2, 2)] = Ok 7 /\ set_slice [1] 8 [255] [(2, 2)] 0 = Ok [0].
Proof. split; vm_compute; reflexivity. Qed.

(* two non-blocking assignments to one variable: the first wins, the last should *)
Theorem C80_last_nonblocking_wins_refuted :
  forall pow G x a b m va vb,
    sim_eval pow G m a = Ok (Some va) -> sim_eval pow G m b = Ok (Some vb) ->
    sim_block pow G [SAssign NonBlocking (LVar x) a; SAssign NonBlocking (LVar x) b]
      {| ss_vals := m; ss_nba := [] |} = Ok {| ss_vals := m; ss_nba := [(x, va)] |}.
Proof.
  intros pow G x a b m va vb Ea Eb. cbn [sim_block sim_stmt ss_vals]. rewrite Ea. cbn [obind ss_vals ss_nba].
  unfold nba_emplace. cbn [existsb app]. rewrite Eb. cbn [obind ss_vals ss_nba]. cbn [existsb fst].
  rewrite Nat.eqb_refl. reflexivity.
Qed.
Print Assumptions C80_last_nonblocking_wins_refuted.
Example C80_ex :
  activate G8 [SAssign NonBlocking (LVar 0) (EConst 1 8 false); SAssign NonBlocking (LVar 0) (EConst 2 8 false)]
    (fun _ => 0) 0%nat = 2.
Proof. vm_compute. reflexivity. Qed.

(* a variable holding the pattern of a negative constant is not equal to it *)
Theorem C81_negative_constant_equality_refuted :
  forall pow G m x c w s v, m x = Some v -> 0 <= v < 2 ^ w -> 0 < w < 64 -> - 2 ^ (w - 1) <= c < 0 ->
    sim_eval pow G m (EBin Eq (EVar x) (EConst c w s)) = Ok (Some 0).
Proof.
  intros pow G m x c w s v E R W C. cbn [sim_eval]. rewrite E. cbn [obind ewidth is_rel].
  assert (2 ^ w <= 2 ^ 63) by (apply Z.pow_le_mono_r; lia).
  assert (2 ^ w = 2 * 2 ^ (w - 1)) by (rewrite <- Z.pow_succ_r by lia; f_equal; lia).
  assert (u64 c = c + 2 ^ 64) as U.
  { unfold u64. rewrite <- (Z.mod_add c 1 (2 ^ 64)) by lia. rewrite Z.mod_small; [lia|].
    change (2 ^ 64) with (2 * 2 ^ 63). lia. }
  rewrite (eq_eval pow v (u64 c) _ w) by (rewrite ?U; change (2 ^ 64) with (2 * 2 ^ 63); lia).
  cbn [omap sv_bin]. rewrite U. replace (v =? c + 2 ^ 64) with false; [reflexivity|].
  symmetry. apply Z.eqb_neq. change (2 ^ 64) with (2 * 2 ^ 63). lia.
Qed.
Print Assumptions C81_negative_constant_equality_refuted.
Example C81_ex : ev G8s (fun _ => 255) (EBin Eq (EVar 0) (EConst (-1) 8 true)) = 1.
Proof. vm_compute. reflexivity. Qed.

(* a case of a selector wider than 32 bits is missed; at 64 bits the comparison is undefined *)
Definition G40 : tenv := fun _ => {| d_width := 40; d_signed := false |}.
Theorem C82_wide_case_refuted :
  exists r body, in_range G40 r
    /\ activate G40 body r 1%nat = 9
    /\ exists st, sim_block (fun _ _ => UB) G40 body {| ss_vals := fun x => Some (r x); ss_nba := [] |} = Ok st
       /\ ss_nba st = [] /\ ss_vals st 1%nat = Some 0.
Proof.
  exists (fun x => match x with 0%nat => 2 ^ 30 | _ => 0 end),
    [SSwitch (EVar 0) [(2 ^ 30, [SAssign Blocking (LVar 1) (EConst 9 40 false)])] None].
  split; [intros [|x]; cbn; lia|]. split; [vm_compute; reflexivity|].
  eexists. split; [vm_compute; reflexivity|]. split; reflexivity.
Qed.
Print Assumptions C82_wide_case_refuted.
Theorem C82_case_64_is_UB_refuted : forall k, case_bits 64 k = UB.
Proof. reflexivity. Qed.
Print Assumptions C82_case_64_is_UB_refuted.
