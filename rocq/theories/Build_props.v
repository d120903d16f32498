(* C185-C191: widths and signs of expressions *)
From Verif Require Import Base SV_spec IR IRSem_spec IR_lemmas Const_spec Const_model Const_props Sim_model Build_spec Build_model Build_proofs.
Local Open Scope Z_scope.

(* C185: the value of an expression in a context of its width is that of its parts on their own *)
Theorem C185_value : forall G r e S, wt G e -> one_sign G S e -> cev G r (ewidth G e) S e = ev G r e.
Proof. exact cev_ev. Qed.
Theorem C185_assigned : forall G r e x, wt G e -> one_sign G (esigned G e) e -> d_width (G x) = ewidth G e -> stored G r (d_width (G x)) e = ev G r e.
Proof.
  intros G r e x W O E. unfold stored. rewrite (cwidth_ewidth G e W), E, Z.max_id, (cev_ev G r e _ W O). unfold enc. apply Z.mod_small. now apply ev_fits.
Qed.
(* expressions of unsigned signals and constants are like this, and those without division and arithmetic shift *)
Theorem C185_unsigned : forall G e, unsigned_leaves G e -> no_power e -> esigned G e = false /\ one_sign G false e.
Proof. intros G e U N. split; [now apply unsigned_esigned|now apply unsigned_one_sign]. Qed.
Theorem C185_no_division : forall G e, no_sign_op e -> forall S, one_sign G S e.
Proof. intros G e N S. now apply free_one_sign. Qed.
(* a part of an expression can be given a name *)
Theorem C185_named : forall G r e t s x, wt G e -> wt G s -> d_width (G t) = ewidth G s -> d_signed (G t) = esigned G s ->
  r t = ev G r s -> d_width (G x) = ewidth G e -> one_sign G (esigned G e) e -> one_sign G (esigned G e) (written_out t s e) ->
  stored G r (d_width (G x)) (written_out t s e) = stored G r (d_width (G x)) e.
Proof.
  intros G r e t s x We Ws Wd Sd V E O O'. pose proof (out_type G t s Wd Sd e) as [T1 T2].
  rewrite (C185_assigned G r (written_out t s e) x), (C185_assigned G r e x We O E).
  - now apply (out_ev G t s r Wd Sd Ws).
  - now apply out_wt.
  - now rewrite T2.
  - now rewrite T1.
Qed.

Definition G4 (u : nat -> bool) : tenv := fun x => {| d_width := 4; d_signed := u x |}.
Example C185_ex : let G := G4 (fun _ => false) in let e := EBin Add (EBin Divide (EVar 0) (EVar 1)) (EBin SignedShiftRight (EVar 2) (EConst 1 4 false)) in
  wt G e /\ unsigned_leaves G e /\ no_power e /\ stored G (fun x => match x with O => 13 | 1%nat => 4 | _ => 9 end) 4 e = 7.
Proof. cbn. repeat split; try lia; try discriminate; auto. Qed.

(* C186: with operands of both signs a part does not keep its value *)
Definition uns (b : bool) (x : nat) : bool := match x with O | 1%nat | 9%nat => b | _ => false end.
Theorem C186_division_refuted : ~ (forall G r e t s x, wt G e -> wt G s -> d_width (G t) = ewidth G s -> d_signed (G t) = esigned G s ->
  r t = ev G r s -> d_width (G x) = ewidth G e -> no_power e -> no_power s -> stored G r (d_width (G x)) (written_out t s e) = stored G r (d_width (G x)) e).
Proof.
  intros Q. specialize (Q (G4 (uns true)) (fun x => match x with O => 12 | 1%nat => 2 | 9%nat => 14 | _ => 0 end) (EBin Add (EVar 9) (EVar 2)) 9%nat (EBin Divide (EVar 0) (EVar 1)) 3%nat).
  vm_compute in Q. assert (6 = 14) as X; [|discriminate X]. apply Q; repeat split; try reflexivity; try discriminate; auto.
Qed.
Theorem C186_shift_refuted : ~ (forall G r e t s x, wt G e -> wt G s -> d_width (G t) = ewidth G s -> d_signed (G t) = esigned G s ->
  r t = ev G r s -> d_width (G x) = ewidth G e -> (exists a n, s = EBin SignedShiftRight a n) -> no_sign_op e -> stored G r (d_width (G x)) (written_out t s e) = stored G r (d_width (G x)) e).
Proof.
  intros Q. specialize (Q (G4 (uns true)) (fun x => match x with O => 12 | 1%nat => 1 | 9%nat => 14 | _ => 0 end) (EBin Or (EVar 9) (EVar 2)) 9%nat (EBin SignedShiftRight (EVar 0) (EVar 1)) 3%nat).
  vm_compute in Q. assert (6 = 14) as X; [|discriminate X]. apply Q; repeat split; try reflexivity; try discriminate; auto. exists (EVar 0), (EVar 1). reflexivity.
Qed.

(* C187: operands of different widths *)
Lemma base_signal : forall e, is_base e = signal e.
Proof. unfold is_base. induction e; cbn [root signal]; auto. Qed.
Lemma const_constant : forall e, is_const e = constant e.
Proof. now destruct e. Qed.
Theorem C187_extended : forall G op a b, wt G a -> wt G b -> constant a = false -> constant b = false ->
  (ewidth G a <= ewidth G b \/ signal a = true \/ is_shift op = true) ->
  exists a' b', build G op a b = Ok (EBin op a' b') /\ wt G a' /\ wt G b' /\ ewidth G a' = Z.max (ewidth G a) (ewidth G b) /\ ewidth G b' = ewidth G a' /\
    esigned G a' = esigned G a /\ esigned G b' = esigned G b /\ forall r, number G r a' = number G r a /\ number G r b' = number G r b.
Proof.
  intros G op a b Wa Wb Ca Cb L. unfold build. rewrite const_constant, Cb. cbn [negb]. rewrite andb_true_r.
  assert (forall e w, wt G e -> constant e = false -> ewidth G e <= w -> wt G (resize_var e w)) as RW by (intros e w W C H; destruct e; try discriminate C; cbn [resize_var wt]; split; assumption).
  assert (is_shift op = true \/ is_shift op = false) as Sh by (destruct (is_shift op); auto).
  destruct (Z.lt_trichotomy (ewidth G a) (ewidth G b)) as [Lt|[Eq|Gt]].
  - (* a is narrower *)
    replace (ewidth G b <? ewidth G a) with false by lia. rewrite andb_false_r. replace (ewidth G a =? ewidth G b) with false by lia. cbn [negb].
    assert (safe_to_resize G a (ewidth G b) = true) as -> by (unfold safe_to_resize; destruct (is_base a); [lia|reflexivity]).
    rewrite resize_width, Z.eqb_refl. exists (resize_var a (ewidth G b)), b. rewrite resize_width, resize_sign. split; [reflexivity|]. split; [apply RW; auto; lia|]. split; [exact Wb|]. split; [lia|]. split; [reflexivity|]. split; [reflexivity|]. split; [reflexivity|]. intros r. split; [|reflexivity]. apply resize_number; [exact Wa|lia|now rewrite const_constant].
  - replace (ewidth G b <? ewidth G a) with false by lia. rewrite andb_false_r. replace (ewidth G a =? ewidth G b) with true by lia. cbn [negb]. exists a, b. repeat split; auto; lia.
  - (* b is narrower *)
    replace (ewidth G b <? ewidth G a) with true by lia. replace (ewidth G a =? ewidth G b) with false by lia. cbn [negb]. rewrite andb_true_r.
    assert (build G op a b = Ok (EBin op a (resize_var b (ewidth G a)))) as B.
    { unfold build. rewrite const_constant, Cb. cbn [negb]. rewrite andb_true_r. replace (ewidth G b <? ewidth G a) with true by lia. replace (ewidth G a =? ewidth G b) with false by lia. cbn [negb]. rewrite andb_true_r.
      destruct Sh as [Sh|Sh]; rewrite Sh; [reflexivity|]. assert (safe_to_resize G a (ewidth G b) = false) as ->. { unfold safe_to_resize. rewrite base_signal. destruct L as [L|[L|L]]; [lia|rewrite L; lia|congruence]. }
      assert (safe_to_resize G b (ewidth G a) = true) as -> by (unfold safe_to_resize; destruct (is_base b); [lia|reflexivity]). now rewrite resize_width, Z.eqb_refl. }
    unfold build in B. rewrite const_constant, Cb in B. cbn [negb] in B. rewrite andb_true_r in B. replace (ewidth G b <? ewidth G a) with true in B by lia. replace (ewidth G a =? ewidth G b) with false in B by lia. cbn [negb] in B. rewrite andb_true_r in B. rewrite B.
    exists a, (resize_var b (ewidth G a)). rewrite resize_width, resize_sign. split; [reflexivity|]. split; [exact Wa|]. split; [apply RW; auto; lia|]. split; [lia|]. split; [reflexivity|]. split; [reflexivity|]. split; [reflexivity|]. intros r. split; [reflexivity|]. apply resize_number; [exact Wb|lia|now rewrite const_constant].
Qed.
(* a constant takes the width of the other operand, and keeps its number if it fits *)
Theorem C187_constant_right : forall G op a v w s, wt G a -> 0 < w ->
  build G op a (EConst v w s) = Ok (EBin op a (EConst v (ewidth G a) s)) /\
  (representable v (ewidth G a) s -> forall r, number G r (EConst v (ewidth G a) s) = v).
Proof.
  intros G op a v w s Wa P. pose proof (ewidth_pos G a Wa) as Pa. split; [|intros R r; now apply const_number].
  unfold build. cbn [ewidth is_const negb resize_var]. rewrite andb_false_r.
  destruct (is_shift op && (w <? ewidth G a)); [reflexivity|]. destruct (Z.eqb_spec (ewidth G a) w) as [E|E]; cbn [negb]; [now rewrite E|].
  unfold safe_to_resize. cbn [is_base root ewidth]. now rewrite Z.eqb_refl.
Qed.
Theorem C187_constant_left : forall G op b v w s, wt G b -> 0 < w -> constant b = false -> is_shift op = false ->
  build G op (EConst v w s) b = Ok (EBin op (EConst v (ewidth G b) s) b) /\
  (representable v (ewidth G b) s -> forall r, number G r (EConst v (ewidth G b) s) = v).
Proof.
  intros G op b v w s Wb P C Sh. pose proof (ewidth_pos G b Wb) as Pb. split; [|intros R r; now apply const_number].
  unfold build. rewrite Sh. cbn [andb ewidth]. rewrite const_constant, C. cbn [negb]. destruct (Z.eqb_spec w (ewidth G b)) as [E|E]; cbn [negb]; [now rewrite E|].
  unfold safe_to_resize. cbn [is_base root andb resize_var ewidth]. now rewrite Z.eqb_refl.
Qed.
Definition G84 : tenv := fun x => {| d_width := match x with 3%nat => 4 | _ => 8 end; d_signed := true |}.
Example C187_ex : build G84 Add (EVar 3) (EVar 0) = Ok (EBin Add (EExtend (EVar 3) 8) (EVar 0)) /\ wt G84 (EVar 3) /\ wt G84 (EVar 0) /\
  number G84 (fun _ => 12) (EVar 3) = -4 /\ number G84 (fun _ => 12) (EExtend (EVar 3) 8) = -4 /\ ev G84 (fun _ => 12) (EExtend (EVar 3) 8) = 252.
Proof. repeat split. Qed.

(* C188: an operator that is wider than the other operand is cut off *)
Theorem C188_cut_off : forall G op a b, wt G a -> wt G b -> ewidth G b < ewidth G a -> signal a = false -> constant a = false -> constant b = false -> is_shift op = false ->
  build G op a b = Ok (EBin op (EExtend a (ewidth G b)) b) /\ forall r, ev G r (EExtend a (ewidth G b)) = ev G r a mod 2 ^ ewidth G b.
Proof.
  intros G op a b Wa Wb L Sg Ca Cb Sh. pose proof (ewidth_pos G b Wb) as Pb. split.
  - unfold build. rewrite Sh, const_constant, Cb. cbn [andb negb]. rewrite andb_true_r. replace (ewidth G a =? ewidth G b) with false by lia. cbn [negb]. unfold safe_to_resize. rewrite base_signal, Sg. rewrite resize_width, Z.eqb_refl. destruct a; try discriminate Ca; reflexivity.
  - intros r. cbn [ev]. unfold enc.
    assert (num (esigned G a) (ewidth G a) (ev G r a) mod 2 ^ ewidth G a = ev G r a) as N. { rewrite num_mod' by lia. apply Z.mod_small. now apply ev_fits. }
    rewrite <- N at 2. replace (2 ^ ewidth G a) with (2 ^ ewidth G b * 2 ^ (ewidth G a - ewidth G b)) by (rewrite <- Z.pow_add_r by lia; f_equal; lia).
    rewrite Z.rem_mul_r by (apply Z.pow_nonzero || apply Z.pow_pos_nonneg; lia). rewrite Z.mul_comm, Z_mod_plus_full. symmetry. apply Z.mod_mod. apply Z.pow_nonzero; lia.
Qed.
Theorem C188_refuted : ~ (forall G op a b, wt G a -> wt G b -> constant a = false -> constant b = false ->
  exists a' b', build G op a b = Ok (EBin op a' b') /\ forall r, number G r a' = number G r a /\ number G r b' = number G r b).
Proof.
  intros Q. destruct (Q (fun x => {| d_width := match x with 3%nat => 4 | _ => 8 end; d_signed := false |}) Add (EBin Add (EVar 0) (EVar 1)) (EVar 3)) as (a' & b' & E & N); try (cbn; repeat split; try lia; auto; fail).
  injection E as <- <-. destruct (N (fun _ => 8)) as [N1 _]. vm_compute in N1. discriminate N1.
Qed.

(* C189: a constant that does not fit is taken *)
Theorem C189_refuted : ~ (forall G op a v w s, wt G a -> 1 <= w <= 64 -> representable v w s ->
  (exists e', build G op a (EConst v w s) = Ok (EBin op a e') /\ forall r, number G r e' = v) \/ build G op a (EConst v w s) = Throw).
Proof.
  intros Q. destruct (Q (G4 (fun _ => false)) Add (EVar 0) 20 8 false) as [(e' & E & N)|E].
  - cbn. lia.
  - lia.
  - cbn. lia.
  - injection E as <-. specialize (N (fun _ => 0)). vm_compute in N. discriminate N.
  - discriminate E.
Qed.

(* C190: using a constant with an operand of another width changes the expressions it is already in *)
Theorem C190_changed : forall cw c w1 w2, w1 <> w2 ->
  op_width (build_const cw w1 c) (OpVar w1) (OpConst c) = Ok w1 /\ op_width (build_const (build_const cw w1 c) w2 c) (OpVar w1) (OpConst c) = Throw.
Proof.
  intros cw c w1 w2 N. assert (build_const cw w1 c c = w1) as E1. { unfold build_const, set_cwidth. destruct (Z.eqb_spec w1 (cw c)); [auto|]. now rewrite Nat.eqb_refl. }
  assert (build_const (build_const cw w1 c) w2 c c = w2) as E2. { unfold build_const at 1. destruct (Z.eqb_spec w2 (build_const cw w1 c c)); [congruence|]. unfold set_cwidth. now rewrite Nat.eqb_refl. }
  unfold op_width. cbn [owidth]. rewrite E1, E2, Z.eqb_refl. split; [reflexivity|]. now replace (w1 =? w2) with false by lia.
Qed.
Theorem C190_refuted : ~ (forall cw c w1 w2 w, op_width cw (OpVar w1) (OpConst c) = Ok w -> op_width (build_const cw w2 c) (OpVar w1) (OpConst c) = Ok w).
Proof. intros Q. specialize (Q (fun _ => 4) O 4 8 4 eq_refl). discriminate Q. Qed.

(* C191: the check of assignments *)
Theorem C191_accepted : forall G w s e e', wt G e -> 0 < w -> verify G w s e = Ok e' ->
  wt G e' /\ ewidth G e' = w /\ ksigned G e' = s /\ esigned G e' = esigned G e /\ (e' = e \/ exists v w0 es, e = EConst v w0 es /\ e' = EConst v w es).
Proof.
  intros G w s e e' W P V. unfold verify in V. set (k := match e with EConst v ew es => _ | _ => Ok e end) in V. destruct k as [e1| |] eqn:K; try discriminate V. cbn [obind] in V.
  destruct (Z.eqb_spec (ewidth G e1) w) as [E|E]; [|discriminate V]. cbn [negb] in V. destruct (Bool.eqb (ksigned G e1) s) eqn:S1; [|discriminate V]. cbn [negb] in V. destruct (check_expr G e1); [|discriminate V]. injection V as <-.
  apply Bool.eqb_prop in S1.
  assert (e1 = e \/ exists v w0 es, e = EConst v w0 es /\ e1 = EConst v w es) as D.
  { subst k. destruct e; try (injection K as <-; auto; fail). destruct (w0 =? w); [injection K as <-; auto|]. destruct (make_const v w s0); try discriminate K; injection K as <-; eauto 8. }
  split; [|split; [exact E|split; [exact S1|split; [|exact D]]]].
  - destruct D as [-> |(v & w0 & es & -> & ->)]; [exact W|cbn; exact P].
  - destruct D as [-> |(v & w0 & es & -> & ->)]; reflexivity.
Qed.
(* what is stored is the value of the expression; a constant keeps its number *)
Theorem C191_stored : forall G w s e e', wt G e -> 0 < w -> one_sign G (esigned G e) e -> verify G w s e = Ok e' -> forall r, stored G r w e' = ev G r e'.
Proof.
  intros G w s e e' W P O V r. destruct (C191_accepted G w s e e' W P V) as (W' & E & _ & _ & D). unfold stored. rewrite (cwidth_ewidth G e' W'), E, Z.max_id. rewrite <- E at 2.
  rewrite (cev_ev G r e'); [|exact W'|destruct D as [-> |(v & w0 & es & -> & ->)]; [exact O|exact I]]. unfold enc. rewrite <- E. apply Z.mod_small. now apply ev_fits.
Qed.
Theorem C191_constant : forall G w s v ew es e', int64 v -> 1 <= ew <= 64 -> 1 <= w <= 64 -> (es = true \/ 0 <= v) -> representable v ew es ->
  verify G w s (EConst v ew es) = Ok e' -> representable v w es /\ forall r, number G r e' = number G r (EConst v ew es).
Proof.
  intros G w s v ew es e' I E W Sg R V. unfold verify in V. destruct (Z.eqb_spec ew w) as [->|N].
  - cbn [obind] in V. destruct (negb _); [discriminate V|]. destruct (negb _); [discriminate V|]. destruct (check_expr _ _); [|discriminate V]. injection V as <-. auto.
  - destruct (C07_const_accepted_iff_representable v w es I W) as [A B].
    assert (meant v es = v) as M. { unfold meant. destruct es; [reflexivity|]. destruct Sg as [Sg|Sg]; [discriminate Sg|]. apply Z.mod_small. unfold int64 in I. lia. }
    rewrite M in A, B. assert (representable v w es \/ ~ representable v w es) as [Y|Y] by (unfold representable; destruct es; lia).
    + split; [exact Y|]. rewrite (A Y) in V. cbn [obind] in V. destruct (negb _); [discriminate V|]. destruct (negb _); [discriminate V|]. destruct (check_expr _ _); [|discriminate V]. injection V as <-. intros r. rewrite !const_number by (assumption || lia). reflexivity.
    + rewrite (B Y) in V. cbn [obind ewidth] in V. destruct (Z.eqb_spec ew w); [contradiction|discriminate V].
Qed.
Theorem C191_rejected : forall G w s e, constant e = false -> (ewidth G e <> w \/ ksigned G e <> s) -> verify G w s e = Throw.
Proof.
  intros G w s e C D. unfold verify. assert (forall X, match e with EConst v ew es => X v ew es | _ => Ok e end = Ok e) as Y by (intros X; destruct e; try reflexivity; discriminate C). rewrite Y. cbn [obind].
  destruct (Z.eqb_spec (ewidth G e) w); [|reflexivity]. cbn [negb]. destruct (Bool.eqb (ksigned G e) s) eqn:S1; [|reflexivity]. apply Bool.eqb_prop in S1. destruct D; contradiction.
Qed.
Example C191_ex : let G := G4 (fun _ => false) in let e := EBin Add (EVar 0) (EBin Divide (EVar 1) (EConst 3 4 false)) in
  verify G 4 false e = Ok e /\ wt G e /\ one_sign G (esigned G e) e /\ verify G 4 false (EConst 3 32 false) = Ok (EConst 3 4 false) /\ verify G 4 false (EConst 16 32 false) = Throw.
Proof. cbn. repeat split; try lia; auto. Qed.
Print Assumptions C185_value.
Print Assumptions C185_assigned.
Print Assumptions C185_unsigned.
Print Assumptions C185_no_division.
Print Assumptions C185_named.
Print Assumptions C186_division_refuted.
Print Assumptions C186_shift_refuted.
Print Assumptions C187_extended.
Print Assumptions C187_constant_right.
Print Assumptions C187_constant_left.
Print Assumptions C188_cut_off.
Print Assumptions C188_refuted.
Print Assumptions C189_refuted.
Print Assumptions C190_changed.
Print Assumptions C190_refuted.
Print Assumptions C191_accepted.
Print Assumptions C191_stored.
Print Assumptions C191_constant.
Print Assumptions C191_rejected.
