(* C192-C204: the checks of a design *)
From Coq Require Import Permutation.
From Verif Require Import Base SV_spec IR IRSem_spec IR_lemmas Design_spec Zero_spec Zero_model Dce_model Check_spec Check_model Check_proofs.
Local Open Scope Z_scope.

(* C192: resets *)
Theorem C192_one_edge : forall kind active d, check_active_high kind active d = Ok tt -> forall x, kind x = Port TAsyncReset ->
  (forall b c, on_edge d x b -> on_edge d x c -> b = c) /\ (forall b a, on_edge d x b -> active x = Some a -> b = a).
Proof.
  intros kind active d E x K. destruct (check_map _ _ _ E) as (m & (A & B & C & D) & _). split.
  - intros b c H J. apply on_edge_events in H, J. apply B in H; [|exact K]. apply B in J; [|exact K]. congruence.
  - intros b a H F. apply on_edge_events in H. now apply (D x b a).
Qed.
Theorem C192_synchronous : forall kind active d, check_active_high kind active d = Ok tt -> forall x b, kind x = Port TReset -> ~ on_edge d x b.
Proof. intros kind active d E x b K H. destruct (check_map _ _ _ E) as (m & (A & B & C & D) & _). apply on_edge_events in H. now apply (C x b). Qed.
Theorem C192_tests : forall kind active d, check_active_high kind active d = Ok tt -> forall x c b, kind x = Port TAsyncReset -> tests d c -> level_test x b c -> on_edge d x b.
Proof. intros kind active d E x c b K Te L. destruct (check_map _ _ _ E) as (m & (A & B & C & D) & T). apply on_edge_events. apply (A x b). now apply (T c Te x b L). Qed.
(* whenever a process of the usual form runs, it takes the branch of the reset exactly when the reset is at the level
   that follows its edge; at the edge it is *)
Lemma level_truth : forall G r x b c, d_width (G x) = 1 -> level_test x b c -> truth G r c = (ev G r (EVar x) =? (if b then 1 else 0)).
Proof.
  intros G r x b c W L. assert (ev G r (EVar x) = 0 \/ ev G r (EVar x) = 1) as [V|V] by (cbn [ev]; unfold enc; rewrite W; pose proof (Z.mod_pos_bound (r x) (2 ^ 1) ltac:(reflexivity)); lia);
    destruct L; unfold truth; cbn [ev] in *; rewrite V; cbn [ewidth]; rewrite ?W; reflexivity.
Qed.
Theorem C192_reset_branch : forall kind active G d, check_active_high kind active d = Ok tt ->
  forall it evs c A B x b edge_of, In it d -> i_proc it = PFf evs [SIf c A B] -> kind x = Port TAsyncReset -> d_width (G x) = 1 -> level_test x b c -> In (edge_of, x) evs ->
  (forall st, run G [SIf c A B] st = if ev G (st_cur st) (EVar x) =? (if edge_of then 1 else 0) then run G A st else run G B st) /\
  (forall r r', edge G r r' (edge_of, x) = true -> (ev G r' (EVar x) =? (if edge_of then 1 else 0)) = true).
Proof.
  intros kind active G d E it evs c A B x b eo I P K W L Ie. assert (eo = b) as ->.
  { apply (proj1 (C192_one_edge _ _ _ E x K)); [exists it; rewrite P; auto|]. apply (C192_tests _ _ _ E x c b K); [|exact L]. exists it, A, B. split; [exact I|]. rewrite P. apply in_here. now left. }
  split.
  - intros st. cbn [run exec]. rewrite (level_truth G (st_cur st) x b c W L). destruct (_ =? _); [fold (run G A st)|fold (run G B st)].
    + destruct (st_status (run G A st)); reflexivity.
    + destruct (st_status (run G B st)); reflexivity.
  - intros r r' Ed. unfold edge in Ed. cbn [fst snd] in Ed. assert (ev G r' (EVar x) = 0 \/ ev G r' (EVar x) = 1) as V by (cbn [ev]; unfold enc; rewrite W; pose proof (Z.mod_pos_bound (r' x) (2 ^ 1) ltac:(reflexivity)); lia). destruct b; lia.
Qed.
(* designs whose tests are in processes that have the edge pass *)
Theorem C192_passes : forall kind active d,
  (forall x b, on_edge d x b -> kind x <> Port TReset) ->
  (forall x b c, on_edge d x b -> on_edge d x c -> kind x = Port TAsyncReset -> b = c) ->
  (forall x b a, on_edge d x b -> kind x = Port TAsyncReset -> active x = Some a -> b = a) ->
  (forall it c t f x b, In it d -> IRSem_spec.inside (SIf c t f) (body_of (i_proc it)) -> level_test x b c -> kind x = Port TAsyncReset -> In (b, x) (events_of (i_proc it))) ->
  check_active_high kind active d = Ok tt.
Proof.
  intros kind active d NR Cons Act Ts. destruct (items_pass kind active d [] []) as (m & E); cbn [app].
  - cbn. repeat split; try contradiction; discriminate.
  - intros x b H. apply (NR x b). now apply on_edge_events.
  - intros x b c H J. apply (Cons x b c); now apply on_edge_events.
  - intros x b a H. apply Act. now apply on_edge_events.
  - exact Ts.
  - unfold check_active_high. now rewrite E.
Qed.
Theorem C192_sensitivity : forall kind d, check_sensitivity kind d = Ok tt <-> forall x b, on_edge d x b -> kind x = Port TClock \/ kind x = Port TAsyncReset \/ kind x = Cast TClock \/ kind x = Cast TAsyncReset.
Proof.
  intros kind d. unfold check_sensitivity. destruct (forallb _ d) eqn:F.
  - split; [|reflexivity]. intros _ x b (it & I & H). rewrite forallb_forall in F. specialize (F it I). rewrite forallb_forall in F. specialize (F _ H). cbn [snd] in F. unfold sensitive in F. destruct (kind x) as [[]|[]|]; try discriminate F; auto.
  - split; [discriminate|]. intros H. exfalso. apply not_true_iff_false in F. apply F. apply forallb_forall. intros it I. apply forallb_forall. intros [b x] J. cbn [snd]. unfold sensitive.
    destruct (H x b) as [-> |[-> |[-> | ->]]]; try reflexivity. exists it. auto.
Qed.
Definition rk (x : var) : sigkind := match x with O => Port TClock | 1%nat => Port TAsyncReset | _ => Plain end.
Definition ff (low : bool) (c : expr) : item := {| i_id := 0; i_gen := 0; i_proc := PFf [(true, 0%nat); (negb low, 1%nat)] [SIf c [SAssign NonBlocking (LVar 2) (EConst 0 1 false)] [SAssign NonBlocking (LVar 2) (EVar 3)]] |}.
Definition G1 : tenv := fun _ => {| d_width := 1; d_signed := false |}.
Example C192_ex : check_active_high rk (fun _ => Some false) [ff true (EUn UInvert (EVar 1))] = Ok tt /\ check_active_high rk (fun _ => None) [ff true (EVar 1)] = Throw /\
  check_active_high rk (fun _ => None) [ff true (EUn UNot (EVar 1)); ff false (EVar 1)] = Throw /\ check_sensitivity rk [ff true (EVar 1)] = Ok tt.
Proof. repeat split. Qed.

(* C193: other tests of the reset, and casts *)
Theorem C193_refuted : ~ (forall kind active G d, check_active_high kind active d = Ok tt ->
  forall it evs c A B x b, In it d -> i_proc it = PFf evs [SIf c A B] -> kind x = Port TAsyncReset -> d_width (G x) = 1 -> evars c = [x] -> In (b, x) evs ->
  forall r, ev G r (EVar x) = (if b then 1 else 0) -> truth G r c = true).
Proof.
  intros Q. specialize (Q rk (fun _ => None) G1 [ff false (EBin Eq (EVar 1) (EConst 0 1 false))] eq_refl _ _ _ _ _ 1%nat true (or_introl eq_refl) eq_refl eq_refl eq_refl eq_refl (or_intror (or_introl eq_refl)) (fun _ => 1) eq_refl).
  vm_compute in Q. discriminate Q.
Qed.
Theorem C193_cast_refuted : ~ (forall kind active d, check_active_high kind active d = Ok tt -> check_sensitivity kind d = Ok tt ->
  forall x b c, kind x = Port TAsyncReset \/ kind x = Cast TAsyncReset -> on_edge d x b -> on_edge d x c -> b = c).
Proof.
  intros Q. set (k := fun x => match x with O => Port TClock | _ => Cast TAsyncReset end). specialize (Q k (fun _ => None) [ff true (EUn UNot (EVar 1)); ff false (EVar 1)] eq_refl eq_refl 1%nat true false (or_intror eq_refl)).
  assert (true = false) as X; [|discriminate X]. apply Q.
  - exists (ff false (EVar 1)). split; [right; now left|right; now left].
  - exists (ff true (EUn UNot (EVar 1))). split; [now left|right; now left].
Qed.

(* C194: the order of the processes matters *)
Theorem C194_refuted : ~ (forall kind active d e, Permutation d e -> check_active_high kind active d = check_active_high kind active e).
Proof.
  intros Q. set (c := {| i_id := 1; i_gen := 0; i_proc := PComb [SIf (EVar 1) [SAssign Blocking (LVar 4) (EConst 0 1 false)] [SAssign Blocking (LVar 4) (EVar 3)]] |}).
  specialize (Q rk (fun _ => None) [ff false (EVar 1); c] [c; ff false (EVar 1)] (perm_swap _ _ _)). vm_compute in Q. discriminate Q.
Qed.

(* C195: reported loops are loops *)
Theorem C195_reported : forall d, check_loop d = Throw <-> exists it l e, In it d /\ i_proc it = PWire l e /\ operand (lhs_var l) e.
Proof.
  intros d. unfold check_loop. destruct (existsb _ d) eqn:F.
  - split; [|reflexivity]. intros _. apply existsb_exists in F as (it & I & H). destruct (i_proc it) as [l e| |] eqn:P; try discriminate H. exists it, l, e. split; [exact I|]. split; [exact P|]. now apply has_var_operand.
  - split; [discriminate|]. intros (it & l & e & I & P & O). exfalso. apply not_true_iff_false in F. apply F. apply existsb_exists. exists it. split; [exact I|]. rewrite P. now apply has_var_operand.
Qed.
Theorem C195_reads_itself : forall d, check_loop d = Throw -> exists it l e, In it d /\ i_proc it = PWire l e /\ assigns (lhs_var l) (body_of (i_proc it)) /\ reads (lhs_var l) (body_of (i_proc it)).
Proof.
  intros d H. apply C195_reported in H as (it & l & e & I & P & O). exists it, l, e. split; [exact I|]. split; [exact P|]. rewrite P. cbn [body_of]. split.
  - exists Blocking, l, e. split; [apply in_here; now left|reflexivity].
  - exists (SAssign Blocking l e). split; [apply in_here; now left|]. apply rd_assign. right. now apply operand_evars.
Qed.
Definition wire (l : lhs) (e : expr) : item := {| i_id := 0; i_gen := 0; i_proc := PWire l e |}.
Example C195_ex : check_loop [wire (LVar 0) (EBin Add (EVar 1) (EUn UInvert (EVar 0)))] = Throw /\ check_loop [wire (LVar 0) (EBin Add (EVar 1) (EVar 2))] = Ok tt.
Proof. split; reflexivity. Qed.

(* C196: loops that are not reported: there is no stable state *)
Definition unstable (G : tenv) (d : design) : Prop := forall r, ~ settled G d r.
Lemma bit_cases : forall v, v mod 2 = 0 \/ v mod 2 = 1.
Proof. intros v. pose proof (Z.mod_pos_bound v 2 ltac:(lia)). lia. Qed.
Lemma put_bit : forall old v, Z.odd (put_bits old 0 1 v) = Z.odd v.
Proof.
  intros old v. unfold put_bits. change (Z.ones 1) with 1. rewrite !Z.shiftl_0_r. rewrite <- !Z.bit0_odd, Z.lor_spec, Z.ldiff_spec. change (2 ^ 1) with (2 ^ 1). rewrite Z.mod_pow2_bits_low by lia. change (Z.testbit 1 0) with true. cbn [negb]. now rewrite andb_false_r.
Qed.
Theorem C196_two_wires_refuted : ~ (forall G d, check_loop d = Ok tt -> exists r, settled G d r).
Proof.
  intros Q. destruct (Q G1 [wire (LVar 0) (EUn UInvert (EVar 1)); wire (LVar 1) (EVar 0)] eq_refl) as (r & S).
  pose proof (S _ (or_introl eq_refl) eq_refl 0%nat) as A. pose proof (S _ (or_intror (or_introl eq_refl)) eq_refl 1%nat) as B.
  cbn [body_of wire i_proc activate commit run exec start_state do_assign st_cur st_nba st_status target fold_left do_write upd Nat.eqb w_var w_lo w_n w_val d_width G1 ev ewidth sv_un] in A, B.
  apply (f_equal Z.odd) in A, B. rewrite put_bit in A, B. unfold enc in A, B. change (2 ^ 1) with 2 in A, B.
  destruct (bit_cases (r 0%nat)) as [E0|E0], (bit_cases (r 1%nat)) as [E1|E1]; rewrite E1 in A; rewrite E0 in B; rewrite <- !Z.bit0_odd, <- !Z.bit0_mod in *.
  all: unfold Z.b2z in *; repeat match goal with H : context [if ?b then 1 else 0] |- _ => destruct b eqn:?; try discriminate end; try discriminate; cbn in A, B; try congruence.
Qed.
Theorem C196_condition_refuted : ~ (forall G l e, check_loop [wire l e] = Ok tt -> lhs_var l = 0%nat -> exists r, settled G [wire l e] r).
Proof.
  intros Q. destruct (Q G1 (LVar 0) (ECond (EVar 0) (EConst 0 1 false) (EConst 1 1 false)) eq_refl eq_refl) as (r & S).
  pose proof (S _ (or_introl eq_refl) eq_refl 0%nat) as A.
  cbn [body_of wire i_proc activate commit run exec start_state do_assign st_cur st_nba st_status target fold_left do_write upd Nat.eqb w_var w_lo w_n w_val d_width G1 ev] in A.
  apply (f_equal Z.odd) in A. rewrite put_bit in A. unfold enc in A. change (2 ^ 1) with 2 in A. rewrite Zmod_odd in A. destruct (Z.odd (r 0%nat)); discriminate A.
Qed.
Theorem C196_slice_refuted : ~ (forall G l e, check_loop [wire l e] = Ok tt -> lhs_var l = 0%nat -> exists r, settled G [wire l e] r).
Proof.
  intros Q. destruct (Q (fun _ => {| d_width := 2; d_signed := false |}) (LSlice 0 0 0) (EUn UInvert (ESlice (EVar 0) 0 0)) eq_refl eq_refl) as (r & S).
  pose proof (S _ (or_introl eq_refl) eq_refl 0%nat) as A.
  cbn [body_of wire i_proc activate commit run exec start_state do_assign st_cur st_nba st_status target fold_left do_write upd Nat.eqb w_var w_lo w_n w_val d_width ev ewidth sv_un] in A.
  apply (f_equal Z.odd) in A. replace (0 - 0 + 1) with 1 in A by lia. rewrite put_bit in A. unfold enc in A. change (2 ^ 1) with 2 in A. change (2 ^ 0) with 1 in A. rewrite Z.div_1_r in A.
  change (2 ^ 2) with (2 * 2) in A. rewrite (Z.rem_mul_r (r 0%nat) 2 2) in A by lia. rewrite (Z.mul_comm 2), Z_mod_plus_full, Z.mod_mod in A by lia. rewrite !Zmod_odd in A.
  destruct (Z.odd (r 0%nat)); discriminate A.
Qed.

(* C197: a wire that does not depend on itself is reported *)
Lemma put_bit_again : forall v q, put_bits (put_bits v 0 1 q) 0 1 q = put_bits v 0 1 q.
Proof.
  intros v q. unfold put_bits. apply Z.bits_inj'. intros n P. rewrite !Z.lor_spec, !Z.ldiff_spec, !Z.lor_spec, !Z.ldiff_spec. destruct (Z.testbit v n), (Z.testbit (Z.shiftl (Z.ones 1) 0) n), (Z.testbit (Z.shiftl (q mod 2 ^ 1) 0) n); reflexivity.
Qed.
Lemma bit1_kept : forall v q, Z.land (put_bits v 0 1 q mod 2 ^ 2) 2 = Z.land (v mod 2 ^ 2) 2.
Proof.
  intros v q. apply Z.bits_inj'. intros n P. rewrite <- !Z.land_ones by lia. unfold put_bits. rewrite !Z.land_spec, !Z.lor_spec, !Z.ldiff_spec, !Z.shiftl_0_r, <- Z.land_ones, Z.land_spec by lia. destruct (Z.eq_dec n 0) as [->|N]; [now rewrite !andb_false_r|].
  rewrite (Z.ones_spec_high 1 n) by lia. cbn [negb]. rewrite andb_true_r, andb_false_r, orb_false_r. reflexivity.
Qed.
Theorem C197_refuted : ~ (forall G l e, wt G e -> (forall r, settled G [wire l e] (activate G [SAssign Blocking l e] r)) -> check_loop [wire l e] = Ok tt).
Proof.
  intros Q. set (G := fun _ : var => {| d_width := 2; d_signed := false |}). set (e := EUn UOr (EBin And (EVar 0) (EConst 2 2 false))). specialize (Q G (LSlice 0 0 0) e).
  assert (Throw = Ok tt) as X; [|discriminate X]. apply Q; [cbn; repeat split; lia|]. intros r it I _ x. destruct I as [<-|[]].
  change (activate G (body_of (i_proc (wire (LSlice 0 0 0) e)))) with (activate G [SAssign Blocking (LSlice 0 0 0) e]).
  assert (forall r x, activate G [SAssign Blocking (LSlice 0 0 0) e] r x = if Nat.eqb x 0 then put_bits (r 0%nat) 0 1 (ev G r e) else r x) as A by reflexivity.
  rewrite !A. set (r' := activate G [SAssign Blocking (LSlice 0 0 0) e] r). assert (ev G r' e = ev G r e) as ->.
  { assert (forall s, ev G s e = bz (negb (Z.land (s 0%nat mod 2 ^ 2) 2 =? 0))) as Ee by reflexivity. rewrite !Ee. unfold r'. rewrite A. cbn [Nat.eqb]. now rewrite bit1_kept. }
  destruct (Nat.eqb x 0); [|reflexivity]. apply put_bit_again.
Qed.

(* C198: every bit that should be driven is *)
Theorem C198_connected : forall G d gs, (forall x, 0 <= d_width (G x)) ->
  (check_connectivity G d gs = Ok tt <->
   forall pre g post p, gs = pre ++ g :: post -> g_opaque g = false -> In p (g_ports g) -> (gp_dir p = DIn -> exists h, In h pre /\ g_opaque h = false) ->
   forall i, 0 <= i < d_width (G (gp_var p)) -> driven_in d (gp_var p) i).
Proof.
  intros G d gs P. assert (forall gs top, check_gens G d top gs = Ok tt <->
   forall pre g post p, gs = pre ++ g :: post -> g_opaque g = false -> In p (g_ports g) -> (gp_dir p = DIn -> top = false \/ exists h, In h pre /\ g_opaque h = false) ->
   forall i, 0 <= i < d_width (G (gp_var p)) -> driven_in d (gp_var p) i) as K.
  { clear gs. induction gs as [|g gs IH]; intros top; cbn [check_gens]; [split; [intros _ pre g post p E; destruct pre; discriminate E|reflexivity]|].
    destruct (g_opaque g) eqn:O.
    - rewrite IH. split; intros H pre g0 post p E O0 I D i Bi.
      + destruct pre as [|h pre]; [injection E as <- <-; congruence|]. injection E as <- ->. apply (H pre g0 post p eq_refl O0 I); [|exact Bi]. intros Q. destruct (D Q) as [T|(h & [-> |J] & Oh)]; [auto|congruence|right; eauto].
      + subst gs. apply (H (g :: pre) g0 post p eq_refl O0 I); [|exact Bi]. intros Q. destruct (D Q) as [T|(h & J & Oh)]; [auto|right; exists h; split; [now right|exact Oh]].
    - destruct (forallb (port_ok G d top) (g_ports g)) eqn:F.
      + rewrite IH. rewrite forallb_forall in F. split; intros H pre g0 post p E O0 I D i Bi.
        * destruct pre as [|h pre]; [injection E as <- <-|].
          -- specialize (F p I). apply port_ok_iff in F; [|apply P]. destruct F as [[F1 F2]|F]; [|now apply F]. destruct (D F1) as [T|(h & [] & _)]. congruence.
          -- injection E as <- ->. apply (H pre g0 post p eq_refl O0 I); auto.
        * subst gs. apply (H (g :: pre) g0 post p eq_refl O0 I); [|exact Bi]. intros Q. right. exists g. split; [now left|exact O].
      + split; [discriminate|]. intros H. exfalso. apply not_true_iff_false in F. apply F. apply forallb_forall. intros p I. apply port_ok_iff; [apply P|].
        assert ((gp_dir p = DIn /\ top = true) \/ (gp_dir p = DIn -> top = false \/ exists h, In h (@nil gen) /\ g_opaque h = false)) as [C|C] by (destruct (gp_dir p), top; auto; right; intros; discriminate || auto).
        * now left.
        * right. apply (H [] g gs p eq_refl O I C). }
  unfold check_connectivity. rewrite K. split; intros H pre g post p E O I D; apply (H pre g post p E O I); intros Q; [right; now apply D|]. destruct (D Q) as [T|T]; [discriminate T|exact T].
Qed.
Definition gen0 (o : bool) (ps : list gport) : gen := {| g_opaque := o; g_ports := ps |}.
Definition prt (k : dir) (x : var) : gport := {| gp_dir := k; gp_var := x |}.
Definition G4 : tenv := fun _ => {| d_width := 4; d_signed := false |}.
Example C198_ex : let top := gen0 false [prt DIn 0%nat; prt DOut 1%nat] in let child := gen0 false [prt DIn 2%nat; prt DOut 3%nat] in
  check_connectivity G4 [wire (LVar 1) (EVar 3); wire (LSlice 2 1 0) (EConst 0 2 false); wire (LSlice 2 3 2) (EConst 0 2 false); wire (LVar 3) (EVar 2)] [top; child] = Ok tt /\
  check_connectivity G4 [wire (LVar 1) (EVar 3); wire (LSlice 2 1 0) (EConst 0 2 false); wire (LSlice 2 3 3) (EConst 0 2 false); wire (LVar 3) (EVar 2)] [top; child] = Throw.
Proof. split; reflexivity. Qed.

(* C199: what counts as driven *)
(* an element chosen by an index counts for every bit, also those no index value reaches *)
Theorem C199_index_refuted : ~ (forall G d gs, check_connectivity G d gs = Ok tt -> forall g p, In g gs -> g_opaque g = false -> In p (g_ports g) -> gp_dir p = DOut ->
  forall i, 0 <= i < d_width (G (gp_var p)) -> exists it r, In it d /\ Z.testbit (activate G (body_of (i_proc it)) r (gp_var p)) i <> Z.testbit (r (gp_var p)) i).
Proof.
  intros Q. set (G := fun x : var => {| d_width := match x with O => 4 | _ => 1 end; d_signed := false |}).
  destruct (Q G [wire (LDyn 0 (EVar 1) 1) (EVar 2)] [gen0 false [prt DOut 0%nat]] eq_refl _ _ (or_introl eq_refl) eq_refl (or_introl eq_refl) eq_refl 3 ltac:(cbn; lia)) as (it & r & I & N).
  destruct I as [<-|[]]. apply N. change (gp_var (prt DOut 0%nat)) with 0%nat.
  assert (activate G (body_of (i_proc (wire (LDyn 0 (EVar 1) 1) (EVar 2)))) r 0%nat = put_bits (r 0%nat) (enc 1 (r 1%nat) * 1) 1 (enc 1 (r 2%nat))) as -> by reflexivity.
  unfold put_bits, enc. change (2 ^ 1) with 2. destruct (bit_cases (r 1%nat)) as [-> | ->]; rewrite Z.lor_spec, Z.ldiff_spec, !Z.shiftl_spec by lia; [change (3 - 0 * 1) with 3|change (3 - 1 * 1) with 2];
    rewrite Zmod_odd; destruct (Z.odd (r 2%nat mod 2)); cbn; now rewrite ?andb_true_r, ?orb_false_r.
Qed.
(* below a top module without body the inputs of the first module are not checked *)
Theorem C199_top_refuted : ~ (forall G d top gs, check_connectivity G d (top :: gs) = Ok tt -> forall g p, In g gs -> g_opaque g = false -> In p (g_ports g) ->
  forall i, 0 <= i < d_width (G (gp_var p)) -> driven_in d (gp_var p) i).
Proof.
  intros Q. destruct (Q G4 [] (gen0 true []) [gen0 false [prt DIn 0%nat]] eq_refl _ _ (or_introl eq_refl) eq_refl (or_introl eq_refl) 0 ltac:(cbn; lia)) as (it & k & l & e & [] & _).
Qed.
(* C200: an inout port of the top module has to be driven from inside *)
Theorem C200_refuted : ~ (forall G d top gs, (forall x, 0 <= d_width (G x)) ->
  (forall g p, In g (top :: gs) -> In p (g_ports g) -> gp_dir p = DOut \/ (gp_dir p = DIn /\ g <> top) -> forall i, 0 <= i < d_width (G (gp_var p)) -> driven_in d (gp_var p) i) ->
  check_connectivity G d (top :: gs) = Ok tt).
Proof.
  intros Q. specialize (Q G4 [] (gen0 false [prt DInOut 0%nat]) []). assert (Throw = Ok tt) as X; [|discriminate X]. apply Q; [intros; cbn; lia|].
  intros g p [<-|[]] [<-|[]] [D|[D _]]; discriminate D.
Qed.

(* C201: one kind of assignment per signal; wires and processes do not mix; registers *)
Theorem C201_kinds : forall d xs, check_kinds d xs = Ok tt <-> forall x, In x xs -> forall it1 k1 l1 e1 it2 k2 l2 e2, In it1 d -> In it2 d ->
  IRSem_spec.inside (SAssign k1 l1 e1) (body_of (i_proc it1)) -> IRSem_spec.inside (SAssign k2 l2 e2) (body_of (i_proc it2)) -> lhs_var l1 = x -> lhs_var l2 = x -> k1 = k2.
Proof.
  intros d xs. unfold check_kinds. assert (forall x, kinds_ok d x = true <-> forall s t, In s (sources d x) -> In t (sources d x) -> fst (fst s) = fst (fst t)) as K.
  { intros x. unfold kinds_ok. destruct (sources d x) as [|s r]; [split; [intros _ s t []|reflexivity]|]. rewrite forallb_forall. split.
    - intros H. assert (forall t, In t (s :: r) -> fst (fst t) = fst (fst s)) as H'. { intros t [-> |I]; [reflexivity|]. specialize (H t I). destruct (akind_eq_dec _ _); [assumption|discriminate H]. }
      intros a b A B. rewrite (H' a A), (H' b B). reflexivity.
    - intros H t I. destruct (akind_eq_dec _ _) as [|N]; [reflexivity|]. exfalso. apply N. apply H; [now right|now left]. }
  assert (forall x, kinds_ok d x = true <-> forall it1 k1 l1 e1 it2 k2 l2 e2, In it1 d -> In it2 d ->
    IRSem_spec.inside (SAssign k1 l1 e1) (body_of (i_proc it1)) -> IRSem_spec.inside (SAssign k2 l2 e2) (body_of (i_proc it2)) -> lhs_var l1 = x -> lhs_var l2 = x -> k1 = k2) as K'.
  { intros x. rewrite K. split.
    - intros H it1 k1 l1 e1 it2 k2 l2 e2 I1 I2 S1 S2 L1 L2. specialize (H (k1, l1, match i_proc it1 with PWire _ _ => true | _ => false end) (k2, l2, match i_proc it2 with PWire _ _ => true | _ => false end)). apply H; apply sources_in; split; auto; eauto 8.
    - intros H [[k1 l1] w1] [[k2 l2] w2] S T. apply sources_in in S as (L1 & it1 & e1 & I1 & S1 & _), T as (L2 & it2 & e2 & I2 & S2 & _). cbn [fst]. eapply H; [exact I1|exact I2|exact S1|exact S2|exact L1|exact L2]. }
  destruct (forallb (kinds_ok d) xs) eqn:F.
  - split; [|reflexivity]. intros _ x I. rewrite forallb_forall in F. now apply K', F.
  - split; [discriminate|]. intros H. exfalso. apply not_true_iff_false in F. apply F. apply forallb_forall. intros x I. apply K'. now apply H.
Qed.
Definition is_wire (it : item) : Prop := exists l e, i_proc it = PWire l e.
Theorem C201_wires : forall d xs, check_wires d xs = Ok tt <-> forall x, In x xs -> forall it1 it2, In it1 d -> In it2 d ->
  assigns x (body_of (i_proc it1)) -> assigns x (body_of (i_proc it2)) -> is_wire it1 -> is_wire it2.
Proof.
  intros d xs. unfold check_wires.
  assert (forall it, (match i_proc it with PWire _ _ => true | _ => false end) = true <-> is_wire it) as Wi by (intros it; unfold is_wire; destruct (i_proc it); split; try discriminate; eauto; intros (l0 & e0 & Q); discriminate Q).
  assert (forall x, wires_ok d x = true <-> forall it1 it2, In it1 d -> In it2 d -> assigns x (body_of (i_proc it1)) -> assigns x (body_of (i_proc it2)) -> is_wire it1 -> is_wire it2) as K.
  { intros x. unfold wires_ok. rewrite orb_true_iff, negb_true_iff. split.
    - intros H it1 it2 I1 I2 (k1 & l1 & e1 & S1 & L1) (k2 & l2 & e2 & S2 & L2) W1. apply Wi. apply Wi in W1.
      assert (In (k1, l1, match i_proc it1 with PWire _ _ => true | _ => false end) (sources d x)) as J1 by (apply sources_in; split; auto; eauto 8).
      assert (In (k2, l2, match i_proc it2 with PWire _ _ => true | _ => false end) (sources d x)) as J2 by (apply sources_in; split; auto; eauto 8).
      destruct H as [H|H]; [|rewrite forallb_forall in H; exact (H _ J2)]. exfalso. apply not_true_iff_false in H. apply H. apply existsb_exists. eexists. split; [exact J1|exact W1].
    - intros H. destruct (existsb snd (sources d x)) eqn:X; [|auto]. right. apply existsb_exists in X as (((k1 & l1) & w1) & J1 & W1). cbn [snd] in W1. subst w1. apply sources_in in J1 as (L1 & it1 & e1 & I1 & S1 & W1). apply forallb_forall. intros ((k2 & l2) & w2) J2. apply sources_in in J2 as (L2 & it2 & e2 & I2 & S2 & W2). cbn [snd]. rewrite W2. apply Wi. apply (H it1 it2 I1 I2); [exists k1, l1, e1; auto|exists k2, l2, e2; auto|]. apply Wi. auto. }
  destruct (forallb (wires_ok d) xs) eqn:F.
  - split; [|reflexivity]. intros _ x I. rewrite forallb_forall in F. now apply K, F.
  - split; [discriminate|]. intros H. exfalso. apply not_true_iff_false in F. apply F. apply forallb_forall. intros x I. apply K. now apply H.
Qed.
(* whatever order the assignments are kept in *)
Theorem C201_registers : forall pick d xs, (forall l, match pick l with Some s => In s l | None => l = [] end) -> check_kinds d xs = Ok tt ->
  forall x, In x (registers pick d xs) <-> In x xs /\ exists it l e, In it d /\ IRSem_spec.inside (SAssign NonBlocking l e) (body_of (i_proc it)) /\ lhs_var l = x.
Proof.
  intros pick d xs P K x. unfold registers. rewrite filter_In. pose proof (proj1 (C201_kinds d xs) K x) as U. specialize (P (sources d x)). split.
  - intros [I H]. split; [exact I|]. destruct (pick (sources d x)) as [[[k l] w]|]; [|discriminate H]. destruct k; try discriminate H. apply sources_in in P as (L & it & e & J & S & _). exists it, l, e. auto.
  - intros (I & it & l & e & J & S & L). split; [exact I|]. assert (In (NonBlocking, l, match i_proc it with PWire _ _ => true | _ => false end) (sources d x)) as Q by (apply sources_in; split; auto; eauto).
    destruct (pick (sources d x)) as [[[k l'] w]|]; [|rewrite P in Q; destruct Q]. apply sources_in in P as (L' & it' & e' & J' & S' & _). rewrite (U I it' k l' e' it NonBlocking l e J' J S' S L' L). reflexivity.
Qed.
Definition two : design := [wire (LVar 0) (EVar 1); {| i_id := 1; i_gen := 0; i_proc := PFf [(true, 9%nat)] [SAssign NonBlocking (LVar 1) (EVar 0); SIf (EVar 2) [SAssign NonBlocking (LSlice 1 0 0) (EVar 2)] []] |}].
Example C201_ex : check_kinds two [0; 1]%nat = Ok tt /\ check_wires two [0; 1]%nat = Ok tt /\ registers (fun l => match l with [] => None | s :: _ => Some s end) two [0; 1]%nat = [1%nat] /\
  check_wires (wire (LVar 1) (EVar 2) :: two) [0; 1]%nat = Throw.
Proof. repeat split. Qed.

(* C202: names *)
Theorem C202_accepted : forall N x e m, (forall h, n_parent N h <> Some h) -> home N x = Some m -> (forall y, In y (evars e) -> visible N m y) -> check_parent N x e = Ok tt.
Proof. intros N x e m U H V. now apply (parent_passes N U m). Qed.
Theorem C202_signal : forall N x y hi lo, n_port N x <> Some DIn -> n_parent N (n_owner N y) <> n_parent N (n_owner N x) \/ n_owner N x = n_owner N y ->
  (check_parent N x (EVar y) = Ok tt <-> visible N (n_owner N x) y) /\ (check_parent N x (ESlice (EVar y) hi lo) = Ok tt <-> visible N (n_owner N x) y).
Proof.
  intros N x y hi lo D S.
  assert (forall e, gen_of N e = Some (n_owner N y) -> has_non_port N (n_owner N x) e = negb (Nat.eqb (n_owner N y) (n_owner N x)) && negb (is_port N (EVar y)) -> (check_parent N x e = Ok tt <-> visible N (n_owner N x) y)) as K.
  { intros e E F. unfold check_parent. rewrite E, F. destruct (Nat.eqb_spec (n_owner N x) (n_owner N y)) as [Q|Q]; [split; [left; auto|reflexivity]|].
    destruct S as [S|S]; [|contradiction]. assert (Nat.eqb (n_owner N y) (n_owner N x) = false) as -> by (apply Nat.eqb_neq; auto). cbn [negb andb is_port].
    assert (eq_gen (n_parent N (n_owner N y)) (n_parent N (n_owner N x)) = false) as -> by (apply not_true_iff_false; rewrite eq_gen_eq; exact S). cbn [negb]. rewrite andb_true_r.
    assert ((if negb (eq_gen (n_parent N (n_owner N y)) (Some (n_owner N x))) || negb match n_port N y with Some _ => true | None => false end then Throw else Ok tt) = Ok tt <-> visible N (n_owner N x) y) as Y.
    { unfold visible. destruct (eq_gen (n_parent N (n_owner N y)) (Some (n_owner N x))) eqn:Ge.
      - apply eq_gen_eq in Ge. destruct (n_port N y); cbn; split; intros V; try discriminate V; try reflexivity; [right; split; [exact Ge|discriminate]|]. destruct V as [V|[_ V]]; [congruence|exfalso; now apply V].
      - apply not_true_iff_false in Ge. rewrite eq_gen_eq in Ge. cbn. split; [discriminate|]. intros [V|[V _]]; congruence. }
    destruct (n_port N x) as [[]|]; [contradiction|exact Y..]. }
  split; apply K; reflexivity.
Qed.
(* modules: 0 has instances 1 and 2; 1 has instance 3 *)
Definition nm (ports : var -> option dir) : names := {| n_owner := fun x => (x / 10)%nat; n_port := ports; n_parent := fun g => match g with 1%nat | 2%nat => Some 0%nat | 3%nat => Some 1%nat | _ => None end |}.
Definition pts (x : var) : option dir := match x with 11%nat | 21%nat => Some DIn | 12%nat | 22%nat => Some DOut | _ => None end.
Example C202_ex : check_parent (nm pts) 5%nat (EBin Add (EVar 12) (EBin Xor (EVar 22) (EVar 1))) = Ok tt /\ check_parent (nm pts) 5%nat (EVar 13) = Throw /\
  check_parent (nm pts) 11%nat (EBin Add (EVar 22) (EVar 4)) = Ok tt /\ home (nm pts) 11%nat = Some 0%nat.
Proof. repeat split. Qed.
(* C203: names that are not visible and are accepted *)
Lemma nm_up : forall h, n_parent (nm pts) h <> Some h.
Proof. intros [|[|[|[|h]]]]; discriminate. Qed.
Theorem C203_sibling_refuted : ~ (forall N x y, (forall h, n_parent N h <> Some h) -> n_port N x <> Some DIn -> check_parent N x (EVar y) = Ok tt -> visible N (n_owner N x) y).
Proof.
  intros Q. destruct (Q (nm pts) 13%nat 22%nat nm_up ltac:(discriminate) eq_refl) as [V|[V _]]; discriminate V.
Qed.
Theorem C203_operator_refuted : ~ (forall N x e m y, (forall h, n_parent N h <> Some h) -> home N x = Some m -> check_parent N x e = Ok tt -> In y (evars e) -> visible N m y).
Proof.
  intros Q. destruct (Q (nm pts) 5%nat (EBin Add (EVar 13) (EVar 4)) 0%nat 13%nat nm_up eq_refl eq_refl (or_introl eq_refl)) as [V|[_ V]]; [discriminate V|now apply V].
Qed.
Theorem C203_input_refuted : ~ (forall N x y m, (forall h, n_parent N h <> Some h) -> home N x = Some m -> check_parent N x (EVar y) = Ok tt -> visible N m y).
Proof.
  intros Q. destruct (Q (nm pts) 11%nat 23%nat 0%nat nm_up eq_refl eq_refl) as [V|[_ V]]; [discriminate V|now apply V].
Qed.
Print Assumptions C192_one_edge.
Print Assumptions C192_synchronous.
Print Assumptions C192_tests.
Print Assumptions C192_reset_branch.
Print Assumptions C192_passes.
Print Assumptions C192_sensitivity.
Print Assumptions C193_refuted.
Print Assumptions C193_cast_refuted.
Print Assumptions C194_refuted.
Print Assumptions C195_reported.
Print Assumptions C195_reads_itself.
Print Assumptions C196_two_wires_refuted.
Print Assumptions C196_condition_refuted.
Print Assumptions C196_slice_refuted.
Print Assumptions C197_refuted.
Print Assumptions C198_connected.
Print Assumptions C199_index_refuted.
Print Assumptions C199_top_refuted.
Print Assumptions C200_refuted.
Print Assumptions C201_kinds.
Print Assumptions C201_wires.
Print Assumptions C201_registers.
Print Assumptions C202_accepted.
Print Assumptions C202_signal.
Print Assumptions C203_sibling_refuted.
Print Assumptions C203_operator_refuted.
Print Assumptions C203_input_refuted.
