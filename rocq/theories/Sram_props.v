(* C42, C146, C147: the SRAM generators *)
From Verif Require Import Base SV_spec Const_model Sram_spec Sram_model Sram_proofs.
Local Open Scope Z_scope.

(* C42: whatever the banks hold at first, after any history a read of an address returns what the memory
   as a whole holds there: the word last written, with masked bits kept *)
Theorem C42_read_returns_the_last_written : forall cap bank r s h c,
  build cap bank = Ok r -> 0 < m_aw bank -> 0 <= m_dw bank -> 0 <= cap ->
  let size := a_n r * 2 ^ m_aw bank in
  (forall a, 0 <= a < size -> 0 <= words r s a < 2 ^ m_dw bank) ->
  Forall (pins size (m_dw bank)) h -> pins size (m_dw bank) c -> reads c ->
  output r (edges r s (h ++ [c])) = content (m_partial bank) (words r s) h (addr c).
Proof.
  intros cap bank r s h c B W D C size I F P (Rc & Rw). destruct (build_good cap bank r B W D C) as [G Eb]. subst bank. unfold edges. rewrite fold_left_app. cbn [fold_left].
  fold (edges r s h). destruct P as (A & Pd & Pm). destruct (split_addr r (addr c) G A) as (E1 & E2 & E3).
  unfold output, edge. cbn [s_sel s_banks]. rewrite Rc, Rw. cbn [negb andb]. rewrite E1, E2. unfold bank_edge. cbn [negb b_q].
  assert (holds r (edges r s h) (content (m_partial (a_bank r)) (words r s) h)) as H by (apply holds_edges; [exact G|exact F|intros a Ha; split; [reflexivity|apply I; exact Ha]]).
  destruct (H (addr c) A) as [<- _]. reflexivity.
Qed.
Example C42_read_ex :
  let bank := {| m_aw := 2; m_dw := 4; m_partial := true |} in
  let c w a d k := {| ceb := false; web := w; addr := a; din := d; mask := k |} in
  exists r, build 48 bank = Ok r /\ a_n r = 3 /\ Forall (pins 12 4) [c false 5 9 0; c false 1 3 0; c false 5 6 12; c true 5 0 0]
    /\ let s := {| s_banks := fun _ => {| b_data := fun _ => 0; b_q := 0 |}; s_sel := 0 |} in
       output r (edges r s [c false 5 9 0; c false 1 3 0; c false 5 6 12; c true 5 0 0]) = 10.
Proof. eexists. split; [reflexivity|]. split; [reflexivity|]. split; [repeat constructor; cbn; lia|]. reflexivity. Qed.

(* the output stays until the next cycle with the memory enabled *)
Theorem C42_output_is_held : forall r s h, Forall (fun c => ceb c = true) h -> output r (edges r s h) = output r s.
Proof.
  intros r s h F. revert s. induction F as [|c h E F IH]; intros s; [reflexivity|]. unfold edges. cbn [fold_left]. fold (edges r (edge r s c) h). rewrite IH.
  unfold output, edge. cbn [s_sel s_banks]. rewrite E. reflexivity.
Qed.
Example C42_output_is_held_ex : Forall (fun c => ceb c = true) [{| ceb := true; web := false; addr := 1; din := 1; mask := 0 |}].
Proof. repeat constructor. Qed.

(* one SRAM by itself *)
Theorem C42_one_sram : forall m s c, 0 <= m_dw m -> 0 <= b_data s (addr c) < 2 ^ m_dw m -> 0 <= din c < 2 ^ m_dw m ->
  let s' := bank_edge m s (ceb c) (web c) (addr c) (din c) (mask c) in
  (forall a, b_data s' a = store (m_partial m) (b_data s) c a) /\ b_q s' = (if ceb c then b_q s else b_data s (addr c)).
Proof.
  intros m s c D O N. cbv zeta. unfold bank_edge, store. destruct (ceb c); cbn [negb andb]; [split; reflexivity|]. cbn [b_data b_q]. split; [|reflexivity]. intros a.
  destruct (web c); cbn [negb]; [reflexivity|]. destruct (Z.eqb_spec a (addr c)) as [->|Ne]; [|reflexivity]. unfold word. destruct (m_partial m); [|reflexivity]. now apply write_bits_word.
Qed.
Example C42_one_sram_ex : 0 <= 4 /\ 0 <= 9 < 2 ^ 4. Proof. lia. Qed.

(* C146: on a write one SRAM shows the old word at the address; with banks, a write to the second bank
   after a read of the first shows a word of the first bank *)
Theorem C146_output_during_a_write_refuted : forall cap bank r s a d k, build cap bank = Ok r -> 0 < m_aw bank -> 0 <= m_dw bank -> 0 <= cap -> 0 <= a < 2 ^ m_aw bank ->
  let read := {| ceb := false; web := true; addr := a; din := 0; mask := 0 |} in
  let write := {| ceb := false; web := false; addr := 2 ^ m_aw bank + a; din := d; mask := k |} in
  output r (edges r s [read; write]) = words r s a
  /\ b_q (bank_edge {| m_aw := m_aw bank + a_sel r; m_dw := m_dw bank; m_partial := m_partial bank |} {| b_data := words r s; b_q := words r s a |} false false (2 ^ m_aw bank + a) d k) = words r s (2 ^ m_aw bank + a).
Proof.
  intros cap bank r s a d k B W D C A read write. destruct (build_good cap bank r B W D C) as [G Eb]. subst bank. pose proof G as (_ & _ & N & _).
  split; [|reflexivity]. assert (0 <= a < a_n r * 2 ^ m_aw (a_bank r)) as A1 by nia. assert (0 <= 2 ^ m_aw (a_bank r) + a < a_n r * 2 ^ m_aw (a_bank r)) as A2 by nia.
  destruct (split_addr r a G A1) as (E1 & E2 & E3). destruct (split_addr r _ G A2) as (F1 & F2 & F3).
  assert (a / 2 ^ m_aw (a_bank r) = 0) as Z0 by (apply Z.div_small; lia).
  assert ((2 ^ m_aw (a_bank r) + a) / 2 ^ m_aw (a_bank r) = 1) as Z1 by (rewrite <- (Z.mul_1_l (2 ^ m_aw (a_bank r))) at 1; rewrite Z.div_add_l by lia; lia).
  assert ((2 ^ m_aw (a_bank r) + a) mod 2 ^ m_aw (a_bank r) = a mod 2 ^ m_aw (a_bank r)) as Z2 by (rewrite <- (Z.mul_1_l (2 ^ m_aw (a_bank r))) at 1; rewrite Z.add_comm, Z.mod_add by lia; reflexivity).
  unfold edges, output, edge. cbn [fold_left s_sel s_banks read write ceb web addr din mask negb andb]. rewrite E1, E2, F2, Z0, Z2.
  unfold bank_edge. cbn [negb b_q b_data]. rewrite web_bit by lia. cbn [orb negb]. unfold words. now rewrite Z0.
Qed.
Example C146_output_during_a_write_ex : exists r, build 32 {| m_aw := 2; m_dw := 4; m_partial := false |} = Ok r.
Proof. eexists. reflexivity. Qed.

(* C147: a memory of the size of one bank is rejected, and one of more than 64 banks shifts by too much *)
Theorem C147_number_of_banks_refuted : forall bank c, capacity bank = Ok c -> 0 < c ->
  build c bank = Throw /\ forall n, 64 < n -> build (n * c) bank = UB.
Proof.
  intros bank c E C. unfold build. rewrite E. cbn [obind]. replace (c =? 0) with false by lia. split.
  - rewrite Z.mod_same, Z.div_same by lia. reflexivity.
  - intros n N. rewrite Z.mod_mul, Z.div_mul by lia. change (negb (0 =? 0)) with false. cbn iota. replace (n =? 0) with false by lia.
    destruct (Z.eqb_spec (Z.log2_up n) 0) as [L|L]; [exfalso; assert (0 < Z.log2_up n) by (apply Z.log2_up_pos; lia); lia|].
    unfold is_legal. replace (n =? 64) with false by lia. replace (n <? 64) with false by lia. reflexivity.
Qed.
Example C147_number_of_banks_ex : capacity {| m_aw := 5; m_dw := 16; m_partial := true |} = Ok 512. Proof. reflexivity. Qed.
Print Assumptions C42_read_returns_the_last_written.
Print Assumptions C42_output_is_held.
Print Assumptions C42_one_sram.
Print Assumptions C146_output_during_a_write_refuted.
Print Assumptions C147_number_of_banks_refuted.
