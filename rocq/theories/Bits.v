(* Bit-level facts about queued writes. *)
From Verif Require Import Base SV_spec IR IRSem_spec IR_lemmas.
Local Open Scope Z_scope.

Definition wcovers (u : write) (y : var) (i : Z) : Prop :=
  w_var u = y /\ w_lo u <= i < w_lo u + w_n u.

Lemma put_bits_in old lo n v i :
  0 <= lo -> lo <= i < lo + n -> Z.testbit (put_bits old lo n v) i = Z.testbit v (i - lo).
Proof.
  intros H Hi. unfold put_bits. rewrite Z.lor_spec, Z.ldiff_spec, !Z.shiftl_spec by lia.
  rewrite Z.ones_spec_low by lia. rewrite Z.mod_pow2_bits_low by lia. cbn.
  now rewrite andb_false_r.
Qed.
Lemma put_bits_out old lo n v i :
  0 <= lo -> 0 <= n -> 0 <= i -> ~ (lo <= i < lo + n) ->
  Z.testbit (put_bits old lo n v) i = Z.testbit old i.
Proof.
  intros H Hn Hi Ho. unfold put_bits. rewrite Z.lor_spec, Z.ldiff_spec, !Z.shiftl_spec by lia.
  destruct (Z.ltb_spec i lo).
  - rewrite !(Z.testbit_neg_r _ (i - lo)) by lia. cbn. now rewrite orb_false_r, andb_true_r.
  - rewrite Z.ones_spec_high by lia. rewrite Z.mod_pow2_bits_high by lia. cbn.
    now rewrite orb_false_r, andb_true_r.
Qed.
Lemma do_write_in r u y i : 0 <= w_lo u -> wcovers u y i ->
  Z.testbit (do_write r u y) i = Z.testbit (w_val u) (i - w_lo u).
Proof.
  intros H [<- Hi]. unfold do_write, upd. rewrite Nat.eqb_refl. now apply put_bits_in.
Qed.
Lemma do_write_out r u y i : 0 <= w_lo u -> 0 <= w_n u -> 0 <= i -> ~ wcovers u y i ->
  Z.testbit (do_write r u y) i = Z.testbit (r y) i.
Proof.
  intros H Hn Hi Ho. unfold do_write, upd. destruct (Nat.eqb_spec y (w_var u)) as [->|]; auto.
  apply put_bits_out; auto. intros K. apply Ho. now split.
Qed.
Lemma writes_out ws : forall r y i, 0 <= i ->
  Forall (fun u => 0 <= w_lo u /\ 0 <= w_n u) ws -> Forall (fun u => ~ wcovers u y i) ws ->
  Z.testbit (fold_left do_write ws r y) i = Z.testbit (r y) i.
Proof.
  induction ws as [|u l IH]; intros r y i Hi W H; [reflexivity|]. cbn.
  apply Forall_cons_iff in W as [W1 W2]; apply Forall_cons_iff in H as [H1 H2].
  rewrite IH by auto. now apply do_write_out.
Qed.
Lemma writes_last a u b r y i : 0 <= i ->
  Forall (fun u => 0 <= w_lo u /\ 0 <= w_n u) (a ++ u :: b) ->
  wcovers u y i -> Forall (fun u => ~ wcovers u y i) b ->
  Z.testbit (fold_left do_write (a ++ u :: b) r y) i = Z.testbit (w_val u) (i - w_lo u).
Proof.
  intros Hi W C H. rewrite fold_left_app. cbn. apply Forall_app in W as [_ W].
  apply Forall_cons_iff in W as [W1 W2]. rewrite writes_out by auto. now apply do_write_in.
Qed.
Definition wcovers_dec u y i : {wcovers u y i} + {~ wcovers u y i}.
Proof.
  unfold wcovers. destruct (Nat.eq_dec (w_var u) y); [|right; tauto].
  destruct (Z_le_dec (w_lo u) i); [|right; tauto].
  destruct (Z_lt_dec i (w_lo u + w_n u)); [left; tauto|right; tauto].
Defined.
(* the last covering write, if any *)
Lemma last_cover ws y i :
  Forall (fun u => ~ wcovers u y i) ws \/
  exists a u b, ws = a ++ u :: b /\ wcovers u y i /\ Forall (fun u => ~ wcovers u y i) b.
Proof.
  induction ws as [|u l IH] using rev_ind; [left; constructor|].
  destruct (wcovers_dec u y i) as [C|C].
  - right. exists l, u, []. auto.
  - destruct IH as [IH|(a & v & b & -> & C' & N)].
    + left. apply Forall_app; auto.
    + right. exists a, v, (b ++ [u]). rewrite <- app_assoc. cbn.
      split; auto. split; auto. apply Forall_app; auto.
Qed.
(* two write lists with agreeing bits have the same effect *)
Lemma writes_same ws ws' r :
  Forall (fun u => 0 <= w_lo u /\ 0 <= w_n u) ws ->
  Forall (fun u => 0 <= w_lo u /\ 0 <= w_n u) ws' ->
  (forall u u' y i, In u ws -> In u' ws' -> 0 <= i -> wcovers u y i -> wcovers u' y i ->
     Z.testbit (w_val u) (i - w_lo u) = Z.testbit (w_val u') (i - w_lo u')) ->
  (forall y i, 0 <= i -> (exists u, In u ws /\ wcovers u y i) <-> (exists u, In u ws' /\ wcovers u y i)) ->
  forall y, fold_left do_write ws r y = fold_left do_write ws' r y.
Proof.
  intros W W' A C y. apply Z.bits_inj'. intros i Hi.
  destruct (last_cover ws y i) as [N|(a & u & b & -> & Cu & N)].
  - rewrite writes_out by auto.
    rewrite writes_out; auto. apply Forall_forall. intros u Hu Cu.
    destruct (proj2 (C y i Hi)) as (u' & Hu' & Cu'); [eauto|].
    rewrite Forall_forall in N. now apply (N u').
  - rewrite writes_last by auto.
    destruct (last_cover ws' y i) as [N'|(a' & u' & b' & -> & Cu' & N')].
    + exfalso. destruct (proj1 (C y i Hi)) as (u' & Hu' & Cu').
      { exists u. split; auto. apply in_elt. }
      rewrite Forall_forall in N'. now apply (N' u').
    + rewrite writes_last by auto. apply (A u u' y i); auto using in_elt.
Qed.

(* a block of non-blocking assignments only queues writes *)
Definition nb_stmt (s : stmt) : Prop :=
  match s with
  | SAssign NonBlocking (LVar _) _ => True
  | SAssign NonBlocking (LSlice _ hi lo) _ => 0 <= lo <= hi
  | _ => False
  end.
Definition write_of (G : tenv) (r : venv) (s : stmt) : write :=
  match s with
  | SAssign _ l e => target G r l (ev G r e)
  | _ => {| w_var := O; w_lo := 0; w_n := 0; w_val := 0 |}
  end.
Lemma run_nb G l : Forall nb_stmt l -> forall st, st_status st = Running ->
  run G l st = {| st_cur := st_cur st; st_nba := st_nba st ++ map (write_of G (st_cur st)) l;
                  st_status := Running |}.
Proof.
  induction 1 as [|s l H Hl IH]; intros st R.
  - cbn. rewrite app_nil_r. destruct st; cbn in *; now subst.
  - rewrite run_cons. destruct s; cbn in H; try contradiction. destruct k; try contradiction.
    cbn [exec do_assign]. cbn [st_status]. rewrite R. rewrite IH by (cbn; auto).
    cbn [st_cur st_nba map write_of]. now rewrite <- app_assoc.
Qed.
Lemma activate_nb G l r : Forall nb_stmt l ->
  activate G l r = fold_left do_write (map (write_of G r) l) r.
Proof. intros H. unfold activate, commit. rewrite run_nb by auto. reflexivity. Qed.
