From Verif Require Import Base IR IRSem_spec IR_lemmas Gate_spec Gate_model.
Local Open Scope Z_scope.

Lemma run_one : forall G s st, run G [s] st = exec G s st.
Proof. intros G s st. cbn [run]. destruct (st_status (exec G s st)); reflexivity. Qed.
Lemma run_if : forall G c t f st, run G [SIf c t f] st = if truth G (st_cur st) c then run G t st else run G f st.
Proof. intros. rewrite run_one. apply exec_if. Qed.
Lemma act_if : forall G c t f r, activate G [SIf c t f] r = if truth G r c then activate G t r else activate G f r.
Proof. intros. unfold activate. rewrite run_if. cbn [start_state st_cur]. destruct (truth G r c); reflexivity. Qed.
Lemma act_nil : forall G r, activate G [] r = r.
Proof. reflexivity. Qed.
Lemma ptype_eqb_eq : forall a b, ptype_eqb a b = true <-> a = b.
Proof. intros [] []; cbn; split; congruence. Qed.
Lemma has_type_leaf : forall pt ty e, has_type pt ty e = true -> exists x, In x (evars e) /\ pt x = ty.
Proof.
  intros pt ty e. induction e; cbn [has_type evars]; intros H; try discriminate.
  - exists x. split; [now left|now apply ptype_eqb_eq].
  - auto.
  - apply andb_true_iff in H as [H _]. destruct (IHe1 H) as (x & I & E). exists x. rewrite in_app_iff. auto.
  - apply andb_true_iff in H as [H _]. destruct (IHe2 H) as (x & I & E). exists x. rewrite !in_app_iff. auto.
  - auto.
Qed.
Lemma clk_en_starts : forall pt l, has_clk_en pt l = true -> starts_gated pt l.
Proof.
  intros pt [|s l]; [discriminate|]. destruct s as [|c t f| | | | | |]; try discriminate. destruct c as [x| | | | | | |]; try discriminate. intros H. exists x, t, f, l. split; [reflexivity|now apply ptype_eqb_eq].
Qed.
(* what insertion of an enable produces *)
Lemma insert_enable_cases : forall pt en body,
  insert_enable pt en body = body
  \/ insert_enable pt en body = [SIf (EVar en) body []]
  \/ exists c t f, body = [SIf c t f] /\ insert_enable pt en body = [SIf c t [SIf (EVar en) f []]].
Proof.
  intros pt en body. unfold insert_enable. destruct body as [|s l]; [now left|].
  destruct s as [|c t f| | | | | |]; try (destruct (has_clk_en _ _); tauto).
  destruct l as [|s2 l]; [|destruct (has_clk_en _ _); tauto].
  destruct (has_type pt AsyncReset c || has_type pt SyncReset c).
  - destruct (has_clk_en pt f); [now left|]. right. right. exists c, t, f. auto.
  - destruct (has_clk_en _ _); tauto.
Qed.
