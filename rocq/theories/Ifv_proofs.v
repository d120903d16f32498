From Verif Require Import Base Conn_spec Conn_props Ifv_spec Ifv_model.

Lemma root_occurs p : forall s, root s = SPort p -> occurs p s.
Proof.
  induction s using sig_rect'; cbn [root]; intros E; try discriminate.
  - inversion E. constructor.
  - constructor. auto.
  - apply occ_indexed. auto.
Qed.
Lemma has_var_occurs t : forall s, has_var t s = true -> occurs t s.
Proof.
  induction s using sig_rect'; cbn [has_var]; intros E; try discriminate.
  - apply Nat.eqb_eq in E. subst. constructor.
  - destruct (root (SSlice s)) eqn:R; try discriminate. apply Nat.eqb_eq in E. subst. apply root_occurs, R.
  - destruct (root (SIndex s1 s2)) eqn:R; try discriminate. apply Nat.eqb_eq in E. subst. apply root_occurs, R.
  - constructor. auto.
  - apply orb_true_iff in E. destruct E; [apply occ_left|apply occ_right]; auto.
  - apply orb_true_iff in E. destruct E; [apply occ_then|apply occ_else]; auto.
  - apply existsb_exists in E. destruct E as (x & I & E). apply (occ_concat t l x); auto.
  - constructor. auto.
Qed.
Lemma part_root t : forall s, part s -> occurs t s -> root s = SPort t.
Proof. intros s H. induction H; intros O; cbn; inversion O; subst; auto. Qed.
Lemma has_var_arith t : forall s, arith s -> occurs t s -> has_var t s = true.
Proof.
  intros s H. induction H; intros O.
  - inversion O.
  - assert (R := part_root t s H O). destruct H; cbn [has_var].
    + cbn in R. inversion R. apply Nat.eqb_refl.
    + inversion O.
    + rewrite R. apply Nat.eqb_refl.
  - inversion O; subst. cbn. auto.
  - inversion O; subst; cbn; apply orb_true_iff; auto.
  - inversion O; subst. cbn. auto.
  - inversion O; subst. cbn. apply existsb_exists. eauto.
Qed.
Lemma has_iter_occurs iter : forall s, has_iter iter s = true -> exists p, iter p = true /\ occurs p s.
Proof.
  induction s using sig_rect'; cbn [has_iter]; intros E; try discriminate.
  - exists p. split; [exact E|constructor].
  - destruct (IHs E) as (p & A & B). exists p. split; [exact A|constructor; exact B].
  - destruct (IHs1 E) as (p & A & B). exists p. split; [exact A|apply occ_indexed; exact B].
  - destruct (IHs E) as (p & A & B). exists p. split; [exact A|constructor; exact B].
  - apply orb_true_iff in E. destruct E as [E|E].
    + destruct (IHs1 E) as (p & A & B). exists p. split; [exact A|apply occ_left; exact B].
    + destruct (IHs2 E) as (p & A & B). exists p. split; [exact A|apply occ_right; exact B].
  - apply orb_true_iff in E. destruct E as [E|E].
    + destruct (IHs2 E) as (p & A & B). exists p. split; [exact A|apply occ_then; exact B].
    + destruct (IHs3 E) as (p & A & B). exists p. split; [exact A|apply occ_else; exact B].
  - apply existsb_exists in E. destruct E as (x & I & E). destruct (H x I E) as (p & A & B).
    exists p. split; [exact A|apply (occ_concat p l x); assumption].
  - destruct (IHs E) as (p & A & B). exists p. split; [exact A|constructor; exact B].
Qed.
Lemma has_iter_sliced iter p : iter p = true -> forall s, sliced s -> occurs p s -> has_iter iter s = true.
Proof.
  intros Hi s H. induction H; intros O; inversion O; subst; cbn; auto.
  - apply orb_true_iff; auto.
  - apply orb_true_iff; auto.
  - apply existsb_exists. eauto.
Qed.
