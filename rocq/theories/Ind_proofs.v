From Verif Require Import Base Ind_spec Ind_model.
From Coq Require Import Ascii.
Local Open Scope list_scope.

Lemma after_snoc : forall h a, after (h ++ [a]) = fst (run (after h) a).
Proof. intros h a. unfold after. rewrite fold_left_app. reflexivity. Qed.
Lemma level_snoc : forall h a, level (h ++ [a]) = match a with Enter => S (level h) | Leave => pred (level h) | _ => level h end.
Proof. intros h a. unfold level. rewrite fold_left_app. reflexivity. Qed.
Lemma firstn_spaces : forall n m, (n <= m)%nat -> firstn n (spaces m) = spaces n.
Proof. unfold spaces. induction n as [|n IH]; intros m L; [reflexivity|]. destruct m as [|m]; [lia|]. cbn. f_equal. apply IH. lia. Qed.
Lemma after_level : forall h, s_indent (after h) = level h.
Proof.
  induction h as [|a h IH] using rev_ind; [reflexivity|]. rewrite after_snoc, level_snoc. destruct a; cbn [run fst s_indent]; try congruence. unfold indent. destruct (s_skip (after h)); exact IH.
Qed.
Lemma omitted_snoc : forall h a, omitted (h ++ [a]) <-> match a with Omit => True | Line => False | _ => omitted h end.
Proof.
  intros h a. unfold omitted. assert (K : a <> Omit -> a <> Line -> (exists h1 h2, h ++ [a] = h1 ++ Omit :: h2 /\ ~ In Line h2) <-> exists h1 h2, h = h1 ++ Omit :: h2 /\ ~ In Line h2).
  { intros N1 N2. split; intros (h1 & h2 & E & H).
    - destruct h2 as [|b h2 _] using rev_ind; [apply app_inj_tail in E; destruct E as (_ & E); contradiction|]. rewrite app_comm_cons, app_assoc in E. apply app_inj_tail in E. destruct E as (-> & ->). exists h1, h2. split; [reflexivity|]. intros X. apply H, in_or_app. left. exact X.
    - exists h1, (h2 ++ [a]). split; [rewrite E, <- app_assoc; reflexivity|]. intros X. apply in_app_or in X. destruct X as [X|[X|[]]]; [exact (H X)|exact (N2 X)]. }
  destruct a; try (apply K; discriminate).
  - split; [trivial|]. intros _. exists h, []. split; [reflexivity|intros []].
  - split; [|intros []]. intros (h1 & h2 & E & H). destruct h2 as [|b h2 _] using rev_ind; [apply app_inj_tail in E; destruct E as (_ & E); discriminate E|]. rewrite app_comm_cons, app_assoc in E. apply app_inj_tail in E. destruct E as (_ & <-). apply H, in_or_app. right. left. reflexivity.
Qed.
Lemma after_skip : forall h, s_skip (after h) = true <-> omitted h.
Proof.
  induction h as [|a h IH] using rev_ind; [split; [discriminate|intros (h1 & h2 & E & _); destruct h1; discriminate E]|]. rewrite after_snoc, omitted_snoc. destruct a; cbn [run fst s_skip]; try exact IH; [tauto|].
  unfold indent. destruct (s_skip (after h)); cbn; split; intros X; try discriminate X; destruct X.
Qed.
Lemma after_empty : forall h, exists m, s_empty (after h) = spaces m.
Proof.
  induction h as [|a h (m & IH)] using rev_ind; [exists 0%nat; reflexivity|]. rewrite after_snoc. destruct a; cbn [run fst s_empty]; try (exists m; exact IH).
  unfold indent. destruct (s_skip (after h)); cbn [fst s_empty]; [exists m; exact IH|]. destruct (Nat.ltb _ _); [eexists; reflexivity|exists m; exact IH].
Qed.
(* the string never gets shorter *)
Lemma run_longer : forall s a, (length (s_empty s) <= length (s_empty (fst (run s a))))%nat.
Proof.
  intros s a. destruct a; cbn [run fst s_empty]; try lia. unfold indent. destruct (s_skip s); cbn [fst s_empty]; [lia|]. destruct (Nat.ltb_spec (length (s_empty s)) (s_indent s * indent_size)); [rewrite repeat_length|]; lia.
Qed.
Lemma after_longer : forall k h, (length (s_empty (after h)) <= length (s_empty (after (h ++ k))))%nat.
Proof. induction k as [|a k IH] using rev_ind; intros h; [rewrite app_nil_r; lia|]. rewrite app_assoc, after_snoc. pose proof (run_longer (after (h ++ k)) a). specialize (IH h). lia. Qed.
Lemma line_long : forall h, ~ omitted h -> (level h * 2 <= length (s_empty (after (h ++ [Line]))))%nat.
Proof.
  intros h H. rewrite after_snoc. cbn [run]. unfold indent. destruct (s_skip (after h)) eqn:E; [apply after_skip in E; contradiction|]. cbn [fst s_empty]. rewrite after_level. unfold indent_size.
  destruct (Nat.ltb_spec (length (s_empty (after h))) (level h * 2)); [rewrite repeat_length|]; lia.
Qed.
