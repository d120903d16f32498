From Verif Require Import Base Ind_spec Ind_model Ind_proofs.
From Coq Require Import Ascii.
Local Open Scope list_scope.

(* C528: whatever was printed before, a line begins with two spaces for each level, and with none where its indentation is left out, which holds for that
   line alone. *)
Theorem C528_line : forall h, (~ omitted h -> printed h Line = spaces (2 * level h)) /\ (omitted h -> printed h Line = []) /\ ~ omitted (h ++ [Line]) /\
  printed (h ++ [Line]) Line = spaces (2 * level h).
Proof.
  assert (G : forall h, ~ omitted h -> printed h Line = spaces (2 * level h)).
  { intros h H. unfold printed. cbn [run]. unfold indent. destruct (s_skip (after h)) eqn:E; [apply after_skip in E; contradiction|]. cbn [snd]. rewrite after_level. unfold indent_size. rewrite (Nat.mul_comm 2).
    destruct (after_empty h) as (m & M). destruct (Nat.ltb_spec (length (s_empty (after h))) (level h * 2)) as [L|L].
    - fold (spaces (level h * 2)). apply firstn_spaces. lia.
    - rewrite M in *. unfold spaces in L. rewrite repeat_length in L. apply firstn_spaces. exact L. }
  intros h. assert (N : ~ omitted (h ++ [Line])) by (rewrite omitted_snoc; tauto). split; [apply G|]. split; [|split; [exact N|rewrite (G _ N), level_snoc; reflexivity]].
  intros H. unfold printed. cbn [run]. unfold indent. apply after_skip in H. rewrite H. reflexivity.
Qed.
Example C528_ex : let h := [Enter; Line; Enter; Omit; Enter]%list in printed h Line = [] /\ printed (h ++ [Line]) Line = spaces 6 /\ omitted h /\ ~ omitted (h ++ [Line; Leave]).
Proof.
  cbn zeta. split; [reflexivity|]. split; [reflexivity|]. split; [exists [Enter; Line; Enter], [Enter]; split; [reflexivity|intros [X|[]]; discriminate X]|].
  rewrite <- after_skip. cbn. discriminate.
Qed.

(* C529: the closing line of something that began with an indented line, one level below it, is indented as that line was, whatever came between. *)
Theorem C529_closing : forall h k, ~ omitted h -> level (h ++ Line :: k) = S (level h) -> printed (h ++ Line :: k) Closing = printed h Line.
Proof.
  intros h k H L. rewrite (proj1 (C528_line h) H). unfold printed. cbn [run snd]. unfold pre_indent. rewrite after_level, L. unfold indent_size.
  pose proof (line_long h H) as Lo. pose proof (after_longer k (h ++ [Line])) as Mo. rewrite <- app_assoc in Mo. cbn [app] in Mo. destruct (after_empty (h ++ Line :: k)) as (m & M). rewrite M in *.
  unfold spaces in Mo at 1. rewrite (Nat.mul_comm 2). apply firstn_spaces. unfold spaces in Mo. rewrite repeat_length in Mo. lia.
Qed.
Example C529_ex : let h := [Enter]%list in let k := [Enter; Line; Line]%list in level (h ++ Line :: k) = S (level h) /\ printed (h ++ Line :: k) Closing = spaces 2 /\ ~ omitted h.
Proof. cbn zeta. split; [reflexivity|]. split; [reflexivity|]. rewrite <- after_skip. discriminate. Qed.

(* C530: a closing line is never indented more than the level around it, but less where no line was printed at that level or below it yet. *)
Theorem C530_less_refuted :
  (forall h, exists n, printed h Closing = spaces n /\ (n <= 2 * pred (level h))%nat) /\
  ~ (forall h, balanced h -> printed h Closing = spaces (2 * pred (level h))).
Proof.
  split.
  - intros h. unfold printed. cbn [run snd]. unfold pre_indent. rewrite after_level. destruct (level h) as [|l]; [exists 0%nat; split; [reflexivity|lia]|]. destruct (after_empty h) as (m & ->). unfold indent_size. cbn [pred].
    exists (Nat.min (l * 2) m). split; [|lia]. destruct (Nat.le_gt_cases (l * 2) m) as [G|G]; [rewrite Nat.min_l by exact G; apply firstn_spaces; exact G|]. rewrite Nat.min_r by lia. apply firstn_all2. unfold spaces. rewrite repeat_length. lia.
  - intros H. specialize (H [Enter; Enter]). assert (X : balanced [Enter; Enter]) by (intros h1 h2 E; destruct h1 as [|a [|b [|c h1]]]; discriminate E). specialize (H X). discriminate H.
Qed.
Example C530_ex : printed [Enter; Enter] Closing = [] /\ printed [Enter; Line; Enter] Closing = spaces 2.
Proof. split; reflexivity. Qed.
Print Assumptions C528_line.
Print Assumptions C529_closing.
Print Assumptions C530_less_refuted.
