(* Theorems about comments and raw text: C434 - C437. *)
From Coq Require Import Ascii.
From Verif Require Import Base Util_spec Util_model Util_proofs Txt_model.
Local Open Scope Z_scope.

(* a carriage return or a newline *)
Definition is_break (c : ascii) : Prop := In c [ascii_of_nat 13; ascii_of_nat 10].
(* a line of text: not empty and in one piece *)
Definition is_line (l : list ascii) : Prop := l <> [] /\ Forall (fun c => ~ is_break c) l.
(* lines with a line break, of whatever kind, after each *)
Definition broken (lines : list (list ascii * list ascii)) : list ascii := concat (map (fun p => fst p ++ snd p) lines).

Lemma filter_nonempty (l : list (list ascii)) : Forall (fun t => t <> []) l ->
  filter (fun l => match l with [] => false | _ => true end) l = l.
Proof. induction 1 as [|x l N F IH]; [reflexivity|]. destruct x; [congruence|]. cbn. f_equal. exact IH. Qed.
Lemma raw_text_tokens s : raw_text s = get_tokens s crlf.
Proof. unfold raw_text. apply filter_nonempty. exact (splits_nonempty (is_delim crlf) s _ (splits_ext _ _ (fun c => iff_sym (is_delim_iff crlf c)) _ _ (get_tokens_splits s crlf))). Qed.

Lemma broken_splits : forall lines : list (list ascii * list ascii),
  (forall l b, In (l, b) lines -> is_line l /\ b <> [] /\ Forall is_break b) ->
  splits is_break (broken lines) (map fst lines).
Proof.
  intros lines. assert (G : forall (lines : list (list ascii * list ascii)) d, Forall is_break d ->
    (forall l b, In (l, b) lines -> is_line l /\ b <> [] /\ Forall is_break b) ->
    splits is_break (d ++ broken lines) (map fst lines)).
  { clear. induction lines as [|[l b] lines IH]; intros d D H.
    - unfold broken. cbn. rewrite app_nil_r. constructor. exact D.
    - destruct (H l b (or_introl eq_refl)) as ([Nl Fl] & Nb & Fb). unfold broken. cbn [map concat fst snd]. fold (broken lines).
      rewrite <- app_assoc. apply split_tok; trivial.
      + destruct b as [|c b]; [congruence|]. cbn. inversion Fb; assumption.
      + apply IH; [exact Fb|]. intros l' b' I. apply H. right; exact I. }
  intros H. exact (G lines [] (Forall_nil _) H).
Qed.

(* C434: raw text given as lines, each ended by any mix of carriage returns and newlines, is kept line by line. *)
Theorem C434_lines : forall lines : list (list ascii * list ascii),
  (forall l b, In (l, b) lines -> is_line l /\ b <> [] /\ Forall is_break b) ->
  raw_text (broken lines) = map fst lines.
Proof.
  intros lines H. rewrite raw_text_tokens. eapply splits_unique; [apply get_tokens_splits|]. exact (broken_splits lines H).
Qed.
(* ... so is a list of lines given one by one, and that is what a clone gives. *)
Lemma raw_line l : is_line l -> raw_text l = [l].
Proof.
  intros [N F]. rewrite raw_text_tokens. eapply splits_unique; [apply get_tokens_splits|].
  pose proof (split_tok is_break [] l [] [] (Forall_nil _) N F I (split_end is_break [] (Forall_nil _))) as S. cbn [app] in S.
  rewrite app_nil_r in S. exact S.
Qed.
Theorem C434_list : forall lines, Forall is_line lines -> raw_texts lines = lines.
Proof.
  intros lines F. unfold raw_texts. induction F as [|l lines L F IH]; [reflexivity|]. cbn [flat_map]. rewrite (raw_line l L), IH. reflexivity.
Qed.
Lemma raw_is_line s : Forall is_line (raw_text s).
Proof.
  rewrite raw_text_tokens. pose proof (get_tokens_splits s crlf) as H.
  induction H as [s D|d t rest ts D N F R H IH]; constructor; trivial. split; assumption.
Qed.
Theorem C434_clone : forall s l, raw_clone (raw_text s) = raw_text s /\ raw_clone (raw_texts l) = raw_texts l.
Proof.
  intros s l. unfold raw_clone. split; apply C434_list; [apply raw_is_line|].
  unfold raw_texts. induction l as [|x l IH]; [constructor|]. cbn. apply Forall_app. split; [apply raw_is_line|exact IH].
Qed.
Definition txt (s : String.string) := list_ascii_of_string s.
Example C434_ex : raw_text (txt "assign a = b;" ++ [ascii_of_nat 13; ascii_of_nat 10] ++ txt "// c" ++ [newline]) = [txt "assign a = b;"; txt "// c"].
Proof. reflexivity. Qed.

(* C435: blank lines are not kept: no line of raw text is ever empty. *)
Theorem C435_blank_refuted :
  (forall s l, ~ In [] (raw_text s) /\ ~ In [] (raw_texts l))
  /\ ~ (forall lines, Forall (Forall (fun c => ~ is_break c)) lines -> raw_texts lines = lines).
Proof.
  split.
  - assert (A : forall s, ~ In [] (raw_text s)).
    { intros s I. pose proof (raw_is_line s) as F. rewrite Forall_forall in F. destruct (F _ I) as [N _]. exact (N eq_refl). }
    intros s l. split; [apply A|]. unfold raw_texts. rewrite in_flat_map. intros (x & _ & I). exact (A x I).
  - intros H. specialize (H [[]] ltac:(repeat constructor)). discriminate.
Qed.

Lemma erase_none : forall s, ~ In newline s -> erase_newlines s = s.
Proof.
  induction s as [|c s IH]; intros N; [reflexivity|]. cbn [erase_newlines]. destruct (Ascii.eqb_spec c newline) as [->|E]; [destruct N; left; reflexivity|].
  f_equal. apply IH. intros I. apply N. right; exact I.
Qed.
Lemma erase_app a b : erase_newlines (a ++ b) = erase_newlines a ++ erase_newlines b.
Proof. induction a as [|c a IH]; [reflexivity|]. cbn [erase_newlines app]. destruct (Ascii.eqb c newline); [exact IH|]. cbn [app]. f_equal. exact IH. Qed.

(* C436: a comment without newlines has the words of its text, in order, on lines. *)
Theorem C436_words : forall s width ws, ~ In newline s -> splits (fun c => In c white) s ws -> ws <> [] ->
  exists groups, comment s width = map join groups /\ concat groups = ws /\ Forall (fun g => g <> []) groups.
Proof.
  intros s width ws N S E. unfold comment, words. rewrite (erase_none s N).
  assert (W : get_tokens s white = ws) by (eapply splits_unique; [apply get_tokens_splits|exact S]). rewrite W.
  destruct ws as [|w ws]; [congruence|]. cbn [line_wrap].
  destruct (wrap_words width ws [] w (u64 (width - zlen w)) [] [w]) as (gs & g & s' & E1 & E2 & E3 & E4); auto; try discriminate.
  rewrite E1. exists (gs ++ [g]). split; [rewrite map_app; reflexivity|].
  split; [rewrite concat_app; cbn; rewrite app_nil_r; exact E2|]. apply Forall_app. auto.
Qed.
Example C436_ex : comment (txt "the first of two") 9 = [txt "the first"; txt "of two"].
Proof. reflexivity. Qed.

(* C437: a comment of several lines does not keep its words: those on either side of a newline become one. *)
Theorem C437_newline_refuted :
  (forall a b width, a <> [] -> b <> [] -> Forall (fun c => ~ In c white) (a ++ b) -> comment (a ++ newline :: b) width = [a ++ b])
  /\ ~ (forall s width ws, splits (fun c => In c white) s ws -> ws <> [] ->
          exists groups, comment s width = map join groups /\ concat groups = ws).
Proof.
  assert (A : forall a b width, a <> [] -> b <> [] -> Forall (fun c => ~ In c white) (a ++ b) -> comment (a ++ newline :: b) width = [a ++ b]).
  { intros a b width Na Nb F. assert (Nn : In newline white) by (right; right; left; reflexivity).
    assert (Q : forall l, Forall (fun c => ~ In c white) l -> ~ In newline l).
    { intros l Fl I. rewrite Forall_forall in Fl. exact (Fl _ I Nn). }
    unfold comment, words. rewrite erase_app. cbn [erase_newlines]. rewrite Ascii.eqb_refl.
    apply Forall_app in F as G. destruct G as [Ga Gb]. rewrite (erase_none a (Q _ Ga)), (erase_none b (Q _ Gb)).
    assert (W : get_tokens (a ++ b) white = [a ++ b]).
    { eapply splits_unique; [apply get_tokens_splits|].
      assert (N : a ++ b <> []) by (destruct a; [congruence|discriminate]).
      pose proof (split_tok (fun c => In c white) [] (a ++ b) [] [] (Forall_nil _) N F I (split_end _ [] (Forall_nil _))) as S. cbn [app] in S.
      rewrite app_nil_r in S. exact S. }
    rewrite W. reflexivity. }
  split; [exact A|]. intros H.
  destruct (H (txt "a" ++ newline :: txt "b") 80 [txt "a"; txt "b"]) as (gs & E & C).
  - pose proof (get_tokens_splits (txt "a" ++ newline :: txt "b") white) as G. exact G.
  - discriminate.
  - rewrite A in E; try discriminate.
    + destruct gs as [|g [|g' gs]]; try discriminate. cbn in C. rewrite app_nil_r in C. subst g. discriminate.
    + repeat constructor; cbn; intuition discriminate.
Qed.
Print Assumptions C434_lines.
Print Assumptions C434_list.
Print Assumptions C434_clone.
Print Assumptions C435_blank_refuted.
Print Assumptions C436_words.
Print Assumptions C437_newline_refuted.
