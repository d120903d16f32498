(* C11-C13, C72-C75: helpers. *)
From Coq Require Import Sorting.Sorted.
From Verif Require Import Base Slice_spec Util_spec Util_model Util_proofs.
Local Open Scope Z_scope.

(* Flattening lists exactly the valid index tuples, in strictly increasing row-major order
   (so each once), and the i-th tuple is the element at linear position i. *)
Theorem C11_flatten_enumerates_row_major :
  forall dims, Forall (fun d => 0 < d) dims ->
    (forall idx, In idx (get_flatten_slices dims) <-> valid_index dims idx) /\
    StronglySorted lex_lt (get_flatten_slices dims) /\
    forall i, 0 <= i < prod dims -> linear dims (nth (Z.to_nat i) (get_flatten_slices dims) []) = i.
Proof.
  intros dims P. split; [intros; apply flatten_in; exact P|].
  split; [apply flatten_sorted; exact P|]. intros. apply flatten_nth; assumption.
Qed.
Print Assumptions C11_flatten_enumerates_row_major.
Example C11_ex : get_flatten_slices [2; 3] = [[0;0];[0;1];[0;2];[1;0];[1;1];[1;2]].
Proof. reflexivity. Qed.

(* clog2 n is the least number of address bits, at least one, for n entries. *)
Theorem C12_clog2_least :
  forall n, 1 <= n ->
    exists k, clog2 n = Ok k /\ 1 <= k /\ n <= 2 ^ k /\ forall j, 1 <= j -> n <= 2 ^ j -> k <= j.
Proof. exact clog2_ok. Qed.
Print Assumptions C12_clog2_least.
Example C12_ex : clog2 1 = Ok 1 /\ clog2 2 = Ok 1 /\ clog2 5 = Ok 3 /\ clog2 8 = Ok 3 /\ clog2 9 = Ok 4.
Proof. repeat split. Qed.

(* Tokenising gives the maximal non-empty runs of non-delimiters, in order; there is only one
   way to split a string like that. *)
Theorem C13_tokens_are_maximal_runs :
  forall line delims, splits (fun c => In c delims) line (get_tokens line delims)
    /\ forall ts, splits (fun c => In c delims) line ts -> ts = get_tokens line delims.
Proof.
  intros line delims. split; [apply get_tokens_splits|]. intros ts H.
  eapply splits_unique; [exact H|apply get_tokens_splits].
Qed.
Print Assumptions C13_tokens_are_maximal_runs.
Definition chars := list_ascii_of_string.
Example C13_ex : get_tokens (chars "a.bc..d.") (chars ".") = [chars "a"; chars "bc"; chars "d"].
Proof. reflexivity. Qed.

(* Wrapping puts the words, in order and unchanged, on lines; if each word fits, so does
   each line, and no line could have taken the first word of the next. *)
Theorem C72_wrap_keeps_words :
  forall words width, words <> [] ->
    exists groups, line_wrap words width = map join groups /\ concat groups = words
                   /\ Forall (fun g => g <> []) groups.
Proof.
  intros [|w ws] width N; [congruence|]. cbn [line_wrap].
  destruct (wrap_words width ws [] w (u64 (width - zlen w)) [] [w]) as (gs & g & s & E1 & E2 & E3 & E4); auto; try discriminate.
  rewrite E1. exists (gs ++ [g]). split; [rewrite map_app; reflexivity|].
  split; [rewrite concat_app; cbn; rewrite app_nil_r; exact E2|]. apply Forall_app. auto.
Qed.
Print Assumptions C72_wrap_keeps_words.
Theorem C72_wrapped_lines_fit :
  forall words width, words <> [] -> 0 <= width < 2 ^ 32 -> Forall (fits width) words ->
    exists groups, line_wrap words width = map join groups /\ concat groups = words
                   /\ Forall (fun g => g <> []) groups
                   /\ Forall (fun g => zlen (join g) <= width) groups /\ greedy width groups.
Proof.
  intros [|w ws] width N Wd F; [congruence|]. cbn [line_wrap].
  apply Forall_cons_iff in F as [F1 F2]. unfold fits in F1. pose proof (zlen_nonneg _ w).
  assert (2 ^ 32 < 2 ^ 64) as B by (apply Z.pow_lt_mono_r; lia).
  destruct (wrap_fits width ws [] w (u64 (width - zlen w)) [] [w])
    as (gs & g & s & E1 & E2 & E3 & E4 & E5 & E6); auto; try discriminate.
  - rewrite u64_id by lia. reflexivity.
  - rewrite u64_id by lia. lia.
  - exact I.
  - rewrite E1. exists (gs ++ [g]). split; [rewrite map_app; reflexivity|].
    split; [rewrite concat_app; cbn; rewrite app_nil_r; exact E2|]. split; [apply Forall_app; auto|].
    split; [exact E5|exact E6].
Qed.
Print Assumptions C72_wrapped_lines_fit.
Example C72_ex :
  line_wrap [chars "one"; chars "two"; chars "three"; chars "x"] 7
  = [chars "one two"; chars "three x"]
  /\ Forall (fits 7) [chars "one"; chars "two"; chars "three"; chars "x"].
Proof. split; [vm_compute; reflexivity|]. repeat constructor; vm_compute; congruence. Qed.

(* One word longer than the limit turns wrapping off for the rest of the text. *)
Theorem C73_wrap_after_long_word_refuted :
  forall w ws width, 0 <= width < 2 ^ 32 -> width < zlen w -> zlen (join (w :: ws)) < 2 ^ 63 ->
    line_wrap (w :: ws) width = [join (w :: ws)].
Proof.
  intros w ws width Wd L S. cbn [line_wrap].
  assert (2 ^ 32 < 2 ^ 63 /\ 2 ^ 64 = 2 ^ 63 + 2 ^ 63) as [B1 B2] by (split; reflexivity).
  assert (zlen w < 2 ^ 63).
  { destruct ws as [|x ws]; [exact S|]. change (join (w :: x :: ws)) with (w ++ " "%char :: join (x :: ws)) in S.
    rewrite zlen_app in S. pose proof (zlen_nonneg _ (" "%char :: join (x :: ws))). lia. }
  destruct (wrap_never width ws [w] [] (u64 (width - zlen w))) as [s E]; auto; [discriminate| | ].
  - change (join [w]) with w. unfold u64.
    replace (width - zlen w) with (2 ^ 64 + width - zlen w + (-1) * 2 ^ 64) by lia.
    rewrite Z.mod_add by lia. apply Z.mod_small. lia.
  - change (join [w]) with w in E. rewrite E. reflexivity.
Qed.
Print Assumptions C73_wrap_after_long_word_refuted.
Example C73_ex :
  line_wrap [chars "abc"; chars "d"; chars "e"] 2 = [chars "abc d e"].
Proof. vm_compute. reflexivity. Qed.

(* The comment text that is printed after // has no line break, unless the comment starts
   with one; a comment without line breaks is printed as it is. *)
Theorem C74_comment_on_one_line :
  forall c s, c <> newline -> ~ In newline (strip_newline (c :: s)).
Proof.
  intros c s N. pose proof (strip_ok (c :: s)) as H. destruct (strip_newline (c :: s)) as [|d r]; [intros []|].
  destruct H as [H (r' & E)]. injection E as <- _. intros [I|I]; [congruence|contradiction].
Qed.
Print Assumptions C74_comment_on_one_line.
Theorem C74_plain_comment_unchanged : forall s, ~ In newline s -> strip_newline s = s.
Proof. exact strip_id. Qed.
Print Assumptions C74_plain_comment_unchanged.
Example C74_ex : strip_newline (chars "a" ++ [newline] ++ chars "b") = chars "ab".
Proof. reflexivity. Qed.

(* A leading line break always survives, so the rest of the comment becomes code; and
   characters that are not line breaks are lost. *)
Theorem C75_comment_leading_newline_refuted :
  forall s, exists r, strip_newline (newline :: s) = newline :: r.
Proof.
  intros s. pose proof (strip_ok (newline :: s)) as H.
  destruct (strip_newline (newline :: s)) as [|d r]; [discriminate|].
  destruct H as [_ (r' & E)]. injection E as <- _. eauto.
Qed.
Print Assumptions C75_comment_leading_newline_refuted.
Theorem C75_comment_loses_text_refuted :
  exists s, strip_newline s <> filter (fun c => negb (Ascii.eqb c newline)) s
    /\ strip_newline s = chars "acd" /\ s = chars "ab" ++ [newline] ++ chars "cd".
Proof. eexists. split; [|split; [|reflexivity]]; vm_compute; [congruence|reflexivity]. Qed.
Print Assumptions C75_comment_loses_text_refuted.
