From Coq Require Import String Ascii.
From Verif Require Import Base Num_spec Num_model Num_proofs Covparse_spec Covparse_model Covparse_proofs.
Local Open Scope Z_scope.

(* C43: the pairs and the text of the count are recovered *)
Theorem C43_pairs_recovered : forall pairs count, pairs <> [] -> Forall good_pair pairs -> NoDup (map fst pairs) ->
  fsm 0 [] [] [] (skipn 2 (vline pairs count)) = Ok (pairs, Some (" "%char :: number count)).
Proof.
  intros [|p ps] count N G D; [congruence|]. change (skipn 2 (vline (p :: ps) count)) with (quote :: flat_map vpair (p :: ps) ++ quote :: (" "%char :: number count)).
  rewrite fsm_line by exact G. now rewrite puts_fresh.
Qed.
Definition pairs_ex : list (text * text) := [(chr "f", chr "top/mod.sv"); (chr "l", chr "12"); (chr "page", chr "v_line/mod"); (chr "o", chr "block")].
Lemma pairs_good : pairs_ex <> [] /\ Forall good_pair pairs_ex /\ NoDup (map fst pairs_ex).
Proof.
  split; [discriminate|]. split.
  - repeat (apply Forall_cons || apply Forall_nil); (split; [discriminate|]); repeat split; cbv; intuition discriminate.
  - repeat constructor; cbv; intuition discriminate.
Qed.
Example C43_pairs_recovered_ex : fsm 0 [] [] [] (skipn 2 (vline pairs_ex 7)) = Ok (pairs_ex, Some (chr " 7")).
Proof. destruct pairs_good as (A & B & C). rewrite C43_pairs_recovered by assumption. reflexivity. Qed.

(* C43: a line of line coverage gives the file, the line and the count; the order of the pairs and
   further pairs do not matter *)
Theorem C43_line_decoded : forall pairs count page fn ln, Forall good_pair pairs -> NoDup (map fst pairs) ->
  In (chr "page", page) pairs -> firstn 6 page = chr "v_line" -> In (chr "f", fn) pairs -> In (chr "l", number ln) pairs ->
  0 <= ln < 2 ^ 31 -> 0 <= count < 2 ^ 32 -> decode (vline pairs count) = Ok (Some (fn, ln, count)).
Proof.
  intros pairs count page fn ln G N P V F L HL HC. rewrite (decode_line pairs count page fn ln); auto; [|lia]. now rewrite Z.mod_small by exact HC.
Qed.
Example C43_line_decoded_ex : decode (vline pairs_ex 7) = Ok (Some (chr "top/mod.sv", 12, 7)).
Proof. reflexivity. Qed.

(* C43: other pages, such as toggle coverage, are skipped *)
Theorem C43_other_pages_skipped : forall pairs count page, Forall good_pair pairs -> NoDup (map fst pairs) ->
  In (chr "page", page) pairs -> firstn 6 page <> chr "v_line" -> decode (vline pairs count) = Ok None.
Proof.
  intros pairs count page G N P V. assert (pairs <> []) as Ne by (intros ->; destruct P). unfold decode.
  change (vline pairs count) with ("C"%char :: " "%char :: skipn 2 (vline pairs count)) at 1. cbv iota beta. rewrite Ascii.eqb_refl. rewrite C43_pairs_recovered by assumption.
  cbn [obind fst snd]. rewrite (get_in _ _ _ N P). now rewrite teqb_ne.
Qed.
Example C43_other_pages_skipped_ex : decode (vline [(chr "page", chr "v_toggle/mod"); (chr "f", chr "a.sv")] 3) = Ok None.
Proof. reflexivity. Qed.

(* C129: the count is kept modulo 2^32, so that a line run exactly 2^32 times counts as not run *)
Theorem C129_large_counts_are_truncated_refuted : forall pairs k page fn ln, Forall good_pair pairs -> NoDup (map fst pairs) ->
  In (chr "page", page) pairs -> firstn 6 page = chr "v_line" -> In (chr "f", fn) pairs -> In (chr "l", number ln) pairs ->
  0 <= ln < 2 ^ 31 -> 0 < k < 2 ^ 31 -> decode (vline pairs (k * 2 ^ 32)) = Ok (Some (fn, ln, 0)) /\
  forall bs, reverse_map bs [(fn, ln, 0)] = [].
Proof.
  intros pairs k page fn ln G N P V F L HL HK. split; [|reflexivity]. rewrite (decode_line pairs _ page fn ln); auto; [|lia]. now rewrite Z.mod_mul by lia.
Qed.
Example C129_large_counts_are_truncated_ex : In (chr "page", chr "v_line/mod") pairs_ex /\ In (chr "f", chr "top/mod.sv") pairs_ex /\ In (chr "l", number 12) pairs_ex
  /\ decode (vline pairs_ex (2 ^ 32)) = Ok (Some (chr "top/mod.sv", 12, 0)).
Proof. repeat split; cbv; tauto || reflexivity. Qed.

(* C130: a value with a quote in it ends the data: the pairs after it are lost *)
Theorem C130_quote_in_a_value_refuted : forall a k v r b count, Forall good_pair (a ++ [(k, v)]) -> NoDup (map fst (a ++ [(k, v)])) ->
  fsm 0 [] [] [] (skipn 2 (vline (a ++ (k, v ++ quote :: r) :: b) count)) = Ok (a ++ [(k, v)], Some (r ++ flat_map vpair b ++ chr "' " ++ number count)).
Proof.
  intros a k v r b count G N.
  assert (skipn 2 (vline (a ++ (k, v ++ quote :: r) :: b) count) = quote :: flat_map vpair a ++ soh :: k ++ stx :: v ++ quote :: (r ++ flat_map vpair b ++ chr "' " ++ number count)) as ->.
  { unfold vline. change (chr "C '") with ["C"%char; " "%char; quote]. cbn [app skipn]. f_equal. rewrite flat_map_app. cbn [flat_map]. unfold vpair at 2. cbn [fst snd]. rewrite <- !app_assoc. cbn [app]. f_equal. f_equal.
    rewrite <- !app_assoc. f_equal. cbn [app]. f_equal. rewrite <- !app_assoc. reflexivity. }
  rewrite fsm_cut by exact G. now rewrite puts_fresh.
Qed.
Example C130_quote_in_a_value_ex : decode (vline [(chr "page", chr "v_line/mod"); (chr "o", chr "case 2'b01"); (chr "f", chr "a.sv"); (chr "l", chr "3")] 5) = Throw.
Proof. reflexivity. Qed.

(* C131: with different blocks at different lines or in files of different base name, exactly the
   blocks are hit for whose line the file has a count other than zero *)
Theorem C131_hits_are_mapped_to_blocks : forall (bs : list block) hits base_name, (forall s, base_of s (base_name s)) ->
  NoDup (map (fun b => (base_name (bfile b), snd b)) (filter (fun b => match bfile b with [] => false | _ => true end) bs)) ->
  NoDup (map fst (reverse_map bs hits)) /\
  (forall id, In id (map fst (reverse_map bs hits)) <->
    exists fn ln path base c, In (id, fn, ln) bs /\ fn <> [] /\ In (path, ln, c) hits /\ c <> 0 /\ base_of path base /\ base_of fn base) /\
  forall id c, In (id, c) (reverse_map bs hits) ->
    exists fn ln path base, In (id, fn, ln) bs /\ In (path, ln, c) hits /\ c <> 0 /\ base_of path base /\ base_of fn base.
Proof.
  intros bs hits base_name H N0. assert (NoDup (map bkey (written bs))) as N.
  { erewrite map_ext; [exact N0|]. intros [[i fn] ln]. unfold bkey. cbn [fst snd bfile]. now rewrite (basename_is _ _ (H fn)). }
  destruct (reverse_ok bs hits N) as (A & B & C). split; [exact A|].
  assert (forall id c, In (id, c) (reverse_map bs hits) -> exists fn ln path base, In (id, fn, ln) bs /\ fn <> [] /\ In (path, ln, c) hits /\ c <> 0 /\ base_of path base /\ base_of fn base) as B'.
  { intros id c I. destruct (B id c I) as ([[i fn] ln] & path & l & E & Ib & Ih & Nz & W & Eb & El). cbn [fst snd bfile] in *. subst i l. exists fn, ln, path, (basename fn).
    repeat split; auto; [|apply base_exists]. rewrite <- Eb. apply base_exists. }
  split.
  - intros id. split.
    + intros I. apply in_map_iff in I as ([i c] & E & I). cbn [fst] in E. subst i. destruct (B' id c I) as (fn & ln & path & base & X). exists fn, ln, path, base, c. exact X.
    + intros (fn & ln & path & base & c & Ib & W & Ih & Nz & Bp & Bf). apply (C (id, fn, ln) (path, ln, c) Ib Ih). repeat split; auto. cbn [bfile fst snd].
      now rewrite (basename_is _ _ Bp), (basename_is _ _ Bf).
  - intros id c I. destruct (B' id c I) as (fn & ln & path & base & X). exists fn, ln, path, base. tauto.
Qed.
Definition bs_ex : list block := [(1%nat, chr "out/a.sv", 3); (2%nat, chr "out/b.sv", 3); (3%nat, [], 3)].
Example C131_hits_are_mapped_to_blocks_ex : reverse_map bs_ex [(chr "/x/a.sv", 3, 4); (chr "/x/b.sv", 3, 0)] = [(1%nat, 4)]
  /\ (forall s, base_of s (basename s)) /\ NoDup (map (fun b : block => (basename (bfile b), snd b)) (filter (fun b : block => match bfile b with [] => false | _ => true end) bs_ex)).
Proof. split; [reflexivity|]. split; [exact base_exists|]. repeat constructor; cbv; intuition discriminate. Qed.

(* C132: the directory is not looked at: a hit in another file of the same base name counts *)
Theorem C132_directories_are_ignored_refuted : forall id d1 d2 b ln c, ~ In "/"%char b -> b <> [] -> d1 <> d2 -> c <> 0 ->
  reverse_map [(id, d1 ++ "/"%char :: b, ln)] [(d2 ++ "/"%char :: b, ln, c)] = [(id, c)].
Proof.
  intros id d1 d2 b ln c N _ _ C. unfold reverse_map, stmt_map. cbn [fold_left add_block]. unfold basename. destruct (d1 ++ "/"%char :: b) eqn:E; [destruct d1; discriminate|]. rewrite <- E.
  rewrite base_slash by exact N. cbn [existsb app]. unfold add_hit. destruct (Z.eqb_spec c 0); [contradiction|]. unfold basename. rewrite base_slash by exact N. cbn [find]. unfold same_key. cbn [fst snd].
  now rewrite teqb_refl, Z.eqb_refl.
Qed.
Example C132_directories_are_ignored_ex : reverse_map [(1%nat, chr "rtl/fifo.sv", 8)] [(chr "vendor/fifo.sv", 8, 2)] = [(1%nat, 2)].
Proof. reflexivity. Qed.

(* C133: a block coverage report is read back: one hit for each row of a branch *)
Theorem C133_block_report_read_back : forall fs, Forall (fun f => tight (fst f) /\ Forall good_row (snd f)) fs ->
  exists hs, icc 0 [] (flat_map file_text fs) = Ok hs /\
    forall fn ln c, In (fn, ln, c) hs <-> exists rs r, In (fn, rs) fs /\ In r rs /\ branch_kind (b_kind r) /\ b_line r = ln /\ b_count r = c.
Proof.
  intros fs H. eexists. split; [exact (report_ok fs H)|]. intros fn ln c. rewrite in_flat_map. split.
  - intros ([f rs] & I & J). unfold row_hits in J. apply in_flat_map in J as (r & Ir & K). cbn [fst snd] in *. destruct (allowed_kind (b_kind r)) eqn:A; [|destruct K]. destruct K as [E|[]]. injection E as <- <- <-.
    exists rs, r. repeat split; auto. now apply allowed_iff.
  - intros (rs & r & I & J & K & <- & <-). exists (fn, rs). split; [exact I|]. apply in_flat_map. exists r. split; [exact J|]. apply allowed_iff in K. rewrite K. now left.
Qed.
Definition row_ex (k : string) (c l : Z) : brow := {| b_count := c; b_block := chr "2"; b_line := l; b_kind := chr k; b_origin := chr "6"; b_source := chr "if (a == b) begin"; b_gaps := 3 |}.
Definition fs_ex : list (text * list brow) := [(chr "/tmp/mod.sv", [row_ex "true part of" 4 17; row_ex "code block" 9 18]); (chr "b.sv", [row_ex "false part of" 0 21])].
Example C133_block_report_read_back_ex : icc 0 [] (flat_map file_text fs_ex) = Ok [(chr "/tmp/mod.sv", 17, 4); (chr "b.sv", 21, 0)].
Proof. reflexivity. Qed.

(* C134: the columns of a row are recovered exactly, but the last one comes with a blank before it *)
Theorem C134_last_column_has_a_blank_refuted : forall f rest n c, column f -> Forall column (map snd rest) -> column c ->
  icc_tokens (row f (rest ++ [(n, c)])) = f :: map snd rest ++ [" "%char :: c].
Proof.
  intros f rest n c F R C. rewrite icc_tokens_row; [apply lastsp_last|exact F|]. rewrite map_app. apply Forall_app. split; [exact R|]. now constructor.
Qed.
Example C134_last_column_has_a_blank_ex : icc_tokens (chr "4   2  17") = [chr "4"; chr "2"; chr " 17"].
Proof. reflexivity. Qed.
Print Assumptions C43_pairs_recovered.
Print Assumptions C43_line_decoded.
Print Assumptions C43_other_pages_skipped.
Print Assumptions C129_large_counts_are_truncated_refuted.
Print Assumptions C130_quote_in_a_value_refuted.
Print Assumptions C131_hits_are_mapped_to_blocks.
Print Assumptions C132_directories_are_ignored_refuted.
Print Assumptions C133_block_report_read_back.
Print Assumptions C134_last_column_has_a_blank_refuted.
