From Verif Require Import Base Lab_spec Lab_model Lab_proofs.
From Coq Require Import Permutation.
Local Open Scope list_scope.
Local Open Scope string_scope.

(* C509: in a generator a name belongs to the first block that got it; another block is refused it. *)
Theorem C509_named : forall home h g n b, (get_named_block (after home h) g n = Some b <-> given h g n b)
  /\ (snd (run (after home h) (Label g n b)) = Throw <-> exists c, given h g n c)
  /\ (snd (run (after home h) (Label g n b)) = Throw -> fst (run (after home h) (Label g n b)) = after home h).
Proof.
  intros home h g n b. destruct (named_given home h) as (A & _). split; [apply A|]. cbn [run]. unfold add_named_block.
  destruct (find_in (s_named (after home h) g) n) as [c|] eqn:E; cbn [fst snd].
  - split; [split; [intros _; exists c; apply A; exact E|reflexivity]|reflexivity].
  - split; [split; [discriminate|]|discriminate]. intros (c & Hc). apply A in Hc. unfold get_named_block in Hc. congruence.
Qed.
(* ... whatever the order in which the names are gone through, a block that has names is printed with one of them, any other block with none, and
   two blocks never with the same. *)
Theorem C509_printed : forall home h g ord b, Permutation ord (labels (after home h) g) ->
  ((exists n, given h g n b /\ block_label (after home h) g ord b = " :" ++ n) \/ (forall n, ~ given h g n b) /\ block_label (after home h) g ord b = "")
  /\ forall c, c <> b -> block_label (after home h) g ord b <> "" -> block_label (after home h) g ord c <> block_label (after home h) g ord b.
Proof.
  intros home h g ord b Pm. split; [apply label_cases, Pm|]. intros c Nc Nb.
  destruct (label_cases home h g ord b Pm) as [(n & Hn & ->)|(_ & E)]; [|contradiction]. destruct (label_cases home h g ord c Pm) as [(m & Hm & ->)|(_ & ->)]; [|discriminate].
  intros X. assert (m = n) by (cbn in X; congruence). subst m. apply Nc. destruct (named_given home h) as (A & _). apply A in Hn, Hm. congruence.
Qed.
Example C509_ex : let s := after (fun _ => 0%nat) [Label 0 "x" 5; Label 0 "y" 6; Label 0 "x" 7] in
  block_label s 0 ["y"; "x"] 5 = " :x" /\ block_label s 0 ["y"; "x"] 7 = "" /\ labels s 0 = ["x"; "y"].
Proof. cbv. repeat split. Qed.

(* C510: a block with one name is printed with it.  Of two names of a block one is not printed, and which one it is depends on the order of a hash
   table. *)
Theorem C510_two_refuted :
  (forall home h g ord b n, Permutation ord (labels (after home h) g) -> given h g n b -> (forall m, given h g m b -> m = n) -> block_label (after home h) g ord b = " :" ++ n)
  /\ ~ (forall home h g ord ord' b, Permutation ord (labels (after home h) g) -> Permutation ord' (labels (after home h) g) ->
          block_label (after home h) g ord b = block_label (after home h) g ord' b).
Proof.
  split.
  - intros home h g ord b n Pm Hn U. destruct (label_cases home h g ord b Pm) as [(m & Hm & ->)|(Nn & _)]; [rewrite (U m Hm); reflexivity|exfalso; exact (Nn n Hn)].
  - intros H. specialize (H (fun _ => 0%nat) [Label 0 "x" 5; Label 0 "y" 5] 0%nat ["x"; "y"] ["y"; "x"] 5%nat (Permutation_refl _) (perm_swap _ _ _)). discriminate H.
Qed.
Example C510_ex : given [Label 0 "x" 5; Label 0 "y" 6] 0 "x" 5 /\ block_label (after (fun _ => 0%nat) [Label 0 "x" 5; Label 0 "y" 6]) 0 ["y"; "x"] 5 = " :x".
Proof. split; [|reflexivity]. exists [], [Label 0 "y" 6]. split; [reflexivity|intros ? []]. Qed.

(* C511: where every block is named in its own generator and nothing is inlined, a block that was given a name is printed with one.  Inlining moves
   the blocks and leaves their names behind. *)
Theorem C511_inlined_refuted :
  (forall home h ord b n, at_home home h -> let s := after home h in Permutation ord (labels s (s_home s b)) -> given h (home b) n b ->
     exists m, given h (home b) m b /\ block_label s (s_home s b) ord b = " :" ++ m)
  /\ ~ (forall home h ord b n, let s := after home h in (forall g m c, In (Label g m c) h -> home c = g) -> Permutation ord (labels s (s_home s b)) -> given h (home b) n b ->
          block_label s (s_home s b) ord b <> "").
Proof.
  split.
  - intros home h ord b n A s Pm Hn. subst s. rewrite (home_fixed home h A) in *. destruct (label_cases home h (home b) ord b Pm) as [X|(Nn & _)]; [exact X|exfalso; exact (Nn n Hn)].
  - intros H. apply (H (fun b => b) [Label 5 "x" 5; Inline 5 0] [] 5%nat "x"); [|constructor| |reflexivity].
    + intros g m c [X|[X|[]]]; [injection X as <- _ <-; reflexivity|discriminate X].
    + exists [], [Inline 5 0]. split; [reflexivity|intros ? []].
Qed.
Example C511_ex : at_home (fun b => b) [Label 5 "x" 5; Var 5 "y"] /\ let s := after (fun b => b) [Label 5 "x" 5; Var 5 "y"] in block_label s (s_home s 5) ["x"] 5 = " :x".
Proof. split; [intros c [<-|[<-|[]]]; cbv; auto|reflexivity]. Qed.

(* C512: no two variables of a generator, and no two of its labels, have the same name; a label and a variable may have, and both are in the scope of
   the module. *)
Theorem C512_scope_refuted :
  (forall home h g, NoDup (labels (after home h) g) /\ NoDup (s_vars (after home h) g))
  /\ ~ (forall home h g, (forall h1 c h2, h = h1 ++ c :: h2 -> snd (run (after home h1) c) = Ok tt)%list -> NoDup (labels (after home h) g ++ s_vars (after home h) g)).
Proof.
  split; [intros home h g; split; [apply named_given|apply vars_nodup]|].
  intros H. specialize (H (fun _ => 0%nat) [Label 0 "x" 5; Var 0 "x"] 0%nat). cbv in H.
  assert (K : NoDup ["x"; "x"]).
  { apply H. intros h1 c h2 E. destruct h1 as [|a [|b [|d h1]]]; try discriminate E; injection E as; subst; reflexivity. }
  inversion K as [|x l Hx _]; subst. apply Hx. left. reflexivity.
Qed.
Example C512_ex : labels (after (fun _ => 0%nat) [Label 0 "x" 5; Var 0 "x"; Var 0 "x"]) 0 = ["x"] /\ s_vars (after (fun _ => 0%nat) [Label 0 "x" 5; Var 0 "x"; Var 0 "x"]) 0 = ["x"].
Proof. split; reflexivity. Qed.

(* C513: where a child is commented on while it is there and at most once, its comment stays with it when children are added, renamed and removed;
   a child that takes the name of another one does not take its comment. *)
Theorem C513_comment : forall h k n o, story h k -> In (n, o) k -> get_child_comment (kafter h) n = match o with Some t => t | None => "" end.
Proof. intros h k n o H Hi. destruct (story_agrees h k H) as (_ & _ & C & _). unfold get_child_comment. rewrite (C n o Hi). destruct o; reflexivity. Qed.
(* ... and the children are those of the story. *)
Theorem C513_children : forall h k, story h k -> k_names (kafter h) = map fst k /\ NoDup (map fst k).
Proof. intros h k H. destruct (story_agrees h k H) as (A & B & _). split; assumption. Qed.
(* ... an exception is given exactly for a new child whose name there is, and for a new name for a child there is not or a name there is. *)
Theorem C513_refused : forall h k n m, story h k ->
  (snd (kdo (kafter h) (New n)) = Throw <-> In n (map fst k)) /\ (snd (kdo (kafter h) (Rename n m)) = Throw <-> ~ In n (map fst k) \/ In m (map fst k)).
Proof.
  intros h k n m H. destruct (story_agrees h k H) as (A & _). change (names k) with (map fst k) in A. cbn [kdo]. rewrite A. split.
  - destruct (existsb (String.eqb n) (map fst k)) eqn:E; cbn [snd]; [apply memb in E; split; [intros _; exact E|reflexivity]|]. split; [discriminate|intros X; apply memb in X; congruence].
  - destruct (existsb (String.eqb n) (map fst k)) eqn:E; cbn [negb snd].
    + apply memb in E. destruct (existsb (String.eqb m) (map fst k)) eqn:F; cbn [snd]; [apply memb in F; split; [intros _; right; exact F|reflexivity]|].
      split; [discriminate|]. intros [X|X]; [contradiction|apply memb in X; congruence].
    + split; [|reflexivity]. intros _. left. intros X. apply memb in X. congruence.
Qed.
Example C513_ex : story ((((([] ++ [New "a"]) ++ [Comment "a" "first"]) ++ [Rename "a" "b"]) ++ [New "a"]) ++ [Drop "b"])%list [("a", None)]
  /\ get_child_comment (kafter [New "a"; Comment "a" "first"; Rename "a" "b"; New "a"]) "b" = "first" /\ get_child_comment (kafter [New "a"; Comment "a" "first"; Rename "a" "b"; New "a"]) "a" = "".
Proof.
  split; [|split; reflexivity]. apply (S_drop _ [] [("a", None)] "b" (Some "first")). apply (S_new _ [("b", Some "first")]).
  - apply (S_rename _ [] [] "a"). { apply (S_comment _ [] []). apply (S_new [] []); [constructor|intros []]. } intros [X|[]]; discriminate X.
  - intros [X|[]]; discriminate X.
Qed.

(* C514: the comment of a child is the one that was set first: another comment is ignored. *)
Theorem C514_again_refuted :
  (forall h n t, (forall u, ~ In (Comment n u) h) -> (forall m, ~ In (Rename m n) h) -> get_child_comment (kafter (h ++ [Comment n t])%list) n = t)
  /\ (forall h n t u, get_child_comment (kafter ((h ++ [Comment n t]) ++ [Comment n u])%list) n = get_child_comment (kafter (h ++ [Comment n t])%list) n)
  /\ ~ (forall h n t, get_child_comment (kafter (h ++ [Comment n t])%list) n = t).
Proof.
  split; [|split].
  - intros h n t Hc Hr. rewrite kafter_snoc. cbn [kdo fst]. unfold get_child_comment. cbn [k_comments].
    assert (X : find_in (k_comments (kafter h)) n = None).
    { induction h as [|c h IH] using rev_ind; [reflexivity|]. rewrite kafter_snoc.
      assert (I1 : find_in (k_comments (kafter h)) n = None) by (apply IH; [intros u X; apply (Hc u)|intros m X; apply (Hr m)]; apply in_or_app; left; exact X).
      assert (Lc : In c (h ++ [c])%list) by (apply in_or_app; right; left; reflexivity).
      destruct c as [m|m u|m m2|m]; cbn [kdo].
      - destruct (existsb _ _); exact I1.
      - cbn [fst k_comments]. rewrite find_in_emplace. destruct (find_in (k_comments (kafter h)) m); [exact I1|]. destruct (String.eqb_spec m n) as [E|]; [|exact I1]. subst m. exfalso. exact (Hc u Lc).
      - destruct (negb _); [exact I1|]. destruct (existsb _ _); [exact I1|]. cbn [fst k_comments]. destruct (find_in (k_comments (kafter h)) m) as [w|]; [|exact I1].
        rewrite find_in_emplace, !find_in_erase. assert (Nn : m2 <> n) by (intros E; subst m2; exact (Hr m Lc)). rewrite I1.
        destruct (String.eqb m n), (String.eqb m m2), (find_in (k_comments (kafter h)) m2); try reflexivity; destruct (String.eqb_spec m2 n); try contradiction; reflexivity.
      - destruct (existsb _ _); [|exact I1]. cbn [fst k_comments]. rewrite find_in_erase. destruct (String.eqb m n); [reflexivity|exact I1]. }
    rewrite find_in_emplace, X, String.eqb_refl. reflexivity.
  - intros h n t u. rewrite !kafter_snoc. cbn [kdo fst k_comments]. unfold get_child_comment. cbn [k_comments].
    assert (X : exists w, find_in (emplace (k_comments (kafter h)) n t) n = Some w) by (rewrite find_in_emplace, String.eqb_refl; destruct (find_in (k_comments (kafter h)) n) as [w|]; [exists w|exists t]; reflexivity).
    destruct X as (w & X). rewrite find_in_emplace, X. reflexivity.
  - intros H. specialize (H [New "a"; Comment "a" "first"] "a" "second"). discriminate H.
Qed.
Example C514_ex : get_child_comment (kafter [New "a"; Comment "a" "first"; Comment "a" "second"]) "a" = "first".
Proof. reflexivity. Qed.

(* C515: a comment for a name that no child has is kept for the first child that gets the name, and a child that is renamed to it loses its own. *)
Theorem C515_renamed_refuted :
  ~ (forall h n m t, get_child_comment (kafter h) n = t -> snd (kdo (kafter h) (Rename n m)) = Ok tt -> get_child_comment (kafter (h ++ [Rename n m])%list) m = t).
Proof. intros H. specialize (H [Comment "b" "old"; New "a"; Comment "a" "mine"] "a" "b" "mine" eq_refl eq_refl). discriminate H. Qed.
Example C515_ex : get_child_comment (kafter [Comment "b" "old"; New "a"; Comment "a" "mine"; Rename "a" "b"]) "b" = "old".
Proof. reflexivity. Qed.
Print Assumptions C509_named.
Print Assumptions C509_printed.
Print Assumptions C510_two_refuted.
Print Assumptions C511_inlined_refuted.
Print Assumptions C512_scope_refuted.
Print Assumptions C513_comment.
Print Assumptions C513_children.
Print Assumptions C513_refused.
Print Assumptions C514_again_refuted.
Print Assumptions C515_renamed_refuted.
