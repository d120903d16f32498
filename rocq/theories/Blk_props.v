(* C388-C394 *)
From Coq Require Import Lia.
From Verif Require Import Base Blk_model.
Local Open Scope string_scope.
Local Open Scope list_scope.

(* what is directly inside a statement *)
Definition child (h : heap) (i c : nat) : Prop := match h_body h i with If t e => c = t \/ c = e | For b => c = b | Block _ l => In c l | _ => False end.
Section Built.
  (* statements are nested in some order: nothing is inside itself *)
  Variable rank : nat -> nat.
  Record good (h : heap) : Prop := {
    g_parent : forall i c, child h i c -> h_parent h c = Some (InStmt i);
    g_rank : forall i c, child h i c -> rank c < rank i;
    g_once : forall b, NoDup (stmts h b);
    g_loops : forall i b, h_body h i <> For b;
    g_ifs : forall i t e, h_body h i = If t e -> (exists bt l, h_body h t = Block bt l) /\ exists bt l, h_body h e = Block bt l }.
  Definition eqv (h h' : heap) : Prop := (forall x, h_body h' x = h_body h x) /\ forall x, h_parent h' x = h_parent h x.
  Lemma child_eqv h h' i c : (forall x, h_body h' x = h_body h x) -> child h' i c <-> child h i c.
  Proof. intros E. unfold child. now rewrite E. Qed.
  (* all but s0 have the parent they are in *)
  Definition inner (s0 : nat) (h : heap) : Prop := (forall i c, child h i c -> c <> s0 -> h_parent h c = Some (InStmt i)) /\ (forall i c, child h i c -> rank c < rank i) /\ forall i b, h_body h i <> For b.
  Lemma inner_eqv s0 h h' : eqv h h' -> inner s0 h -> inner s0 h'.
  Proof.
    intros [E1 E2] [A [B C]]. split; [|split]; intros i c; [rewrite (child_eqv _ _ _ _ E1), E2; apply A|rewrite (child_eqv _ _ _ _ E1); apply B|rewrite E1; apply C].
  Qed.
  Lemma eqv_trans a b c : eqv a b -> eqv b c -> eqv a c.
  Proof. intros [A1 A2] [B1 B2]. split; intros x; [rewrite B1|rewrite B2]; auto. Qed.
  Lemma same_parent h s p : h_parent h s = Some p -> eqv h (with_parent h s p).
  Proof. intros E. split; intros x; trivial. cbn. unfold upd. destruct (Nat.eqb_spec x s) as [->|]; auto. Qed.
  Lemma nested f : forall s0 s p h, inner s0 h -> rank s < rank s0 -> h_parent h s = Some p -> exists h', set_parent f h s p = Ok h' /\ eqv h h'.
  Proof.
    induction f as [|f IH]; intros s0 s p h I R P; [exists h; split; [reflexivity|split; trivial]|]. cbn [set_parent].
    assert (ALL : forall l h1, eqv h h1 -> (forall c, In c l -> child h s c) -> exists h',
      (fix all (h : heap) (l : list nat) := match l with [] => Ok h | x :: r => olet h1 := set_parent f h x (InStmt s) in all h1 r end) h1 l = Ok h' /\ eqv h h').
    { induction l as [|c l IHl]; intros h1 E C; [now exists h1|]. assert (Cc : child h s c) by (apply C; now left).
      pose proof (proj1 (proj2 I) _ _ Cc) as Rc. destruct (IH s0 c (InStmt s) h1) as [h2 [S2 E2]].
      - now apply (inner_eqv s0 h).
      - lia.
      - rewrite (proj2 E). apply (proj1 I); trivial. intros ->. lia.
      - rewrite S2. cbn [obind]. apply IHl; [now apply (eqv_trans h h1)|]. intros d D. apply C. now right. }
    pose proof (same_parent h s p P) as E0. pose proof (proj2 (proj2 I) s) as NF. destruct (h_body h s) as [a| |t e|b|bt l] eqn:B.
    - now exists (with_parent h s p).
    - now exists (with_parent h s p).
    - destruct (ALL [t; e] _ E0) as [h' H]; [intros c [<-|[<-|[]]]; unfold child; rewrite B; auto|exists h'; exact H].
    - now destruct (NF b).
    - destruct (ALL l _ E0) as [h' H]; [intros c Hc; unfold child; now rewrite B|exists h'; exact H].
  Qed.
  Lemma set_parent_ok f s p h : good h -> exists h', set_parent (S f) h s p = Ok h' /\ eqv (with_parent h s p) h'.
  Proof.
    intros [GP GR GO GL GI]. cbn [set_parent].
    assert (I : inner s (with_parent h s p)). { split; [|split; [exact GR|exact GL]]. intros i c Hc N. cbn. unfold upd. destruct (Nat.eqb_spec c s); [contradiction|]. now apply GP. }
    assert (ALL : forall l h1, eqv (with_parent h s p) h1 -> (forall c, In c l -> child h s c) -> exists h',
      (fix all (h : heap) (l : list nat) := match l with [] => Ok h | x :: r => olet h1 := set_parent f h x (InStmt s) in all h1 r end) h1 l = Ok h' /\ eqv (with_parent h s p) h').
    { induction l as [|c l IHl]; intros h1 E C; [now exists h1|]. assert (Cc : child h s c) by (apply C; now left). pose proof (GR _ _ Cc) as Rc.
      destruct (nested f s c (InStmt s) h1) as [h2 [S2 E2]].
      - now apply (inner_eqv s (with_parent h s p)).
      - exact Rc.
      - rewrite (proj2 E). apply (proj1 I); trivial. intros ->. lia.
      - rewrite S2. cbn [obind]. apply IHl; [now apply (eqv_trans _ h1)|]. intros d D. apply C. now right. }
    assert (E0 : eqv (with_parent h s p) (with_parent h s p)) by (split; trivial). pose proof (GL s) as NF. destruct (h_body h s) as [a| |t e|b|bt l] eqn:B.
    - now exists (with_parent h s p).
    - now exists (with_parent h s p).
    - destruct (ALL [t; e] _ E0) as [h' H]; [intros c [<-|[<-|[]]]; unfold child; rewrite B; auto|exists h'; exact H].
    - now destruct (NF b).
    - destruct (ALL l _ E0) as [h' H]; [intros c Hc; unfold child; now rewrite B|exists h'; exact H].
  Qed.

  (* calls, and what they should do to the statements of blocks *)
  Inductive call := Add (b s : nat) | Detach (s : nat).
  Definition effect (c : call) (L : nat -> list nat) : nat -> list nat :=
    match c with
    | Add b s => fun x => if Nat.eqb x b then L x ++ [s] else L x
    | Detach s => fun x => remove Nat.eq_dec s (L x)
    end.
  (* a block, a statement for it that is nowhere yet, of the right kind; a statement that is in a block *)
  Definition fits (h : heap) (b s : nat) : Prop := (exists t l, h_body h b = Block t l) /\ (forall t l, h_body h s <> Block t l) /\
    (h_body h s = Assign NonBlocking -> type_of h b <> Comb) /\ (h_body h s = Assign Blocking -> type_of h b <> Seq) /\ rank s < rank b.
  Definition legal (h0 : heap) (L : nat -> list nat) (c : call) : Prop :=
    match c with
    | Add b s => fits h0 b s /\ forall x, ~ In s (L x)
    | Detach s => exists x, In s (L x)
    end.
  Definition run (fuel : nat) (c : call) (h : heap) : outcome heap := match c with Add b s => add_stmt fuel h b s | Detach s => Ok (remove_from_parent h s) end.
  Fixpoint run_all (fuel : nat) (l : list call) (h : heap) : outcome heap := match l with [] => Ok h | c :: r => olet h1 := run fuel c h in run_all fuel r h1 end.
  Fixpoint legal_all (h0 : heap) (L : nat -> list nat) (l : list call) : Prop := match l with [] => True | c :: r => legal h0 L c /\ legal_all h0 (effect c L) r end.
  (* the kinds of statements do not change *)
  Definition kept (h0 h : heap) : Prop := forall x, match h_body h0 x, h_body h x with Block t _, Block t' _ => t' = t | a, b => a = b end.
  Lemma erase_remove s l : NoDup l -> erase s l = remove Nat.eq_dec s l.
  Proof.
    induction 1 as [|x l N ND IH]; trivial. cbn. destruct (Nat.eqb_spec x s) as [E|D]; destruct (Nat.eq_dec s x) as [E'|E']; try congruence. symmetry. apply notin_remove. congruence.
  Qed.
  Lemma kept_type h0 h b : kept h0 h -> type_of h b = type_of h0 b.
  Proof. intros K. specialize (K b). unfold type_of. destruct (h_body h0 b), (h_body h b); try discriminate; congruence. Qed.
  Lemma is_in_iff s l : is_in s l = true <-> In s l.
  Proof. unfold is_in. rewrite existsb_exists. split; [intros [x [I E]]; apply Nat.eqb_eq in E; now subst|]. intros I. exists s. split; trivial. apply Nat.eqb_refl. Qed.
  Lemma NoDup_snoc (l : list nat) s : NoDup l -> ~ In s l -> NoDup (l ++ [s]).
  Proof.
    induction 1 as [|x l N ND IH]; intros H; cbn; [constructor; [intros []|constructor]|]. constructor; [|apply IH; intros I; apply H; now right].
    rewrite in_app_iff. intros [I|[->|[]]]; [contradiction|]. apply H. now left.
  Qed.
  Lemma run_ok f h0 c h : good h -> kept h0 h -> legal h0 (stmts h) c -> exists h', run (S f) c h = Ok h' /\ good h' /\ kept h0 h' /\ forall b, stmts h' b = effect c (stmts h) b.
  Proof.
    intros G K. pose proof G as [GP GR GO GL GI]. destruct c as [b s|s]; cbn [legal run effect].
    - intros [[[t [l0 B0]] [NB [A1 [A2 R]]]] NI].
      assert (BB : exists l, h_body h b = Block t l). { specialize (K b). rewrite B0 in K. destruct (h_body h b) as [| | | |t' l]; try discriminate. exists l. congruence. } destruct BB as [l B].
      assert (BS : h_body h s = h_body h0 s). { specialize (K s). destruct (h_body h0 s) eqn:E, (h_body h s); try congruence; now destruct (NB bt l). }
      assert (T : type_of h b = t) by (unfold type_of; now rewrite B). assert (T0 : type_of h0 b = t) by (unfold type_of; now rewrite B0). rewrite T0 in A1, A2.
      unfold add_stmt. rewrite BS, T.
      assert (W : match h_body h0 s, t with Block _ _, _ => true | Assign NonBlocking, Comb => true | Assign Blocking, Seq => true | _, _ => false end = false).
      { destruct (h_body h0 s) as [[]| | | |bt l1] eqn:E; try (destruct t; trivial); try (now destruct (A1 eq_refl)); try (now destruct (A2 eq_refl)); now destruct (NB bt l1). }
      rewrite W. assert (NIb : is_in s (stmts h b) = false) by (destruct (is_in s (stmts h b)) eqn:E; trivial; apply is_in_iff in E; now destruct (NI b)). rewrite NIb. cbn [orb].
      destruct (set_parent_ok f s (InStmt b) h G) as [h1 [-> [E1 E2]]]. cbn [obind]. eexists. split; [reflexivity|].
      assert (SB : forall x, stmts h1 x = stmts h x) by (intros x; unfold stmts; now rewrite E1). assert (TB : type_of h1 b = t) by (unfold type_of; rewrite E1; exact T). rewrite SB, TB.
      set (h2 := with_body h1 b (Block t (stmts h b ++ [s]))).
      assert (ST : forall x, stmts h2 x = if Nat.eqb x b then stmts h x ++ [s] else stmts h x).
      { intros x. unfold h2, stmts, with_body, upd. cbn [h_body]. destruct (Nat.eqb_spec x b) as [->|N]; trivial. exact (SB x). }
      assert (CH : forall i c, child h2 i c -> child h i c \/ (i = b /\ c = s)).
      { intros i c. unfold child, h2, with_body, upd. cbn [h_body]. destruct (Nat.eqb_spec i b) as [->|N].
        - rewrite in_app_iff. intros [I|[<-|[]]]; [left|now right]. rewrite B. unfold stmts in I. now rewrite B in I.
        - rewrite E1. now left. }
      assert (P2 : forall x, h_parent h2 x = if Nat.eqb x s then Some (InStmt b) else h_parent h x) by (intros x; cbn; rewrite E2; reflexivity).
      assert (NC : forall i c, child h i c -> c = s -> exists t e, h_body h i = If t e).
      { intros i c C E. subst c. unfold child in C. destruct (h_body h i) as [| |t1 e1|b1|t1 l1] eqn:Bi; try contradiction; [now exists t1, e1|now destruct (GL i b1)|]. destruct (NI i). unfold stmts. now rewrite Bi. }
      split; [|split; [|exact ST]].
      + constructor.
        * intros i c C. rewrite P2. destruct (CH i c C) as [D|[-> ->]]; [|now rewrite Nat.eqb_refl]. destruct (Nat.eqb_spec c s) as [->|N]; [|now apply GP].
          destruct (NC i s D eq_refl) as [t1 [e1 Bi]]. exfalso.
          unfold child in D. rewrite Bi in D. destruct (GI i t1 e1 Bi) as [[bt1 [l1 Q1]] [bt2 [l2 Q2]]]. destruct D as [<-|<-]; [apply (NB bt1 l1)|apply (NB bt2 l2)]; congruence.
        * intros i c C. destruct (CH i c C) as [D|[-> ->]]; [now apply GR|exact R].
        * intros x. rewrite ST. destruct (Nat.eqb x b); [|apply GO]. now apply NoDup_snoc.
        * intros i b1. unfold h2, with_body, upd. cbn [h_body]. destruct (Nat.eqb i b); [discriminate|]. rewrite E1. apply GL.
        * intros i t1 e1. unfold h2, with_body, upd. cbn [h_body]. destruct (Nat.eqb_spec i b) as [->|N]; [discriminate|]. rewrite E1. intros Bi. destruct (GI i t1 e1 Bi) as [Q1 Q2].
          split; [destruct (Nat.eqb t1 b); [eauto|rewrite E1; exact Q1]|destruct (Nat.eqb e1 b); [eauto|rewrite E1; exact Q2]].
      + intros x. unfold h2, with_body, upd. cbn [h_body]. destruct (Nat.eqb_spec x b) as [->|N]; [now rewrite B0|]. rewrite E1. apply K.
    - intros [b I]. assert (BB : exists t l, h_body h b = Block t l) by (unfold stmts in I; destruct (h_body h b) as [| | | |t l]; try contradiction; now exists t, l). destruct BB as [t [l B]].
      assert (C : child h b s) by (unfold child; rewrite B; unfold stmts in I; now rewrite B in I). unfold remove_from_parent. rewrite (GP b s C). unfold remove_stmt, erase_in. rewrite B.
      eexists. split; [reflexivity|]. set (h2 := with_body h b (Block t (erase s l))).
      assert (ND : NoDup l) by (specialize (GO b); unfold stmts in GO; now rewrite B in GO).
      assert (ST : forall x, stmts h2 x = remove Nat.eq_dec s (stmts h x)).
      { intros x. unfold h2, stmts, with_body, upd. cbn [h_body]. destruct (Nat.eqb_spec x b) as [->|N]; [rewrite B; now apply erase_remove|]. change (stmts h x = remove Nat.eq_dec s (stmts h x)). symmetry. apply notin_remove. intros J.
        assert (C' : child h x s) by (unfold child; unfold stmts in J; destruct (h_body h x); trivial; destruct J). apply GP in C, C'. congruence. }
      assert (CH : forall i c, child h2 i c -> child h i c).
      { intros i c. unfold child, h2, with_body, upd. cbn [h_body]. destruct (Nat.eqb_spec i b) as [->|N]; trivial. rewrite B, erase_remove by trivial. intros J. now apply in_remove in J. }
      split; [|split; [|exact ST]].
      + constructor.
        * intros i c D. apply GP. now apply CH.
        * intros i c D. apply GR. now apply CH.
        * intros x. rewrite ST. clear - GO. specialize (GO x). induction GO as [|y m N ND IH]; [constructor|]. cbn. destruct (Nat.eq_dec s y); trivial. constructor; trivial. intros J. now apply in_remove in J.
        * intros i b1. unfold h2, with_body, upd. cbn [h_body]. destruct (Nat.eqb i b); [discriminate|apply GL].
        * intros i t1 e1. unfold h2, with_body, upd. cbn [h_body]. destruct (Nat.eqb i b); [discriminate|]. intros Bi. destruct (GI i t1 e1 Bi) as [Q1 Q2].
          split; [destruct (Nat.eqb t1 b); [eauto|exact Q1]|destruct (Nat.eqb e1 b); [eauto|exact Q2]].
      + intros x. unfold h2, with_body, upd. cbn [h_body]. destruct (Nat.eqb_spec x b) as [->|N]; [|apply K]. specialize (K b). rewrite B in K. destruct (h_body h0 b); try discriminate. exact K.
  Qed.
  Lemma legal_ext h0 L L' c : (forall x, L' x = L x) -> legal h0 L c -> legal h0 L' c.
  Proof. intros E. destruct c as [b s|s]; cbn; [intros [F N]; split; trivial; intros x; now rewrite E|intros [x I]; exists x; now rewrite E]. Qed.
  Lemma effect_ext L L' c : (forall x, L' x = L x) -> forall x, effect c L' x = effect c L x.
  Proof. intros E x. destruct c as [b s|s]; cbn; now rewrite E. Qed.
  Lemma legal_all_ext h0 l : forall L L', (forall x, L' x = L x) -> legal_all h0 L l -> legal_all h0 L' l.
  Proof.
    induction l as [|c l IH]; intros L L' E; trivial. cbn. intros [A B]. split; [now apply (legal_ext h0 L)|]. apply (IH (effect c L)); trivial. now apply effect_ext.
  Qed.
  Lemma fold_ext l : forall L L', (forall x, L' x = L x) -> forall x, fold_left (fun L c => effect c L) l L' x = fold_left (fun L c => effect c L) l L x.
  Proof. induction l as [|c l IH]; intros L L' E; trivial. cbn. apply IH. now apply effect_ext. Qed.
End Built.

(* C388: statements are where they were put, once, and know it *)
Theorem C388_history rank f h calls : good rank h -> legal_all rank h (stmts h) calls ->
  exists h', run_all (S f) calls h = Ok h' /\ (forall b, stmts h' b = fold_left (fun L c => effect c L) calls (stmts h) b) /\
  (forall b, NoDup (stmts h' b)) /\ forall b s, In s (stmts h' b) -> h_parent h' s = Some (InStmt b).
Proof.
  intros G L. assert (R : forall calls h1, good rank h1 -> kept h h1 -> legal_all rank h (stmts h1) calls -> exists h', run_all (S f) calls h1 = Ok h' /\ (forall b, stmts h' b = fold_left (fun L c => effect c L) calls (stmts h1) b) /\ good rank h').
  { clear. induction calls as [|c calls IH]; intros h1 G K L; [exists h1; split; [reflexivity|]; split; trivial|]. destruct L as [L1 L2]. destruct (run_ok rank f h c h1 G K L1) as [h2 [E [G2 [K2 S2]]]].
    cbn [run_all]. rewrite E. cbn [obind]. destruct (IH h2 G2 K2) as [h' [R [S' G']]]; [now apply (legal_all_ext rank h calls (effect c (stmts h1)))|]. exists h'. split; trivial. split; trivial. intros b. rewrite S'. cbn [fold_left]. now apply fold_ext. }
  destruct (R calls h G) as [h' [E [S' G']]]; trivial.
  { intros x. destruct (h_body h x); trivial. }
  exists h'. split; trivial. split; trivial. split; [apply G'|]. intros b s I. apply (g_parent rank h' G'). unfold child. unfold stmts in I. destruct (h_body h' b); trivial; destruct I.
Qed.
(* 0: an always_comb block; 1: an if with 2 and 3; 4, 5: assignments *)
Definition sample : heap := {| h_body := fun n => match n with 0 => Block Comb [] | 1 => If 2 3 | 2 | 3 => Block OtherBlock [] | 4 => Assign Blocking | 5 => Assign Undefined | 6 => For 7 | 7 => Block OtherBlock [8] | 8 => Leaf | _ => Leaf end;
  h_parent := fun n => match n with 2 | 3 => Some (InStmt 1) | 7 => Some (InStmt 6) | 8 => Some (InStmt 7) | _ => None end |}.
Definition sample_rank (n : nat) : nat := match n with 0 => 9 | 1 => 5 | 2 | 3 => 4 | _ => 0 end.
Definition no_loop (h : heap) : heap := {| h_body := fun n => match n with 6 | 7 => Leaf | _ => h_body h n end; h_parent := h_parent h |}.
Example C388_ex : good sample_rank (no_loop sample) /\ legal_all sample_rank (no_loop sample) (stmts (no_loop sample)) [Add 2 4; Add 0 5; Add 0 1; Detach 5; Add 2 5] /\
  match run_all 5 [Add 2 4; Add 0 5; Add 0 1; Detach 5; Add 2 5] (no_loop sample) with Ok h => (stmts h 0, stmts h 2) = ([1], [4; 5]) | _ => False end.
Proof.
  split; [|split; [|reflexivity]].
  - constructor.
    + intros i c. unfold child. destruct i as [|[|[|[|[|[|[|[|[|i]]]]]]]]]; cbn; try contradiction. intros [->| ->]; reflexivity.
    + intros i c. unfold child. destruct i as [|[|[|[|[|[|[|[|[|i]]]]]]]]]; cbn; try contradiction. intros [->| ->]; cbn; lia.
    + intros b. unfold stmts. destruct b as [|[|[|[|[|[|[|[|[|b]]]]]]]]]; cbn; constructor.
    + intros i b. destruct i as [|[|[|[|[|[|[|[|[|i]]]]]]]]]; cbn; discriminate.
    + intros i t e. destruct i as [|[|[|[|[|[|[|[|[|i]]]]]]]]]; cbn; try discriminate. intros E. inversion E; subst. split; eexists; eexists; reflexivity.
  - assert (N : forall s x, ~ In s (stmts (no_loop sample) x)) by (intros s x; unfold stmts; destruct x as [|[|[|[|[|[|[|[|[|x]]]]]]]]]; cbn; auto).
    assert (F : forall b s, In (b, s) [(2, 4); (0, 5); (0, 1); (2, 5)] -> fits sample_rank (no_loop sample) b s).
    { intros b s I. cbn in I. unfold fits. destruct I as [I|[I|[I|[I|[]]]]]; inversion I; subst; cbn; (split; [eauto|]); repeat split; try discriminate; lia. }
    split; [split; [apply F; cbn; tauto|apply N]|]. split; [split; [apply F; cbn; tauto|]|]. { intros x. cbn [effect]. destruct (Nat.eqb x 2); [rewrite in_app_iff; intros [I|[I|[]]]; [now apply N in I|discriminate]|apply N]. }
    split; [split; [apply F; cbn; tauto|]|]. { intros x. cbn [effect]. destruct (Nat.eqb x 0), (Nat.eqb x 2); rewrite ?in_app_iff; intros I; repeat (destruct I as [I|I]); try discriminate; try contradiction; now apply N in I. }
    split; [exists 0; cbn; auto|]. split; [split; [apply F; cbn; tauto|]|exact I]. intros x. cbn [effect]. intros I. now apply remove_In in I.
Qed.
(* C389: the statement before another one *)
Lemma index_of_split s l : forall l1 l2, l = l1 ++ s :: l2 -> ~ In s l1 -> index_of s l = List.length l1.
Proof.
  intros l1. revert l. induction l1 as [|x l1 IH]; intros l l2 -> N; cbn.
  - now rewrite Nat.eqb_refl.
  - destruct (Nat.eqb_spec x s) as [->|D]; [destruct N; now left|]. f_equal. apply (IH _ l2); trivial. intros I. apply N. now right.
Qed.
Theorem C389_before rank h b s p : good rank h -> In s (stmts h b) -> pre_stmt h s = Some p <-> exists l1 l2, stmts h b = l1 ++ p :: s :: l2.
Proof.
  intros G I. pose proof (g_once rank h G b) as ND. unfold stmts in *. destruct (h_body h b) as [| | | |t l] eqn:B; try destruct I as [].
  assert (P : h_parent h s = Some (InStmt b)) by (apply (g_parent rank h G); unfold child; now rewrite B). unfold pre_stmt. rewrite P, B.
  apply in_split in I. destruct I as [l1 [l2 E]]. assert (N1 : ~ In s l1) by (rewrite E in ND; apply NoDup_remove_2 in ND; rewrite in_app_iff in ND; tauto).
  rewrite (index_of_split s l l1 l2 E N1). assert (LL : Nat.ltb (List.length l1) (List.length l) = true) by (apply Nat.ltb_lt; rewrite E, app_length; cbn; lia). rewrite LL, andb_true_r.
  destruct l1 as [|x l1 _] using rev_ind.
  - cbn. split; [discriminate|]. intros [m1 [m2 F]]. rewrite E in F. destruct m1 as [|y m1]; cbn in F; [inversion F; subst; cbn in ND; inversion ND as [|? ? X _]; destruct X; now left|].
    inversion F; subst. cbn in ND. inversion ND as [|? ? X _]. destruct X. rewrite in_app_iff. right. right. now left.
  - rewrite app_length. cbn [List.length]. rewrite Nat.add_1_r. cbn [Nat.eqb negb Nat.sub]. rewrite Nat.sub_0_r. rewrite E, <- app_assoc. rewrite nth_error_app2 by lia. rewrite Nat.sub_diag. cbn [nth_error app]. split.
    + intros X. inversion X; subst. now exists l1, l2.
    + intros [m1 [m2 F]]. f_equal. rewrite E, <- app_assoc in ND. cbn [app] in ND.
      assert (Q : l1 ++ [x] = m1 ++ [p]).
      { apply (f_equal (fun l => rev (rev l))) in F. rewrite !rev_involutive in F. 
        assert (K : forall a1 a2 c1 c2 : list nat, NoDup (a1 ++ s :: a2) -> a1 ++ s :: a2 = c1 ++ s :: c2 -> a1 = c1).
        { clear. induction a1 as [|y a1 IH]; intros a2 [|z c1] c2 ND E; trivial; cbn in *; inversion E; subst.
          - inversion ND as [|? ? X _]. destruct X. rewrite in_app_iff. right. now left.
          - inversion ND as [|? ? X _]. destruct X. rewrite in_app_iff. right. now left.
          - f_equal. inversion ND; subst. now apply (IH a2 c1 c2). }
        apply (K (l1 ++ [x]) l2 (m1 ++ [p]) m2); rewrite <- !app_assoc; cbn [app]; trivial. }
      apply app_inj_tail in Q. apply Q.
Qed.
Example C389_ex : match run_all 5 [Add 0 5; Add 0 1] (no_loop sample) with Ok h => pre_stmt h 1 = Some 5 /\ pre_stmt h 5 = None | _ => False end.
Proof. split; reflexivity. Qed.
(* C390: adding a statement to another block *)
Theorem C390_two_blocks_refuted rank f h b b' s h' : good rank h -> In s (stmts h b) -> b <> b' -> add_stmt (S f) h b' s = Ok h' -> In s (stmts h' b) /\ In s (stmts h' b') /\ h_parent h' s <> Some (InStmt b).
Proof.
  intros G I D. unfold add_stmt. destruct (_ || _); [discriminate|]. destruct (set_parent_ok rank f s (InStmt b') h G) as [h1 [-> [E1 E2]]]. cbn [obind]. intros X. inversion X; subst. clear X.
  unfold stmts, with_body, upd. cbn [h_body h_parent]. rewrite Nat.eqb_refl. destruct (Nat.eqb_spec b b'); [contradiction|]. split; [|split].
  - rewrite E1. exact I.
  - apply in_app_iff. right. now left.
  - rewrite E2. cbn. unfold upd. rewrite Nat.eqb_refl. congruence.
Qed.
Example C390_ex : match run_all 5 [Add 2 4; Add 3 4] (no_loop sample) with Ok h => (stmts h 2, stmts h 3) = ([4], [4]) | _ => False end.
Proof. reflexivity. Qed.
(* C391: removing a statement from the loop it is in, after the loop was added to a block *)
Theorem C391_loop_refuted f h b i body s h' : h_body h i = For body -> stmts h body = [s] -> s <> i -> s <> b -> b <> i -> b <> body -> (forall t l, h_body h s <> Block t l) -> h_body h s = Leaf ->
  add_stmt (S (S f)) h b i = Ok h' -> remove_from_parent h' s = h' /\ In s (stmts h' body).
Proof.
  intros B S' N1 N2 N3 N4 NB L. unfold add_stmt. rewrite B. destruct (_ || _); [discriminate|].
  assert (E : set_parent (S (S f)) h i (InStmt b) = Ok (with_parent (with_parent h i (InStmt b)) s (InStmt i))). { cbn [set_parent]. rewrite B, S'. cbn [h_body with_parent]. rewrite L. reflexivity. }
  rewrite E. cbn [obind]. intros X. inversion X as [H]. clear X. unfold remove_from_parent. subst h'. split.
  - cbn [h_parent with_body with_parent]. unfold upd at 1. rewrite Nat.eqb_refl. unfold remove_stmt. cbn [h_body with_body with_parent]. unfold upd at 1. destruct (Nat.eqb_spec i b); [congruence|]. now rewrite B.
  - unfold stmts. cbn [h_body with_body with_parent]. unfold upd. destruct (Nat.eqb_spec body b); [congruence|]. fold (stmts h body). rewrite S'. now left.
Qed.
Example C391_ex : match add_stmt 5 sample 0 6 with Ok h => h_parent h 8 = Some (InStmt 6) /\ stmts (remove_from_parent h 8) 7 = [8] | _ => False end.
Proof. split; reflexivity. Qed.
(* C392: what add_stmt rejects is accepted by set_child *)
Theorem C392_set_child_refuted : ~ (forall fuel h b i s h', NoDup (stmts h b) -> (forall x, In x (stmts h b) -> forall t l, h_body h x <> Block t l) -> set_child fuel h b i s = Ok h' ->
  NoDup (stmts h' b) /\ forall x, In x (stmts h' b) -> forall t l, h_body h' x <> Block t l).
Proof.
  intros H. pose (h := {| h_body := fun n => match n with 0 => Block Comb [4; 5] | 4 | 5 => Leaf | _ => Block Seq [] end; h_parent := fun _ => None |}).
  destruct (H 2 h 0 1 4 (with_parent (with_body h 0 (Block Comb [4; 4])) 4 (InStmt 0))) as [ND _].
  - repeat constructor; cbn; intuition discriminate.
  - cbn. intros x [<-|[<-|[]]]; discriminate.
  - reflexivity.
  - cbn in ND. inversion ND as [|? ? X _]. destruct X. now left.
Qed.
(* C393: a scope variable that is overridden *)
Theorem C393_override_refuted c n v w o : value_of c n = Some v -> value_of (add_scope_variable c n w o) n = Some v.
Proof.
  intros H. assert (E : existsb (fun x => String.eqb (fst x) n) c = true).
  { unfold value_of in H. destruct (find _ c) as [x|] eqn:F; [|discriminate]. apply find_some in F. apply existsb_exists. now exists x. }
  unfold add_scope_variable, emplace. rewrite E. now destruct (o || negb true).
Qed.
Example C393_ex : value_of (add_scope_variable [("a", "1")] "a" "2" true) "a" = Some "1".
Proof. reflexivity. Qed.
(* C394: cloning a block leaves its statements alone *)
Theorem C394_clone_refuted : ~ (forall fuel h next b h' n s, (forall x, next <= x -> h_parent h x = None) -> clone_block (S fuel) h next b = Ok (h', n) -> In s (stmts h b) -> b < next -> s < next -> h_parent h' s = h_parent h s).
Proof.
  intros H. pose (h := {| h_body := fun n => match n with 0 => Block OtherBlock [1; 2] | 1 => Assign Blocking | _ => Leaf end; h_parent := fun n => match n with 1 | 2 => Some (InStmt 0) | _ => None end |}).
  destruct (clone_block 3 h 3 0) as [[h' n]| |] eqn:E; try discriminate. specialize (H 2 h 3 0 h' n 2). assert (X : h_parent h' 2 = Some (InStmt 3)) by (inversion E; reflexivity).
  rewrite H in X; [discriminate| |exact E|right; now left|lia|lia]. intros x L. destruct x as [|[|[|x]]]; [lia|lia|lia|reflexivity].
Qed.
(* C395: an if in its own body *)
Theorem C395_cycle_refuted rank f h i t e : good rank h -> h_body h i = If t e -> exists h', add_stmt (S f) h t i = Ok h' /\ child h' t i /\ child h' i t.
Proof.
  intros G B. unfold add_stmt. rewrite B. destruct (g_ifs rank h G i t e B) as [[bt [l BT]] _]. pose proof (g_rank rank h G i t) as R. unfold child in R at 1. rewrite B in R. specialize (R (or_introl eq_refl)).
  assert (N : is_in i (stmts h t) = false). { destruct (is_in i (stmts h t)) eqn:E; trivial. apply is_in_iff in E. assert (C : child h t i) by (unfold child; rewrite BT; unfold stmts in E; now rewrite BT in E). pose proof (g_rank rank h G t i C). lia. }
  assert (W : match type_of h t with Comb | _ => false end = false) by now destruct (type_of h t). rewrite N. replace (_ || false) with false by (now destruct (type_of h t)).
  destruct (set_parent_ok rank f i (InStmt t) h G) as [h1 [-> [E1 E2]]]. cbn [obind]. eexists. split; [reflexivity|]. unfold child, with_body, upd. cbn [h_body]. rewrite Nat.eqb_refl. split; [apply in_app_iff; right; now left|].
  destruct (Nat.eqb_spec i t) as [->|D]; [lia|]. rewrite E1. cbn. rewrite B. now left.
Qed.
Example C395_ex : match add_stmt 5 (no_loop sample) 2 1 with Ok h => stmts h 2 = [1] /\ h_body h 1 = If 2 3 | _ => False end.
Proof. split; reflexivity. Qed.
(* a statement is removed from an if where it is: from the then block if it is there, otherwise from the else block *)
Theorem C388_if_remove h i t e s : h_body h i = If t e -> t <> e ->
  (exists a, h_body h t = Block a (stmts h t)) -> (exists b, h_body h e = Block b (stmts h e)) ->
  (In s (stmts h t) -> stmts (remove_stmt h i s) t = erase s (stmts h t) /\ stmts (remove_stmt h i s) e = stmts h e) /\
  (~ In s (stmts h t) -> stmts (remove_stmt h i s) t = stmts h t /\ stmts (remove_stmt h i s) e = erase s (stmts h e)) /\
  (forall b, b <> t -> b <> e -> h_body (remove_stmt h i s) b = h_body h b).
Proof.
  intros I N [a A] [b B]. unfold remove_stmt. rewrite I.
  assert (X : forall l, is_in s l = true <-> In s l).
  { intros l. unfold is_in. rewrite existsb_exists. split; [intros (x & J & E); apply Nat.eqb_eq in E; subst; exact J|intros J; exists s; split; [exact J|apply Nat.eqb_refl]]. }
  assert (ER : forall l, ~ In s l -> erase s l = l).
  { induction l as [|x l IH]; [reflexivity|]. intros H. cbn. destruct (Nat.eqb_spec x s) as [E|E]; [exfalso; apply H; left; exact E|]. rewrite IH; [reflexivity|]. intros J; apply H; right; exact J. }
  assert (U : forall c x y, h_body (with_body h c x) y = if Nat.eqb y c then x else h_body h y) by reflexivity.
  assert (SB : forall c x l y, stmts (with_body h c (Block x l)) y = if Nat.eqb y c then l else stmts h y) by (intros c x l y; unfold stmts; rewrite U; destruct (Nat.eqb y c); reflexivity).
  destruct (is_in s (stmts h t)) eqn:E1; [apply X in E1|assert (E1' : ~ In s (stmts h t)) by (intros J; apply X in J; congruence); destruct (is_in s (stmts h e)) eqn:E2].
  - unfold erase_in. rewrite A. split; [|split; [intros H; contradiction|]].
    + intros _. rewrite !SB, Nat.eqb_refl. destruct (Nat.eqb_spec e t) as [Q|Q]; [symmetry in Q; contradiction|]. split; reflexivity.
    + intros c C1 C2. rewrite U. destruct (Nat.eqb_spec c t); [contradiction|reflexivity].
  - apply X in E2. unfold erase_in. rewrite B. split; [intros H; contradiction|split].
    + intros _. rewrite !SB, Nat.eqb_refl. destruct (Nat.eqb_spec t e) as [Q|Q]; [contradiction|]. split; reflexivity.
    + intros c C1 C2. rewrite U. destruct (Nat.eqb_spec c e); [contradiction|reflexivity].
  - split; [intros H; contradiction|]. split; [intros _; split; [reflexivity|]|reflexivity].
    rewrite ER; [reflexivity|]. intros J. apply X in J. congruence.
Qed.
Print Assumptions C388_if_remove.
Print Assumptions C388_history.
Print Assumptions C389_before.
Print Assumptions C390_two_blocks_refuted.
Print Assumptions C391_loop_refuted.
Print Assumptions C392_set_child_refuted.
Print Assumptions C393_override_refuted.
Print Assumptions C394_clone_refuted.
Print Assumptions C395_cycle_refuted.
