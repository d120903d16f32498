From Verif Require Import Base Walk_spec Walk_model.
Local Open Scope list_scope.

Lemma mem_in : forall c l, mem c l = true <-> In c l.
Proof. intros c l. unfold mem. rewrite existsb_exists. split; [intros (x & H & E); apply Nat.eqb_eq in E; subst x; exact H|intros H; exists c; split; [exact H|apply Nat.eqb_refl]]. Qed.
Lemma split_at : forall (l : list nat) i c, nth_error l i = Some c -> l = firstn i l ++ c :: skipn (S i) l /\ length (firstn i l) = i.
Proof.
  induction l as [|x l IH]; intros i c H; [destruct i; discriminate H|]. destruct i as [|i]; cbn in H; [injection H as ->; split; reflexivity|].
  destruct (IH i c H) as (E & L). cbn [firstn skipn app length]. split; [f_equal; exact E|f_equal; exact L].
Qed.
Lemma nth_after : forall (p r : list nat) i, length p = i -> nth_error (p ++ r) i = nth_error r 0.
Proof. intros p r i <-. rewrite nth_error_app2 by lia. rewrite Nat.sub_diag. reflexivity. Qed.
Lemma firstn_after : forall (p r : list nat) i, length p = i -> firstn i (p ++ r) = p.
Proof. intros p r i <-. rewrite firstn_app, Nat.sub_diag, firstn_all. apply app_nil_r. Qed.
Lemma nodup_snoc : forall (l : list nat) c, NoDup l -> ~ In c l -> NoDup (l ++ [c]).
Proof. intros l c Nd H. induction Nd as [|x l Hx Nd IH]; cbn; [constructor; [intros []|constructor]|]. constructor; [|apply IH; intros X; apply H; right; exact X].
  intros X. apply in_app_or in X. destruct X as [X|[X|[]]]; [exact (Hx X)|apply H; left; congruence]. Qed.
(* what is before the index was visited: kept by a round *)
Definition seen (tr l : list nat) (i : nat) : Prop := forall x, In x (firstn i l) -> In x tr.
Lemma firstn_next : forall (l : list nat) i c, nth_error l i = Some c -> firstn (S i) l = firstn i l ++ [c].
Proof. induction l as [|x l IH]; intros i c H; [destruct i; discriminate H|]. destruct i as [|i]; cbn in H; [injection H as ->; reflexivity|]. cbn [firstn app]. f_equal. apply IH, H. Qed.
Lemma seen_next : forall tr l i c, nth_error l i = Some c -> seen tr l i -> In c tr -> seen tr l (S i).
Proof.
  intros tr l i c H W Hc x Hx. rewrite (firstn_next l i c H) in Hx. apply in_app_or in Hx. destruct Hx as [Hx|[<-|[]]]; [exact (W x Hx)|exact Hc].
Qed.
Lemma seen_end : forall tr l i, nth_error l i = None -> seen tr l i -> forall x, In x l -> In x tr.
Proof. intros tr l i H W x Hx. apply W. apply nth_error_None in H. rewrite firstn_all2 by exact H. exact Hx. Qed.

(* one round of visit_root, when the effect keeps what is before the index visited *)
Lemma walk_seen : forall (P : effect -> Prop) e, P e ->
  (forall tr c pre post, ~ In c pre -> (forall x, In x pre -> In x tr) -> let l' := e tr c (pre ++ c :: post) in
     seen (tr ++ [c]) l' (match nth_error l' (length pre) with Some d => if Nat.eqb d c then S (length pre) else length pre | None => length pre end)) ->
  forall fuel tr l i tr' k, seen tr l i -> NoDup tr -> walk false e fuel tr l i = Some (tr', k) -> NoDup tr' /\ forall x, In x k -> In x tr'.
Proof.
  intros P e _ Step. induction fuel as [|f IH]; intros tr l i tr' k W Nd H; [discriminate H|]. cbn [walk] in H. destruct (nth_error l i) as [c|] eqn:E.
  - cbn [negb andb] in H. destruct (mem c tr) eqn:M.
    + rewrite E, Nat.eqb_refl in H. apply mem_in in M. eapply IH; [| |exact H]; [exact (seen_next tr l i c E W M)|exact Nd].
    + assert (Nc : ~ In c tr) by (intros X; apply mem_in in X; congruence). destruct (split_at l i c E) as (El & Ll).
      assert (Np : ~ In c (firstn i l)) by (intros X; exact (Nc (W c X))). specialize (Step tr c (firstn i l) (skipn (S i) l) Np W). cbv zeta in Step. rewrite <- El, Ll in Step.
      eapply IH; [| |exact H]; [exact Step|apply nodup_snoc; assumption].
  - injection H as <- <-. split; [exact Nd|exact (seen_end tr l i E W)].
Qed.
Lemma onwards_step : forall e, onwards e -> forall tr c pre post, ~ In c pre -> (forall x, In x pre -> In x tr) -> let l' := e tr c (pre ++ c :: post) in
     seen (tr ++ [c]) l' (match nth_error l' (length pre) with Some d => if Nat.eqb d c then S (length pre) else length pre | None => length pre end).
Proof.
  intros e O tr c pre post Nc W. cbv zeta. destruct (O tr c pre post Nc) as (rest & ->).
  assert (B : seen (tr ++ [c]) (pre ++ rest) (length pre)) by (intros x Hx; rewrite firstn_after in Hx by reflexivity; apply in_or_app; left; exact (W x Hx)).
  destruct (nth_error (pre ++ rest) (length pre)) as [d|] eqn:E; [|exact B]. destruct (Nat.eqb_spec d c) as [->|]; [|exact B]. apply (seen_next _ _ _ c E B). apply in_or_app. right. left. reflexivity.
Qed.
Lemma one_before_step : forall e, one_before e -> forall tr c pre post, ~ In c pre -> (forall x, In x pre -> In x tr) -> let l' := e tr c (pre ++ c :: post) in
     seen (tr ++ [c]) l' (match nth_error l' (length pre) with Some d => if Nat.eqb d c then S (length pre) else length pre | None => length pre end).
Proof.
  intros e O tr c pre post Nc W. cbv zeta. assert (Lc : In c (tr ++ [c])) by (apply in_or_app; right; left; reflexivity). destruct (O tr c pre post Nc) as [->|(p & x & q & -> & ->)].
  - rewrite nth_after by reflexivity. cbn [nth_error]. rewrite Nat.eqb_refl. apply (seen_next _ _ _ c); [rewrite nth_after by reflexivity; reflexivity| |exact Lc].
    intros x Hx. rewrite firstn_after in Hx by reflexivity. apply in_or_app. left. exact (W x Hx).
  - assert (E : p ++ q ++ c :: post = (p ++ q ++ [c]) ++ post) by (rewrite <- !app_assoc; reflexivity). assert (L : length (p ++ x :: q) = length (p ++ q ++ [c])) by (rewrite !app_length; cbn; lia).
    assert (B : seen (tr ++ [c]) (p ++ q ++ c :: post) (length (p ++ x :: q))).
    { intros y Hy. rewrite E, L, firstn_after in Hy by reflexivity. apply in_app_or in Hy. destruct Hy as [Hy|Hy]; [apply in_or_app; left; apply W, in_or_app; left; exact Hy|].
      apply in_app_or in Hy. destruct Hy as [Hy|[<-|[]]]; [apply in_or_app; left; apply W, in_or_app; right; right; exact Hy|exact Lc]. }
    destruct (nth_error (p ++ q ++ c :: post) (length (p ++ x :: q))) as [d|] eqn:F; [|exact B]. destruct (Nat.eqb_spec d c) as [->|]; [|exact B]. exact (seen_next _ _ _ c F B Lc).
Qed.

(* sublists *)
Lemma sub_refl : forall l, sublist l l.
Proof. induction l; constructor; assumption. Qed.
Lemma sub_in : forall a b, sublist a b -> forall x, In x a -> In x b.
Proof. intros a b H. induction H as [|x a b H IH|x a b H IH]; intros y Hy; [exact Hy|destruct Hy as [Hy|Hy]; [left; exact Hy|right; exact (IH y Hy)]|right; exact (IH y Hy)]. Qed.
Lemma sub_length : forall a b, sublist a b -> (length a <= length b)%nat.
Proof. intros a b H. induction H; cbn; lia. Qed.
Lemma sub_nil : forall a, sublist a [] -> a = [].
Proof. intros a H. inversion H. reflexivity. Qed.
Lemma sub_nil_l : forall b, sublist [] b.
Proof. induction b; constructor; assumption. Qed.
Lemma sub_trans : forall b c, sublist b c -> forall a, sublist a b -> sublist a c.
Proof.
  intros b c H. induction H as [|x b c H IH|x b c H IH]; intros a Ha; [exact Ha| |apply S_drop, IH, Ha]. inversion Ha; subst; [apply S_keep, IH; assumption|apply S_drop, IH; assumption].
Qed.

(* the visits of an effect that only takes out, in lists without repetitions *)
Lemma walk_removing : forall b e, removing e -> forall fuel tr l i, NoDup l -> (i <= length l)%nat -> (length l - i < fuel)%nat -> (forall x, In x (skipn i l) -> ~ In x tr) -> seen tr l i ->
  exists v k, walk b e fuel tr l i = Some (tr ++ v, k) /\ sublist v (skipn i l) /\ sublist k l /\ forall x, In x k -> In x (tr ++ v).
Proof.
  intros b e R. induction fuel as [|f IH]; intros tr l i Nd Li Lf Fresh W; [lia|]. cbn [walk]. destruct (nth_error l i) as [c|] eqn:E.
  - destruct (split_at l i c E) as (El & Ll). set (pre := firstn i l) in *. set (post := skipn (S i) l) in *. assert (Sk : skipn i l = c :: post).
    { rewrite El at 1. rewrite skipn_app, Ll, Nat.sub_diag. rewrite skipn_all2 by lia. reflexivity. }
    assert (W' : forall x, In x pre -> In x tr) by exact W. clearbody pre post. clear W. rename W' into W.
    rewrite Sk in Fresh. assert (Nc : ~ In c tr) by (apply Fresh; left; reflexivity). destruct (mem c tr) eqn:M; [apply mem_in in M; contradiction|]. rewrite Bool.andb_false_r.
    rewrite El in Nd. pose proof (NoDup_remove_2 _ _ _ Nd) as N2. assert (Np : ~ In c pre) by (intros X; apply N2, in_or_app; left; exact X).
    assert (Nq : ~ In c post) by (intros X; apply N2, in_or_app; right; exact X). destruct (R tr c pre post Np) as (rest & Sr & Er). cbv iota. assert (Er' : e tr c l = pre ++ rest) by (rewrite <- Er; f_equal; exact El). cbv zeta. rewrite Er', nth_after by exact Ll.
    assert (Kl : forall k, sublist k rest -> sublist (pre ++ k) l) by (intros k Hk; rewrite El; clear -Hk Sr; induction pre; cbn; [exact (sub_trans _ _ Sr _ Hk)|apply S_keep; assumption]).
    assert (Ndr : NoDup (pre ++ rest)).
    { clear -Nd Sr. induction pre as [|x pre IH]; cbn in *.
      - revert Nd. induction Sr as [|x a b Sr IH|x a b Sr IH]; intros Nd; [exact Nd|inversion Nd; subst; constructor; [intros X; apply (sub_in _ _ Sr) in X; contradiction|apply IH; assumption]|inversion Nd; subst; apply IH; assumption].
      - inversion Nd as [|y m Hy Nd']; subst. constructor; [|apply IH; exact Nd']. intros X. apply Hy. apply in_app_or in X. apply in_or_app. destruct X as [X|X]; [left; exact X|right; exact (sub_in _ _ Sr _ X)]. }
    assert (Wt : seen (tr ++ [c]) (pre ++ rest) i) by (intros x Hx; rewrite firstn_after in Hx by exact Ll; apply in_or_app; left; exact (W x Hx)).
    assert (Lr : (length rest <= S (length post))%nat) by exact (sub_length _ _ Sr). assert (Ln : length l = (i + S (length post))%nat) by (rewrite El, app_length, Ll; reflexivity).
    destruct rest as [|d rest]; [|destruct (Nat.eq_dec d c) as [->|Nd2]].
    + cbn [nth_error]. destruct (IH (tr ++ [c]) (pre ++ []) i Ndr ltac:(rewrite app_length; cbn; lia) ltac:(rewrite app_length; cbn; lia)) as (v & k & H1 & H2 & H3 & H4); [|exact Wt|].
      { intros x Hx. rewrite app_nil_r, skipn_all2 in Hx by lia. destruct Hx. }
      exists (c :: v), k. split; [rewrite H1, <- app_assoc; reflexivity|]. rewrite app_nil_r, skipn_all2 in H2 by lia. apply sub_nil in H2. subst v. split; [rewrite Sk; apply S_keep, sub_nil_l|].
      split; [apply (sub_trans (pre ++ [])); [apply Kl, sub_nil_l|exact H3]|]. intros x Hx. specialize (H4 x Hx). rewrite <- app_assoc in H4. exact H4.
    + cbn [nth_error]. rewrite Nat.eqb_refl. assert (Sp : sublist rest post).
      { inversion Sr as [|? ? ? S1|? ? ? S1]; subst; [exact S1|]. exfalso. apply Nq. apply (sub_in _ _ S1). left. reflexivity. }
      assert (Ss : skipn (S i) (pre ++ c :: rest) = rest) by (replace (S i) with (length (pre ++ [c])) by (rewrite app_length; cbn; lia); change (c :: rest) with ([c] ++ rest); rewrite app_assoc, skipn_app, Nat.sub_diag, skipn_all2 by lia; reflexivity).
      destruct (IH (tr ++ [c]) (pre ++ c :: rest) (S i) Ndr ltac:(rewrite app_length; cbn; lia) ltac:(rewrite app_length; cbn in *; lia)) as (v & k & H1 & H2 & H3 & H4).
      * rewrite Ss. intros x Hx Y. apply in_app_or in Y. destruct Y as [Y|[<-|[]]]; [|exact (Nq (sub_in _ _ Sp _ Hx))]. apply (Fresh x); [right; exact (sub_in _ _ Sp _ Hx)|exact Y].
      * apply (seen_next _ _ _ c); [rewrite nth_after by exact Ll; reflexivity|exact Wt|apply in_or_app; right; left; reflexivity].
      * rewrite Ss in H2. exists (c :: v), k. split; [rewrite H1, <- app_assoc; reflexivity|]. split; [rewrite Sk; apply S_keep; exact (sub_trans _ _ Sp _ H2)|]. split; [apply (sub_trans (pre ++ c :: rest)); [apply Kl, sub_refl|exact H3]|]. intros x Hx. specialize (H4 x Hx). rewrite <- app_assoc in H4. exact H4.
    + cbn [nth_error]. destruct (Nat.eqb_spec d c) as [|_]; [contradiction|]. assert (Sp : sublist (d :: rest) post) by (inversion Sr; subst; [contradiction|assumption]).
      pose proof (sub_length _ _ Sp) as Ls. assert (Ss : skipn i (pre ++ d :: rest) = d :: rest) by (rewrite skipn_app, Ll, Nat.sub_diag, skipn_all2 by lia; reflexivity).
      destruct (IH (tr ++ [c]) (pre ++ d :: rest) i Ndr ltac:(rewrite app_length; cbn; lia) ltac:(rewrite app_length; cbn in *; lia)) as (v & k & H1 & H2 & H3 & H4); [|exact Wt|].
      * rewrite Ss. intros x Hx Y. apply in_app_or in Y. destruct Y as [Y|[<-|[]]]; [|exact (Nq (sub_in _ _ Sp _ Hx))]. apply (Fresh x); [right; exact (sub_in _ _ Sp _ Hx)|exact Y].
      * rewrite Ss in H2. exists (c :: v), k. split; [rewrite H1, <- app_assoc; reflexivity|]. split; [rewrite Sk; apply S_keep; exact (sub_trans _ _ Sp _ H2)|]. split; [apply (sub_trans (pre ++ d :: rest)); [apply Kl, sub_refl|exact H3]|]. intros x Hx. specialize (H4 x Hx). rewrite <- app_assoc in H4. exact H4.
  - exists [], l. split; [rewrite app_nil_r; reflexivity|]. split; [apply sub_nil_l|]. split; [apply sub_refl|]. rewrite app_nil_r. exact (seen_end tr l i E W).
Qed.
(* the two walks agree where nothing is met twice *)
Lemma walk_same : forall e, removing e -> forall fuel tr l i, NoDup l -> (forall x, In x (skipn i l) -> ~ In x tr) -> walk false e fuel tr l i = walk true e fuel tr l i.
Proof.
  intros e R. induction fuel as [|f IH]; intros tr l i Nd Fresh; [reflexivity|]. cbn [walk]. destruct (nth_error l i) as [c|] eqn:E; [|reflexivity].
  destruct (split_at l i c E) as (El & Ll). set (pre := firstn i l) in *. set (post := skipn (S i) l) in *. assert (Sk : skipn i l = c :: post).
  { rewrite El at 1. rewrite skipn_app, Ll, Nat.sub_diag. rewrite skipn_all2 by lia. reflexivity. }
  clearbody pre post. rewrite Sk in Fresh. assert (Nc : ~ In c tr) by (apply Fresh; left; reflexivity). destruct (mem c tr) eqn:M; [apply mem_in in M; contradiction|]. rewrite !Bool.andb_false_r.
  rewrite El in Nd. pose proof (NoDup_remove_2 _ _ _ Nd) as N2. assert (Np : ~ In c pre) by (intros X; apply N2, in_or_app; left; exact X). assert (Nq : ~ In c post) by (intros X; apply N2, in_or_app; right; exact X).
  destruct (R tr c pre post Np) as (rest & Sr & Er). assert (Er' : e tr c l = pre ++ rest) by (rewrite <- Er; f_equal; exact El). cbv zeta. rewrite Er', nth_after by exact Ll. apply IH.
  - clear -Nd Sr. induction pre as [|x pre IH]; cbn in *.
    + revert Nd. induction Sr as [|x a b Sr IH|x a b Sr IH]; intros Nd; [exact Nd|inversion Nd; subst; constructor; [intros X; apply (sub_in _ _ Sr) in X; contradiction|apply IH; assumption]|inversion Nd; subst; apply IH; assumption].
    + inversion Nd as [|y m Hy Nd']; subst. constructor; [|apply IH; exact Nd']. intros X. apply Hy. apply in_app_or in X. apply in_or_app. destruct X as [X|X]; [left; exact X|right; exact (sub_in _ _ Sr _ X)].
  - assert (Old : forall x, In x post -> ~ In x (tr ++ [c])).
    { intros x Hx Y. apply in_app_or in Y. destruct Y as [Y|[<-|[]]]; [apply (Fresh x); [right; exact Hx|exact Y]|exact (Nq Hx)]. }
    intros x. destruct rest as [|d rest]; cbn [nth_error].
    + rewrite app_nil_r, skipn_all2 by lia. intros [].
    + destruct (Nat.eqb_spec d c) as [->|Nd2].
      * replace (S i) with (length (pre ++ [c])) by (rewrite app_length; cbn; lia). change (c :: rest) with ([c] ++ rest). rewrite app_assoc, skipn_app, Nat.sub_diag, skipn_all2 by lia. cbn [app skipn].
        intros Hx. apply Old. inversion Sr as [|? ? ? S1|? ? ? S1]; subst; [exact (sub_in _ _ S1 _ Hx)|exact (sub_in _ _ S1 _ (or_intror Hx))].
      * rewrite skipn_app, Ll, Nat.sub_diag, skipn_all2 by lia. cbn [app skipn]. intros Hx. apply Old. inversion Sr as [|? ? ? S1|? ? ? S1]; subst; [contradiction|exact (sub_in _ _ S1 _ Hx)].
Qed.

(* effects for the examples *)
Fixpoint drop_before (c : nat) (l : list nat) : list nat := match l with [] => [] | x :: r => if Nat.eqb x c then l else drop_before c r end.
Lemma drop_before_app : forall c pre post, ~ In c pre -> drop_before c (pre ++ c :: post) = [] ++ c :: post.
Proof.
  intros c pre post H. induction pre as [|x pre IH]; cbn [app drop_before]; [rewrite Nat.eqb_refl; reflexivity|]. destruct (Nat.eqb_spec x c) as [->|]; [exfalso; apply H; left; reflexivity|].
  apply IH. intros X. apply H. right. exact X.
Qed.
Fixpoint put_before (c n : nat) (l : list nat) : list nat := match l with [] => [] | x :: r => if Nat.eqb x c then n :: l else x :: put_before c n r end.
Lemma put_self : forall c n pre post, ~ In c pre -> exists rest, put_before c n (pre ++ c :: post) = pre ++ rest.
Proof.
  intros c n pre post H. exists (n :: c :: post). induction pre as [|x pre IH]; cbn [app put_before]; [rewrite Nat.eqb_refl; reflexivity|]. destruct (Nat.eqb_spec x c) as [->|]; [exfalso; apply H; left; reflexivity|].
  f_equal. apply IH. intros X. apply H. right. exact X.
Qed.
Lemma put_forever : forall fuel tr k, walk true (fun tr c l => if Nat.eqb c 1 then put_before 1 9 l else l) fuel tr (repeat 9%nat k ++ [1%nat]) k = None.
Proof.
  intros fuel. induction fuel as [fuel IH] using lt_wf_ind. intros tr k. destruct fuel as [|f]; [reflexivity|]. cbn [walk]. rewrite nth_after by apply repeat_length. cbn [nth_error negb andb Nat.eqb].
  assert (E : put_before 1 9 (repeat 9%nat k ++ [1%nat]) = repeat 9%nat (S k) ++ [1%nat]) by (induction k as [|k IHk]; [reflexivity|cbn [repeat app put_before Nat.eqb]; f_equal; exact IHk]).
  assert (E2 : repeat 9%nat (S k) ++ [1%nat] = repeat 9%nat k ++ 9%nat :: [1%nat]) by (clear; induction k as [|k IHk]; [reflexivity|cbn [repeat app] in *; f_equal; exact IHk]).
  rewrite E, E2, nth_after by apply repeat_length. cbn [nth_error Nat.eqb]. destruct f as [|f]; [reflexivity|]. cbn [walk]. rewrite nth_after by apply repeat_length. cbn [nth_error negb andb Nat.eqb].
  rewrite nth_after by apply repeat_length. cbn [nth_error Nat.eqb]. rewrite <- E2. apply IH. lia.
Qed.
