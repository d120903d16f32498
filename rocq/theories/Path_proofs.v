From Coq Require Import String Ascii.
From Verif Require Import Base Covparse_spec Path_spec Path_model.

Lemma mismatch_less : forall a b, less a b -> exists n, mismatch a b = Ok n /\ (n <= List.length a)%nat /\ firstn n a = firstn n b.
Proof.
  induction 1 as [c r|a b r s L|a r s _ (n & E & B & F)].
  - exists O. repeat split; auto.
  - exists O. cbn. destruct (Ascii.eqb_spec a b) as [->|]; [lia|]. repeat split; lia.
  - exists (S n). cbn [mismatch]. rewrite Ascii.eqb_refl, E. cbn. repeat split; [lia|congruence].
Qed.
Lemma firstn_le : forall (a b : text) n k, firstn n a = firstn n b -> (k <= n)%nat -> firstn k a = firstn k b.
Proof. intros a b n k E L. rewrite <- (Nat.min_l k n L), <- !firstn_firstn, E. reflexivity. Qed.
Lemma least_ok : forall l a m, (m <= List.length a)%nat -> Forall (less a) l -> exists k, least a m l = Ok k /\ (k <= m)%nat /\ Forall (fun b => firstn k b = firstn k a) l.
Proof.
  induction l as [|b l IH]; intros a m M F; [exists m; auto|]. inversion F as [|? ? Fb Fl]; subst. destruct (mismatch_less a b Fb) as (n & E & B & P). cbn [least]. rewrite E. cbn [obind].
  assert ((if (n <? m)%nat then n else m) <= m /\ (if (n <? m)%nat then n else m) <= n)%nat as [X Y] by (destruct (Nat.ltb_spec n m); lia).
  destruct (IH a (if (n <? m)%nat then n else m)) as (k & Ek & Lk & Fk); [lia|exact Fl|]. exists k. split; [exact Ek|]. split; [lia|]. constructor; [|exact Fk].
  symmetry. apply (firstn_le a b n k P). lia.
Qed.
Lemma rfind_some : forall s pos p, rfind s pos = Some p -> (p <= pos)%nat /\ nth_error s p = Some slash.
Proof.
  intros s. induction pos as [|pos IH]; intros p; cbn [rfind].
  - destruct (nth_error s 0) as [c|] eqn:E; [|discriminate]. destruct (Ascii.eqb_spec c slash) as [->|]; [|discriminate]. intros H. injection H as <-. auto.
  - destruct (nth_error s (S pos)) as [c|] eqn:E.
    + destruct (Ascii.eqb_spec c slash) as [->|]; [intros H; injection H as <-; auto|]. intros H. destruct (IH p H). auto.
    + intros H. destruct (IH p H). auto.
Qed.
Lemma rfind_none : forall s pos, rfind s pos = None -> forall p, (p <= pos)%nat -> nth_error s p <> Some slash.
Proof.
  intros s. induction pos as [|pos IH]; cbn [rfind]; intros H p L.
  - assert (p = 0)%nat as -> by lia. destruct (nth_error s 0) as [c|]; [|discriminate]. destruct (Ascii.eqb_spec c slash); [discriminate|congruence].
  - destruct (Nat.eq_dec p (S pos)) as [->|]; [|apply IH; [|lia]; destruct (nth_error s (S pos)) as [c|]; [destruct (Ascii.eqb c slash); [discriminate|]|]; exact H].
    destruct (nth_error s (S pos)) as [c|]; [|discriminate]. destruct (Ascii.eqb_spec c slash); [discriminate|congruence].
Qed.
Lemma prefix_app : forall p s, is_prefix p (p ++ s) = true.
Proof. induction p as [|c p IH]; intros s; [destruct s; reflexivity|]. cbn [app is_prefix]. now rewrite Ascii.eqb_refl, IH. Qed.
Lemma find_app : forall p s, find_text p (p ++ s) = Some O.
Proof. intros p s. assert (B := prefix_app p s). destruct (p ++ s); cbn [find_text]; rewrite B; reflexivity. Qed.
Lemma skip_ok : forall s, exists n, s = repeat slash n ++ skip_slashes s.
Proof.
  induction s as [|c r [n IH]]; [now exists O|]. cbn [skip_slashes]. destruct (Ascii.eqb_spec c slash) as [->|]; [|now exists O]. exists (S n). cbn. now rewrite <- IH.
Qed.
Lemma skip_head : forall s, ~ absolute (skip_slashes s).
Proof.
  induction s as [|c r IH]; cbn [skip_slashes]; [intros [x X]; discriminate|]. destruct (Ascii.eqb_spec c slash) as [->|N]; [exact IH|]. intros [x X]. congruence.
Qed.
Lemma after_app : forall root s, after_root root (root ++ s) = Ok (skip_slashes s).
Proof.
  intros root s. unfold after_root. rewrite find_app. rewrite app_length. destruct (Nat.ltb_spec (List.length root + List.length s) (0 + List.length root)); [lia|].
  cbn [Nat.add]. rewrite skipn_app, skipn_all, Nat.sub_diag. reflexivity.
Qed.
Lemma root_prefix : forall a l, absolute a -> Forall (less a) l -> exists root, longest_path (a :: l) = Ok root /\ forall f, In f (a :: l) -> exists s, f = root ++ s.
Proof.
  intros a l A F. cbn [longest_path]. destruct (least_ok l a (List.length a) (Nat.le_refl _) F) as (k & E & L & P). rewrite E. cbn [obind].
  destruct (rfind a k) as [p|] eqn:R.
  - apply rfind_some in R as [Lp _]. eexists. split; [reflexivity|]. intros f [<-|I]; [exists (skipn p a); now rewrite firstn_skipn|]. exists (skipn p f).
    rewrite Forall_forall in P. rewrite (firstn_le a f k p); [now rewrite firstn_skipn|symmetry; now apply P|exact Lp].
  - exfalso. destruct A as [r ->]. apply (rfind_none _ _ R O); [lia|reflexivity].
Qed.
