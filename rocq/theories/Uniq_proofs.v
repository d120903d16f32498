From Verif Require Import Base Num_model Num_proofs Name_model Name_proofs Uniq_spec Uniq_model.
From Coq Require Import Permutation.
Local Open Scope Z_scope.

Lemma mem_in : forall g l, mem g l = true <-> In g l.
Proof.
  intros. unfold mem. rewrite existsb_exists. split.
  - intros (x & I & E). apply Nat.eqb_eq in E. now subst.
  - intros I. exists g. split; [assumption|apply Nat.eqb_refl].
Qed.
Lemma find_set : forall (A : Type) (m : list (string * A)) k v k',
  find_key (set_key m k v) k' = if (k' =? k)%string then Some v else find_key m k'.
Proof.
  intros. unfold set_key. destruct (find_key m k) as [old|] eqn:E.
  - revert E. induction m as [|[a b] r IH]; intros E; cbn in *; [discriminate|].
    destruct (String.eqb_spec k a) as [->|Da].
    + rewrite String.eqb_refl. cbn. destruct (String.eqb_spec k' a) as [->|]; [reflexivity|].
      clear IH E. induction r as [|[c d] r IH]; cbn; [reflexivity|]. destruct (String.eqb_spec c a) as [->|]; cbn.
      * destruct (String.eqb_spec k' a); [congruence|exact IH].
      * destruct (k' =? c)%string; [reflexivity|exact IH].
    + destruct (String.eqb_spec a k); [congruence|]. cbn. rewrite (IH E).
      destruct (String.eqb_spec k' a) as [->|]; [|reflexivity]. destruct (String.eqb_spec a k); [congruence|reflexivity].
  - rewrite find_app. cbn. destruct (String.eqb_spec k' k) as [->|]; [now rewrite E|]. destruct (find_key m k'); reflexivity.
Qed.
Lemma set_len : forall (A : Type) (m : list (string * A)) k v, (length (set_key m k v) <= S (length m))%nat.
Proof. intros. unfold set_key. destruct (find_key m k); [rewrite map_length; lia|rewrite app_length; cbn; lia]. Qed.
Lemma set_len_same : forall (A : Type) (m : list (string * A)) k v, find_key m k <> None -> length (set_key m k v) = length m.
Proof. intros. unfold set_key. destruct (find_key m k); [now rewrite map_length|congruence]. Qed.

Lemma change_ok : forall c g new l, new <> EmptyString -> c_name c g <> EmptyString ->
  find_key (c_mods c) (c_name c g) = Some l -> In g l ->
  exists c', change_name c g new = Ok c' /\ c_name c' = set_name (c_name c) g new
    /\ (forall k, k <> c_name c g -> k <> new -> find_key (c_mods c') k = find_key (c_mods c) k)
    /\ (forall k, exists_name c' k = (k =? new)%string || exists_name c k)
    /\ (forall x k l', find_key (c_mods c) k = Some l' -> In x l' -> x <> g -> exists l2, find_key (c_mods c') k = Some l2 /\ In x l2)
    /\ (exists l', find_key (c_mods c') new = Some l' /\ In g l')
    /\ (length (c_mods c') <= S (length (c_mods c)))%nat.
Proof.
  intros c g new l Nn Nc F I. unfold change_name.
  destruct (String.eqb_spec new EmptyString); [congruence|]. destruct (String.eqb_spec (c_name c g) EmptyString); [congruence|].
  cbn [orb]. rewrite F. pose proof I as I'. apply mem_in in I'. rewrite I'.
  set (m1 := set_key (c_mods c) (c_name c g) _). set (l2 := match find_key m1 new with Some l2 => l2 | None => [] end).
  eexists. split; [reflexivity|]. cbn [c_mods c_name]. split; [reflexivity|].
  assert (forall x k l', find_key (c_mods c) k = Some l' -> In x l' -> x <> g -> exists l2, find_key m1 k = Some l2 /\ In x l2) as M1.
  { intros x k l' F' J D. unfold m1. rewrite find_set. destruct (String.eqb_spec k (c_name c g)) as [->|]; [|eauto].
    eexists. split; [reflexivity|]. apply filter_In. split; [congruence|]. destruct (Nat.eqb_spec x g); [congruence|reflexivity]. }
  split; [|split; [|split; [|split]]].
  - intros k D1 D2. rewrite find_set. destruct (String.eqb_spec k new); [congruence|]. unfold m1. rewrite find_set.
    destruct (String.eqb_spec k (c_name c g)); [congruence|reflexivity].
  - intros k. unfold exists_name. cbn [c_mods]. rewrite find_set. destruct (String.eqb_spec k new) as [->|]; [reflexivity|].
    unfold m1. rewrite find_set. destruct (String.eqb_spec k (c_name c g)) as [->|]; [now rewrite F|reflexivity].
  - intros x k l' F' J D. destruct (M1 x k l' F' J D) as (l3 & F3 & J3). rewrite find_set.
    destruct (String.eqb_spec k new) as [->|]; [|eauto]. eexists. split; [reflexivity|]. unfold l2. rewrite F3.
    destruct (mem g l3); [assumption|]. apply in_or_app. now left.
  - eexists. split; [rewrite find_set, String.eqb_refl; reflexivity|]. destruct (mem g l2) eqn:E; [now apply mem_in|].
    apply in_or_app. right. now left.
  - eapply Nat.le_trans; [apply set_len|]. unfold m1. rewrite set_len_same by congruence. lia.
Qed.

(* ---- tracking order ---- *)
Lemma replace_app : forall (A : Type) (a b : list A) x y, replace (a ++ x :: b) (length a) y = a ++ y :: b.
Proof. induction a as [|c a IH]; intros; cbn; [reflexivity|]. now rewrite IH. Qed.
Lemma nth_mid : forall (A : Type) (a b : list A) x, nth_error (a ++ x :: b) (length a) = Some x.
Proof. induction a as [|c a IH]; intros; cbn; auto. Qed.
Lemma swap_split : forall a b c x y, swap (a ++ x :: b ++ y :: c) (length (a ++ x :: b)) (length a) = a ++ y :: b ++ x :: c.
Proof.
  intros. unfold swap. rewrite nth_mid.
  assert (a ++ x :: b ++ y :: c = (a ++ x :: b) ++ y :: c) as E by (rewrite <- app_assoc; reflexivity).
  rewrite E, nth_mid. rewrite replace_app. rewrite <- app_assoc. cbn [app]. now rewrite replace_app.
Qed.
Lemma swap_self : forall a c x, swap (a ++ x :: c) (length a) (length a) = a ++ x :: c.
Proof. intros. unfold swap. rewrite nth_mid. rewrite replace_app. now rewrite replace_app. Qed.
Lemma reorder_spec : forall tr rest t u fuel, (length rest <= fuel)%nat ->
  Forall (fun g => tr g = true) t -> Forall (fun g => tr g = false) u ->
  exists t' u', reorder tr fuel (length (t ++ u)) (length t) (t ++ u ++ rest) = t' ++ u'
    /\ Permutation (t' ++ u') (t ++ u ++ rest) /\ Forall (fun g => tr g = true) t' /\ Forall (fun g => tr g = false) u'.
Proof.
  induction rest as [|x rest IH]; intros t u fuel L Ht Hu.
  - exists t, u. rewrite app_nil_r. destruct fuel as [|f]; cbn [reorder]; [auto|].
    destruct (nth_error (t ++ u) (length (t ++ u))) eqn:E; [|auto].
    assert (nth_error (t ++ u) (length (t ++ u)) <> None) as C by congruence. apply nth_error_Some in C. lia.
  - destruct fuel as [|f]; cbn in L; [lia|]. cbn [reorder]. rewrite app_assoc, nth_mid. destruct (tr x) eqn:E.
    + destruct u as [|y u].
      * rewrite app_nil_r. rewrite swap_self. destruct (IH (t ++ [x]) [] f) as (t' & u' & E1 & P & F1 & F2); [lia| |constructor|].
        { apply Forall_app. auto. }
        exists t', u'. split.
        -- rewrite <- E1. rewrite app_nil_r. rewrite app_length. cbn. rewrite Nat.add_1_r. f_equal. now rewrite <- app_assoc.
        -- split; [|auto]. rewrite P. cbn. rewrite <- app_assoc. reflexivity.
      * assert ((t ++ y :: u) ++ x :: rest = t ++ y :: u ++ x :: rest) as Ea by (rewrite <- app_assoc; reflexivity).
        rewrite Ea, swap_split. inversion Hu; subst.
        destruct (IH (t ++ [x]) (u ++ [y]) f) as (t' & u' & E1 & P & F1 & F2); [lia|apply Forall_app; auto|apply Forall_app; auto|].
        exists t', u'. split.
        -- rewrite <- E1. f_equal.
           ++ repeat (rewrite !app_length; cbn [length]). lia.
           ++ rewrite app_length. cbn. lia.
           ++ rewrite <- !app_assoc. reflexivity.
        -- split; [|auto]. rewrite P. rewrite <- !app_assoc. cbn. apply Permutation_app_head.
           rewrite <- !Permutation_middle. apply perm_swap.
    + destruct (IH t (u ++ [x]) f) as (t' & u' & E1 & P & F1 & F2); [lia|assumption|apply Forall_app; auto|].
      exists t', u'. split.
      * rewrite <- E1. f_equal; [rewrite !app_length; cbn; lia|]. rewrite <- !app_assoc. reflexivity.
      * split; [|auto]. rewrite P. rewrite <- !app_assoc. reflexivity.
Qed.
Lemma reorder_ok : forall tr l, exists t u, reorder tr (length l) 0 0 l = t ++ u /\ Permutation (t ++ u) l
  /\ Forall (fun g => tr g = true) t /\ Forall (fun g => tr g = false) u.
Proof. intros tr l. destruct (reorder_spec tr l [] [] (length l)) as (t & u & H); auto. exists t, u. exact H. Qed.

(* ---- one group of modules with the same name ---- *)
Lemma unq_inj : forall k i j, 0 <= i -> 0 <= j -> unq k i = unq k j -> i = j.
Proof. intros k i j Hi Hj H. unfold unq in H. do 2 apply app_inj_s in H. apply (print_num_inj 10); auto; lia. Qed.
Lemma unq_run : forall fuel used k c, 0 <= c -> c + Z.of_nat fuel <= 2 ^ 32 ->
  (exists i, c <= i /\ unq_loop fuel used k c = Ok (unq k i) /\ used (unq k i) = false)
  \/ (forall j, c <= j < c + Z.of_nat fuel -> used (unq k j) = true).
Proof.
  induction fuel as [|f IH]; intros used k c Hc Hb; cbn [unq_loop]; [right; intros j Hj; lia|].
  destruct (used (unq k c)) eqn:T; [|left; exists c; split; [lia|auto]].
  destruct f as [|f'].
  - right. intros j Hj. assert (j = c) as -> by lia. exact T.
  - assert (u32 (c + 1) = c + 1) as -> by (unfold u32; apply Z.mod_small; lia).
    destruct (IH used k (c + 1)) as [(i & Hi & R)|R]; [lia|lia| |].
    + left. exists i. split; [lia|exact R].
    + right. intros j Hj. destruct (Z.eq_dec j c) as [->|]; [exact T|]. apply R. lia.
Qed.
Lemma unq_total : forall c k n, 0 <= n -> n + Z.of_nat (S (length (c_mods c))) <= 2 ^ 32 ->
  exists i, unq_loop (S (length (c_mods c))) (exists_name c) k n = Ok (unq k i) /\ exists_name c (unq k i) = false.
Proof.
  intros c k n Hn Hb. destruct (unq_run (S (length (c_mods c))) (exists_name c) k n) as [(i & _ & R)|R]; [lia|exact Hb|eauto|].
  exfalso. set (N := length (c_mods c)) in *.
  assert (NoDup (map (fun j => unq k (n + Z.of_nat j)) (seq 0 (S N)))) as ND.
  { apply nodup_map; [|apply seq_NoDup]. intros a b _ _ H. apply unq_inj in H; lia. }
  assert (incl (map (fun j => unq k (n + Z.of_nat j)) (seq 0 (S N))) (map fst (c_mods c))) as Inc.
  { intros x Hx. apply in_map_iff in Hx as (j & <- & Hj). apply in_seq in Hj.
    assert (exists_name c (unq k (n + Z.of_nat j)) = true) as T by (apply R; lia).
    unfold exists_name in T. destruct (find_key (c_mods c) (unq k (n + Z.of_nat j))) eqn:F; [|discriminate].
    apply find_in, (in_map fst) in F. exact F. }
  pose proof (NoDup_incl_length ND Inc) as Len. rewrite !map_length, seq_length in Len. fold N in Len. lia.
Qed.
Lemma unq_nonempty : forall k i, unq k i <> EmptyString.
Proof. intros k i. unfold unq. destruct k; discriminate. Qed.
Lemma find_z_app : forall (A : Type) (a b : list (Z * A)) k,
  find_z (a ++ b) k = match find_z a k with Some v => Some v | None => find_z b k end.
Proof. induction a as [|[k' v'] r IH]; cbn; intros; [reflexivity|]. destruct (k =? k'); auto. Qed.

Section group.
  Variables (I : info) (k : string) (G : ctx).
  Hypothesis kne : k <> EmptyString.
  Variable dom : nat -> Prop.
  Definition placed (c : ctx) : Prop := forall x, dom x -> c_name c x <> EmptyString /\ exists l, find_key (c_mods c) (c_name c x) = Some l /\ In x l.
  Record ginv (P : list nat) (s : gst) : Prop := {
    v_dom : forall x, In x P -> dom x;
    v_rest : forall x, ~ In x P -> c_name (s_ctx s) x = c_name G x;
    v_none : forall x, In x P -> n_hash I x = None -> c_name (s_ctx s) x = k;
    v_some : forall x h, In x P -> n_hash I x = Some h -> exists r, find_z (s_map s) h = Some r /\ c_name (s_ctx s) x = c_name (s_ctx s) r;
    v_rep : forall h r, find_z (s_map s) h = Some r -> In r P /\ n_hash I r = Some h
              /\ (c_name (s_ctx s) r = k \/ exists_name G (c_name (s_ctx s) r) = false);
    v_inj : forall h1 r1 h2 r2, find_z (s_map s) h1 = Some r1 -> find_z (s_map s) h2 = Some r2 ->
              c_name (s_ctx s) r1 = c_name (s_ctx s) r2 -> h1 = h2;
    v_empty : s_new s = [] <-> s_map s = [];
    v_count : (length (s_new s) <= length P)%nat;
    v_keep : s_map s <> [] -> exists h r m, s_map s = (h, r) :: m /\ c_name (s_ctx s) r = k;
    v_placed : placed (s_ctx s);
    v_other : forall k', exists_name G k' = true -> k' <> k -> find_key (c_mods (s_ctx s)) k' = find_key (c_mods G) k';
    v_grow : forall k', exists_name G k' = true -> exists_name (s_ctx s) k' = true;
    v_len : (length (c_mods (s_ctx s)) <= length (c_mods G) + length P)%nat
  }.
  Lemma placed_exists : forall c x, placed c -> dom x -> exists_name c (c_name c x) = true.
  Proof. intros c x H D. destruct (H x D) as (_ & l & F & _). unfold exists_name. now rewrite F. Qed.
  (* moving module g, which is still called k *)
  Lemma change_placed : forall c g new, placed c -> dom g -> c_name c g = k -> new <> EmptyString ->
    exists c', change_name c g new = Ok c' /\ c_name c' = set_name (c_name c) g new /\ placed c'
      /\ (forall k', k' <> k -> k' <> new -> find_key (c_mods c') k' = find_key (c_mods c) k')
      /\ (forall k', exists_name c' k' = (k' =? new)%string || exists_name c k')
      /\ (length (c_mods c') <= S (length (c_mods c)))%nat.
  Proof.
    intros c g new Pl Dg Eg Nn. destruct (Pl g Dg) as (Ng & l & F & Il).
    destruct (change_ok c g new l) as (c' & E & En & O & Ex & M & (l' & Fn & In') & L); auto.
    exists c'. split; [exact E|]. split; [exact En|]. split; [|split; [|auto]].
    - intros x Dx. rewrite En. unfold set_name. destruct (Nat.eqb_spec x g) as [->|Dxg]; [eauto|].
      destruct (Pl x Dx) as (Nx & lx & Fx & Ix). split; [exact Nx|]. eapply M; eauto.
    - intros k' D1 D2. apply O; congruence.
  Qed.

  Lemma visit_ok : forall P s g, ginv P s -> dom g -> ~ In g P -> c_name G g = k -> exists_name G k = true ->
    Z.of_nat (length (c_mods G) + 2 * length P + 4) < 2 ^ 32 ->
    exists s', visit I k s g = Ok s' /\ ginv (g :: P) s'.
  Proof.
    intros P s g V Dg Ng Ek Exk B. unfold visit. destruct (n_hash I g) as [h|] eqn:Hg.
    2:{ exists s. split; [reflexivity|]. destruct V as [V0 V1 V2 V3 V4 V5 V6 V7 V8 V9 V10 V11 V12]. constructor; auto.
        - intros x [<-|J]; auto.
        - intros x Hx. apply V1. intros J. apply Hx. now right.
        - intros x [<-|J] Hn; [rewrite V1; assumption|auto].
        - intros x h' [<-|J] Hn; [congruence|eauto].
        - intros h' r F. destruct (V4 h' r F) as (? & ? & ?). split; [now right|auto].
        - cbn. lia.
        - cbn. lia. }
    pose proof (v_rest _ _ V g Ng) as Nk. rewrite Ek in Nk.
    destruct (find_z (s_map s) h) as [r|] eqn:Fh.
    - (* a module with this hash was seen *)
      destruct (v_rep _ _ V h r Fh) as (Ir & Hr & Kr).
      assert (dom r) as Dr by (eapply v_dom; eauto).
      destruct (v_placed _ _ V r Dr) as (Nr & lr & Fr & Ilr).
      destruct (change_placed (s_ctx s) g (c_name (s_ctx s) r)) as (c' & E & En & Pl & O & Ex & L); auto; [apply V|].
      rewrite E. cbn [obind]. eexists. split; [reflexivity|].
      assert (forall x, In x P -> c_name c' x = c_name (s_ctx s) x) as Same.
      { intros x Hx. rewrite En. unfold set_name. destruct (Nat.eqb_spec x g) as [->|]; [tauto|reflexivity]. }
      constructor; cbn [s_ctx s_map s_new].
      + intros x [<-|J]; [assumption|eapply v_dom; eauto].
      + intros x Hx. rewrite En. unfold set_name. destruct (Nat.eqb_spec x g) as [->|]; [exfalso; apply Hx; now left|].
        apply V. intros J. apply Hx. now right.
      + intros x [<-|J] Hn; [congruence|]. rewrite Same by assumption. eapply v_none; eauto.
      + intros x h' [<-|J] Hn.
        * exists r. assert (h' = h) as -> by congruence. split; [assumption|]. rewrite (Same r Ir), En. unfold set_name. now rewrite Nat.eqb_refl.
        * destruct (v_some _ _ V x h' J Hn) as (r' & F' & E'). exists r'. split; [assumption|].
          rewrite !Same; [exact E'| |assumption]. eapply v_rep; eauto.
      + intros h' r' F. destruct (v_rep _ _ V h' r' F) as (J1 & J2 & J3). rewrite Same by assumption. split; [now right|auto].
      + intros h1 r1 h2 r2 F1 F2. destruct (v_rep _ _ V _ _ F1) as (J1 & _), (v_rep _ _ V _ _ F2) as (J2 & _).
        rewrite !Same by assumption. eapply v_inj; eauto.
      + apply V.
      + cbn. pose proof (v_count _ _ V). lia.
      + intros Ne. destruct (v_keep _ _ V Ne) as (h0 & r0 & m0 & F0 & E0). exists h0, r0, m0. split; [assumption|].
        rewrite Same; [assumption|]. eapply v_rep; eauto. rewrite F0. cbn. rewrite Z.eqb_refl. reflexivity.
      + exact Pl.
      + intros k' X D. destruct (String.string_dec k' (c_name (s_ctx s) r)) as [->|D'].
        * exfalso. destruct Kr as [Kr|Kr]; congruence.
        * rewrite O by assumption. now apply (v_other _ _ V).
      + intros k' X. rewrite Ex, (v_grow _ _ V k' X). apply orb_true_r.
      + cbn. pose proof (v_len _ _ V). lia.
    - (* a new hash *)
      assert (forall h', find_z (s_map s ++ [(h, g)]) h' = match find_z (s_map s) h' with Some v => Some v | None => if h' =? h then Some g else None end) as Fm
        by (intros h'; rewrite find_z_app; reflexivity).
      destruct (s_new s) as [|n0 ns] eqn:Es.
      + (* the first one keeps the name *)
        pose proof (proj1 (v_empty _ _ V) Es) as Em. eexists. split; [reflexivity|].
        constructor; cbn [s_ctx s_map s_new].
        * intros x [<-|J]; [assumption|eapply v_dom; eauto].
        * intros x Hx. apply V. intros J. apply Hx. now right.
        * intros x [<-|J] Hn; [congruence|eapply v_none; eauto].
        * intros x h' [<-|J] Hn.
          -- assert (h' = h) as -> by congruence. exists g. split; [|reflexivity]. rewrite Fm, Fh, Z.eqb_refl. reflexivity.
          -- destruct (v_some _ _ V x h' J Hn) as (r' & F' & _). rewrite Em in F'. discriminate.
        * intros h' r'. rewrite Fm, Em. cbn [find_z]. destruct (Z.eqb_spec h' h) as [->|]; [|discriminate].
          intros Q. injection Q as <-. split; [now left|]. auto.
        * intros h1 r1 h2 r2. rewrite !Fm, Em. cbn [find_z].
          destruct (Z.eqb_spec h1 h) as [->|]; [|discriminate]. destruct (Z.eqb_spec h2 h) as [->|]; [|discriminate]. auto.
        * split; [discriminate|]. intros Q. destruct (s_map s); discriminate.
        * cbn. lia.
        * intros _. exists h, g, []. rewrite Em. auto.
        * apply V.
        * apply V.
        * apply V.
        * cbn. pose proof (v_len _ _ V). lia.
      + (* a fresh name *)
        rewrite <- Es. assert (s_map s <> []) as Em by (intros Q; apply (v_empty _ _ V) in Q; congruence).
        pose proof (v_count _ _ V) as Vc. pose proof (v_len _ _ V) as Vl.
        assert (u32 (Z.of_nat (length (s_new s)) - 1) = Z.of_nat (length (s_new s)) - 1) as Eu.
        { unfold u32. apply Z.mod_small. rewrite Es in *. cbn [length] in *. lia. }
        rewrite Eu. destruct (unq_total (s_ctx s) k (Z.of_nat (length (s_new s)) - 1)) as (i & Ei & Fi).
        { rewrite Es. cbn [length]. lia. }
        { lia. }
        rewrite Ei. cbn [obind]. set (new := unq k i) in *.
        destruct (change_placed (s_ctx s) g new) as (c' & E & En & Pl & O & Ex & L); auto; [apply V|apply unq_nonempty|].
        rewrite E. cbn [obind]. eexists. split; [reflexivity|].
        assert (forall x, In x P -> c_name c' x = c_name (s_ctx s) x) as Same.
        { intros x Hx. rewrite En. unfold set_name. destruct (Nat.eqb_spec x g) as [->|]; [tauto|reflexivity]. }
        assert (c_name c' g = new) as Ng' by (rewrite En; unfold set_name; now rewrite Nat.eqb_refl).
        assert (forall x, In x P -> c_name (s_ctx s) x <> new) as Fresh.
        { intros x Hx Q. pose proof (placed_exists (s_ctx s) x (v_placed _ _ V) (v_dom _ _ V x Hx)) as T. rewrite Q in T. congruence. }
        assert (exists_name G new = false) as FG.
        { destruct (exists_name G new) eqn:Q; [|reflexivity]. apply (v_grow _ _ V) in Q. congruence. }
        constructor; cbn [s_ctx s_map s_new].
        * intros x [<-|J]; [assumption|eapply v_dom; eauto].
        * intros x Hx. rewrite En. unfold set_name. destruct (Nat.eqb_spec x g) as [->|]; [exfalso; apply Hx; now left|].
          apply V. intros J. apply Hx. now right.
        * intros x [<-|J] Hn; [congruence|]. rewrite Same by assumption. eapply v_none; eauto.
        * intros x h' [<-|J] Hn.
          -- assert (h' = h) as -> by congruence. exists g. split; [|reflexivity]. rewrite Fm, Fh, Z.eqb_refl. reflexivity.
          -- destruct (v_some _ _ V x h' J Hn) as (r' & F' & E'). exists r'. rewrite Fm, F'. split; [reflexivity|].
             rewrite !Same; [exact E'| |assumption]. eapply v_rep; eauto.
        * intros h' r'. rewrite Fm. destruct (find_z (s_map s) h') eqn:F'.
          -- intros Q. injection Q as <-. destruct (v_rep _ _ V _ _ F') as (J1 & J2 & J3). rewrite Same by assumption. split; [now right|auto].
          -- destruct (Z.eqb_spec h' h) as [->|]; [|discriminate]. intros Q. injection Q as <-. split; [now left|].
             split; [assumption|]. right. now rewrite Ng'.
        * intros h1 r1 h2 r2. rewrite !Fm. destruct (find_z (s_map s) h1) eqn:F1, (find_z (s_map s) h2) eqn:F2.
          -- intros Q1 Q2. injection Q1 as <-. injection Q2 as <-.
             destruct (v_rep _ _ V _ _ F1) as (J1 & _), (v_rep _ _ V _ _ F2) as (J2 & _). rewrite !Same by assumption.
             eapply v_inj; eauto.
          -- destruct (Z.eqb_spec h2 h) as [->|]; [|discriminate]. intros Q1 Q2. injection Q1 as <-. injection Q2 as <-.
             destruct (v_rep _ _ V _ _ F1) as (J1 & _). rewrite Same, Ng' by assumption. intros Q. exfalso. eapply Fresh; eauto.
          -- destruct (Z.eqb_spec h1 h) as [->|]; [|discriminate]. intros Q1 Q2. injection Q1 as <-. injection Q2 as <-.
             destruct (v_rep _ _ V _ _ F2) as (J2 & _). rewrite (Same n J2), Ng'. intros Q. exfalso. eapply Fresh; eauto.
          -- destruct (Z.eqb_spec h1 h) as [->|]; [|discriminate]. destruct (Z.eqb_spec h2 h) as [->|]; [|discriminate]. auto.
        * split; [intros Q; exfalso|intros Q; destruct (s_map s); discriminate]. unfold insert_name in Q.
          destruct (has _ _); [congruence|destruct (s_new s); discriminate].
        * cbn. unfold insert_name. destruct (has _ _); [lia|]. rewrite app_length. cbn. lia.
        * intros _. destruct (v_keep _ _ V Em) as (h0 & r0 & m0 & F0 & E0). exists h0, r0, (m0 ++ [(h, g)]). rewrite F0. split; [reflexivity|].
          rewrite Same; [assumption|]. eapply v_rep; eauto. rewrite F0. cbn. rewrite Z.eqb_refl. reflexivity.
        * exact Pl.
        * intros k' X D. rewrite O; [now apply (v_other _ _ V)|assumption|congruence].
        * intros k' X. rewrite Ex, (v_grow _ _ V k' X). apply orb_true_r.
        * cbn. lia.
  Qed.
  Lemma visits_ok : forall l P s, ginv P s -> NoDup (P ++ l) -> (forall x, In x l -> dom x /\ c_name G x = k) -> exists_name G k = true ->
    Z.of_nat (length (c_mods G) + 2 * (length P + length l) + 4) < 2 ^ 32 ->
    exists s' P', visits I k s l = Ok s' /\ ginv P' s' /\ (forall x, In x P' <-> In x P \/ In x l) /\ length P' = (length P + length l)%nat.
  Proof.
    induction l as [|g r IH]; intros P s V N H X B; cbn [visits].
    - exists s, P. split; [reflexivity|]. split; [exact V|]. split; [cbn; tauto|cbn; lia].
    - destruct (H g (or_introl eq_refl)) as [Dg Eg].
      assert (~ In g P) as Ng. { intros J. apply NoDup_remove_2 in N. apply N, in_or_app. now left. }
      destruct (visit_ok P s g V Dg Ng Eg X) as (s1 & E1 & V1); [cbn [length] in B; lia|].
      rewrite E1. cbn [obind]. destruct (IH (g :: P) s1 V1) as (s' & P' & E & V' & J & L).
      + cbn. constructor; [apply NoDup_remove_2 in N; exact N|apply NoDup_remove_1 in N; exact N].
      + intros x Hx. apply H. now right.
      + exact X.
      + cbn [length] in *. lia.
      + exists s', P'. split; [exact E|]. split; [exact V'|]. split; [|cbn in *; lia].
        intros x. rewrite J. cbn. tauto.
  Qed.
  Lemma visit_head : forall s g s', visit I k s g = Ok s' ->
    s_map s' = s_map s \/ exists h, n_hash I g = Some h /\ s_map s' = s_map s ++ [(h, g)].
  Proof.
    intros s g s'. unfold visit. destruct (n_hash I g) as [h|]; [|intros H; apply Ok_inj in H; subst; auto].
    destruct (find_z (s_map s) h).
    - destruct (change_name _ _ _); cbn [obind]; try discriminate. intros H. apply Ok_inj in H. subst. auto.
    - destruct (s_new s) as [|n0 ns].
      + intros H. apply Ok_inj in H. subst. cbn. eauto.
      + destruct (unq_loop _ _ _ _); cbn [obind]; try discriminate. destruct (change_name _ _ _); cbn [obind]; try discriminate.
        intros H. apply Ok_inj in H. subst. cbn. eauto.
  Qed.
  Lemma visits_more : forall l s s' p m, visits I k s l = Ok s' -> s_map s = p :: m -> exists m', s_map s' = p :: m'.
  Proof.
    induction l as [|g r IH]; intros s s' p m; cbn [visits].
    - intros H E. apply Ok_inj in H. subst. eauto.
    - destruct (visit I k s g) as [s1| |] eqn:V; cbn [obind]; try discriminate. intros H E.
      apply visit_head in V as [V|(h & _ & V)]; eapply IH; try exact H; rewrite V, E; reflexivity.
  Qed.
  (* the first hashed module is the first to be entered *)
  Lemma visits_first : forall l s s', visits I k s l = Ok s' -> s_map s = [] -> s_new s = [] ->
    match find (fun g => match n_hash I g with Some _ => true | None => false end) l with
    | Some r => exists h m, s_map s' = (h, r) :: m
    | None => s_map s' = []
    end.
  Proof.
    induction l as [|g r IH]; intros s s'; cbn [visits find].
    - intros H E _. apply Ok_inj in H. now subst.
    - destruct (visit I k s g) as [s1| |] eqn:V; cbn [obind]; try discriminate. intros H E N.
      unfold visit in V. destruct (n_hash I g) as [h|] eqn:Hg.
      + rewrite E, N in V. cbn in V. apply Ok_inj in V.
        destruct (visits_more r s1 s' (h, g) [] H) as [m M]; [now subst|]. eauto.
      + apply Ok_inj in V. subst s1. now apply IH with (s := s).
  Qed.
End group.

(* ---- all names ---- *)
Lemma filter_len : forall (A : Type) (f : A -> bool) l, (length (filter f l) <= length l)%nat.
Proof. induction l; cbn; [lia|]. destruct (f a); cbn; lia. Qed.
Section all.
  Variables (I : info) (c0 : ctx).
  Hypothesis wf : well_placed c0.
  Local Notation dom := (in_design c0).
  Local Notation design_of := (Uniq_model.design_of I c0).
  Definition members (k : string) : list nat := match find_key (c_mods c0) k with Some l => l | None => [] end.
  Lemma dom_members : forall g, dom g <-> In g (members (c_name c0 g)).
  Proof.
    intros g. unfold in_design, members. split.
    - intros (l & H & J). now rewrite (in_find _ _ _ _ (proj1 wf) H).
    - destruct (find_key (c_mods c0) (c_name c0 g)) eqn:F; [|intros []]. apply find_in in F. eauto.
  Qed.
  Lemma members_name : forall k g, In g (members k) -> c_name c0 g = k /\ dom g.
  Proof.
    intros k g. unfold members. destruct (find_key (c_mods c0) k) eqn:F; [|intros []]. intros J. apply find_in in F.
    pose proof (proj2 wf k l F) as (_ & _ & N). pose proof (N g J) as E. split; [exact E|]. exists l. now rewrite E.
  Qed.
  Lemma members_nodup : forall k, NoDup (members k).
  Proof.
    intros k. unfold members. destruct (find_key (c_mods c0) k) eqn:F; [|constructor]. apply find_in in F. apply (proj2 wf k l F).
  Qed.
  Record ainv (D : list string) (c : ctx) : Prop := {
    a_rest : forall x, dom x -> ~ In (c_name c0 x) D -> c_name c x = c_name c0 x;
    a_find : forall k, ~ In k D -> exists_name c0 k = true -> find_key (c_mods c) k = find_key (c_mods c0) k;
    a_placed : placed dom c;
    a_grow : forall k, exists_name c0 k = true -> exists_name c k = true;
    a_fresh : forall x, dom x -> c_name c x = c_name c0 x \/ exists_name c0 (c_name c x) = false;
    a_class : forall x y, renamable design_of x -> renamable design_of y -> In (c_name c0 x) D -> c_name c0 x = c_name c0 y ->
        (c_name c x = c_name c y <-> n_hash I x = n_hash I y);
    a_keep : forall x, dom x -> ~ renamable design_of x -> c_name c x = c_name c0 x;
    a_apart : forall x y, dom x -> dom y -> c_name c0 x <> c_name c0 y -> c_name c x <> c_name c y;
    a_kept : forall x, renamable design_of x -> exists y, renamable design_of y /\ c_name c0 y = c_name c0 x /\ c_name c y = c_name c0 x;
    a_track : n_track I = true -> forall x, renamable design_of x -> n_tracked I x = true ->
        exists y, renamable design_of y /\ n_tracked I y = true /\ c_name c0 y = c_name c0 x /\ c_name c y = c_name c0 x;
    a_len : (length (c_mods c) <= length (c_mods c0) + fold_right (fun k n => length (members k) + n) 0 D)%nat
  }.
  Lemma ainv_start : ainv [] c0.
  Proof.
    assert (placed dom c0) as Pl.
    { intros x (l & H & J). split; [apply (proj2 wf _ _ H)|]. exists l. split; [|exact J]. apply in_find; [apply wf|exact H]. }
    constructor; auto.
    - intros x y _ _ [].
    - intros x R. eauto.
    - intros _ x R T. eauto.
    - cbn. lia.
  Qed.
  Lemma instances_perm : forall c k, find_key (c_mods c) k = find_key (c_mods c0) k ->
    Permutation (instances I c k) (filter (fun g => negb (n_ext I g)) (members k)).
  Proof.
    intros c k F. unfold instances, members. rewrite F. destruct (n_track I); [|reflexivity].
    destruct (reorder_ok (n_tracked I) (filter (fun g => negb (n_ext I g)) match find_key (c_mods c0) k with Some l => l | None => [] end)) as (t & u & E & P & _).
    rewrite E. exact P.
  Qed.
  Lemma one_ok : forall D c k, ainv D c -> ~ In k D -> exists_name c0 k = true ->
    Z.of_nat (length (c_mods c) + 2 * length (members k) + 4) < 2 ^ 32 ->
    exists c', one_name I c k = Ok c' /\ ainv (k :: D) c'.
  Proof.
    intros D c k A Nk Xk B. unfold one_name. pose proof (a_find _ _ A k Nk Xk) as Fk. rewrite Fk.
    assert (exists l0, find_key (c_mods c0) k = Some l0 /\ members k = l0) as (l0 & F0 & Em).
    { unfold exists_name, members in *. destruct (find_key (c_mods c0) k); [eauto|discriminate]. }
    rewrite F0. rewrite <- Em in *. set (L := filter (fun g => negb (n_ext I g)) (members k)).
    assert (k <> EmptyString) as Kne by (apply find_in in F0; apply (proj2 wf k (members k) F0)).
    assert (forall x, renamable design_of x -> c_name c0 x = k -> In x L /\ exists h, n_hash I x = Some h) as RL.
    { intros x (Dx & Ne & Hh) E. cbn in *. split.
      - apply filter_In. split; [rewrite <- E; now apply dom_members|]. destruct (n_ext I x); [congruence|reflexivity].
      - destruct (n_hash I x); [eauto|congruence]. }
    assert (forall x, In x L -> dom x /\ c_name c0 x = k) as LD.
    { intros x J. apply filter_In in J as [J _]. apply members_name in J. tauto. }
    destruct (Nat.eqb_spec (length L) 1) as [L1|L1].
    - exists c. split; [reflexivity|]. destruct A as [A1 A2 A3 A4 A5 A6 A7 A8 A9 A10 A11]. constructor; auto.
      + intros x Dx N. apply A1; [assumption|]. intros J. apply N. now right.
      + intros k' N. apply A2. intros J. apply N. now right.
      + intros x y Rx Ry [E|J] Exy; [|auto]. destruct (RL x Rx) as [Jx _]; [auto|]. destruct (RL y Ry) as [Jy _]; [congruence|].
        destruct L as [|z [|]]; try discriminate. destruct Jx as [->|[]], Jy as [->|[]]. tauto.
      + cbn [fold_right]. lia.
    - pose proof (instances_perm c k Fk) as P. fold L in P.
      assert (forall x, dom x -> c_name c0 x = k -> c_name c x = k) as Ck by (intros x Dx E; rewrite (a_rest _ _ A) by (rewrite ?E; auto); exact E).
      destruct (visits_ok I k c dom (instances I c k) [] {| s_ctx := c; s_map := []; s_new := [] |}) as (s & P' & E & V & J & Len).
      + constructor; cbn; try discriminate; try contradiction; auto.
        * tauto.
        * apply A.
        * lia.
      + cbn. eapply Permutation_NoDup; [symmetry; exact P|]. apply NoDup_filter, members_nodup.
      + intros x Hx. apply (Permutation_in _ P), LD in Hx. split; [tauto|]. apply Ck; tauto.
      + now apply (a_grow _ _ A).
      + cbn [length]. rewrite (Permutation_length P). assert (length L <= length (members k))%nat by apply filter_len. lia.
      + rewrite E. cbn [obind]. eexists. split; [reflexivity|].
        assert (forall x, In x P' <-> In x L) as JL.
        { intros x. rewrite J. cbn. split; [intros [[]|Hx]; eapply Permutation_in; eauto|right; eapply Permutation_in; [symmetry; exact P|assumption]]. }
        assert (forall x, ~ In x L -> c_name (s_ctx s) x = c_name c x) as Out by (intros x Hx; apply V; now rewrite JL).
        assert (forall x, In x L -> c_name (s_ctx s) x = k \/ exists_name c (c_name (s_ctx s) x) = false) as Inn.
        { intros x Hx. destruct (n_hash I x) as [h|] eqn:Hh.
          - destruct (v_some _ _ _ _ _ _ V x h) as (r & Fr & ->); [now apply JL|assumption|]. apply (v_rep _ _ _ _ _ _ V h r Fr).
          - left. apply (v_none _ _ _ _ _ _ V); [now apply JL|assumption]. }
        assert (forall x, dom x -> c_name c0 x <> k -> ~ In x L) as NL by (intros x _ Dk Hx; apply Dk; now apply LD).
        assert (forall x, dom x -> c_name c0 x = k -> c_name (s_ctx s) x = k \/ exists_name c (c_name (s_ctx s) x) = false) as InK.
        { intros x Dx Ek. destruct (in_dec Nat.eq_dec x L) as [Hx|Hx]; [auto|]. left. rewrite Out by assumption. auto. }
        assert (forall y, dom y -> c_name c0 y <> k -> forall x, dom x -> c_name c0 x = k -> c_name c y <> k) as NK.
        { intros y Dy Ny x Dx Ex. rewrite <- (Ck x Dx Ex). apply (a_apart _ _ A); congruence. }
        constructor.
        * intros x Dx N. rewrite Out. { apply (a_rest _ _ A); [assumption|]. intros Q. apply N. now right. }
          apply NL; [assumption|]. intros Q. apply N. left. congruence.
        * intros k' N X. rewrite (v_other _ _ _ _ _ _ V).
          -- apply (a_find _ _ A); [|assumption]. intros Q. apply N. now right.
          -- now apply (a_grow _ _ A).
          -- intros Q. apply N. left. congruence.
        * apply V.
        * intros k' X. apply (v_grow _ _ _ _ _ _ V). now apply (a_grow _ _ A).
        * intros x Dx. destruct (String.string_dec (c_name c0 x) k) as [Ek|Ek].
          -- destruct (InK x Dx Ek) as [Q|Q]; [left; congruence|]. right. destruct (exists_name c0 (c_name (s_ctx s) x)) eqn:X; [|reflexivity].
             apply (a_grow _ _ A) in X. congruence.
          -- rewrite Out by auto. now apply (a_fresh _ _ A).
        * intros x y Rx Ry [Ek|Q] Exy.
          -- destruct (RL x Rx) as (Jx & hx & Hx); [auto|]. destruct (RL y Ry) as (Jy & hy & Hy); [congruence|].
             destruct (v_some _ _ _ _ _ _ V x hx) as (rx & Fx & Ex); [now apply JL|assumption|].
             destruct (v_some _ _ _ _ _ _ V y hy) as (ry & Fy & Ey); [now apply JL|assumption|].
             rewrite Ex, Ey, Hx, Hy. split.
             ++ intros Q. f_equal. eapply (v_inj _ _ _ _ _ _ V); eauto.
             ++ intros Q. injection Q as ->. congruence.
          -- assert (~ In x L) by (intros Hx; apply Nk; apply LD in Hx as [_ <-]; assumption).
             assert (~ In y L) by (intros Hy; apply Nk; apply LD in Hy as [_ <-]; congruence).
             rewrite !Out by assumption. now apply (a_class _ _ A).
        * intros x Dx N. destruct (in_dec Nat.eq_dec x L) as [Hx|Hx].
          -- destruct (LD x Hx) as [_ Ex]. apply filter_In in Hx as [Hm He]. destruct (n_hash I x) as [h|] eqn:Hh.
             ++ exfalso. apply N. split; [assumption|]. split; [cbn; intros Q; rewrite Q in He; discriminate|cbn; congruence].
             ++ rewrite (v_none _ _ _ _ _ _ V x); [congruence| |assumption]. apply JL, filter_In. auto.
          -- rewrite Out by assumption. now apply (a_keep _ _ A).
        * intros x y Dx Dy Dxy.
          assert (forall u v, dom u -> dom v -> c_name c0 u = k -> c_name c0 v <> k -> c_name (s_ctx s) u <> c_name (s_ctx s) v) as Half.
          { intros u v Du Dv Eu Nv. rewrite (Out v) by auto. destruct (InK u Du Eu) as [Q|Q].
            - rewrite Q. intros Q'. eapply (NK v Dv Nv u); eauto.
            - intros Q'. rewrite Q' in Q. rewrite (placed_exists dom c v (a_placed _ _ A) Dv) in Q. discriminate. }
          destruct (String.string_dec (c_name c0 x) k) as [Ex|Ex], (String.string_dec (c_name c0 y) k) as [Ey|Ey].
          -- congruence.
          -- now apply Half.
          -- intros Q. symmetry in Q. revert Q. now apply Half.
          -- rewrite !Out by auto. now apply (a_apart _ _ A).
        * intros x Rx. destruct (String.string_dec (c_name c0 x) k) as [Ek|Ek].
          -- destruct (RL x Rx Ek) as (Jx & hx & Hx). destruct (v_some _ _ _ _ _ _ V x hx) as (rx & Fx & _); [now apply JL|assumption|].
             destruct (v_keep _ _ _ _ _ _ V) as (h & r & m & Fm & Er); [intros Q; rewrite Q in Fx; discriminate|].
             assert (find_z (s_map s) h = Some r) as Fr by (rewrite Fm; cbn; now rewrite Z.eqb_refl).
             destruct (v_rep _ _ _ _ _ _ V h r Fr) as (Jr & Hr & _). apply JL in Jr. exists r.
             destruct (LD r Jr) as [Dr Er0]. apply filter_In in Jr as [_ Ner]. split; [|split; congruence].
             split; [assumption|]. split; [cbn; intros Q; rewrite Q in Ner; discriminate|cbn; congruence].
          -- destruct (a_kept _ _ A x Rx) as (y & Ry & E1 & E2). exists y. split; [assumption|]. split; [assumption|].
             rewrite Out; [assumption|]. apply NL; [apply Ry|congruence].
        * intros Tr x Rx Tx. destruct (String.string_dec (c_name c0 x) k) as [Ek|Ek].
          -- destruct (RL x Rx Ek) as (Jx & hx & Hx).
             destruct (reorder_ok (n_tracked I) L) as (t & u & Er & Pr & Ft & Fu).
             assert (instances I c k = t ++ u) as Ei by (unfold instances; rewrite Fk, F0, Tr; exact Er).
             rewrite Ei in E. pose proof (visits_first I k (t ++ u) _ s E eq_refl eq_refl) as Fi.
             assert (In x t) as Jt.
             { apply (Permutation_in _ (Permutation_sym Pr)), in_app_or in Jx as [Jx|Jx]; [exact Jx|].
               rewrite Forall_forall in Fu. apply Fu in Jx. congruence. }
             assert (exists r, In r t /\ (exists h', n_hash I r = Some h') /\ exists h m, s_map s = (h, r) :: m) as (r & Jr & (h' & Hr) & h & m & Fm).
             { assert (forall t, In x t -> exists r, In r t /\ (exists h', n_hash I r = Some h') /\
                 find (fun g => match n_hash I g with Some _ => true | None => false end) (t ++ u) = Some r) as Ff.
               { clear - Hx. induction t as [|a t IH]; intros J; [destruct J|]. cbn [app find].
                 destruct (n_hash I a) as [ha|] eqn:Ha; [exists a; split; [now left|eauto]|].
                 destruct J as [->|J]; [congruence|]. destruct (IH J) as (r & Jr & H). exists r. split; [now right|exact H]. }
               destruct (Ff t Jt) as (r & Jr & Hr & F). rewrite F in Fi. eauto. }
             destruct (v_keep _ _ _ _ _ _ V) as (h2 & r2 & m2 & Fm2 & Er2); [rewrite Fm; discriminate|].
             assert (r2 = r) as -> by congruence.
             assert (In r L) as JrL by (apply (Permutation_in _ Pr), in_or_app; now left).
             destruct (LD r JrL) as [Dr Er0]. exists r. split; [|split; [|split; congruence]].
             ++ apply filter_In in JrL as [_ Ner]. split; [assumption|]. split; [cbn; intros Q; rewrite Q in Ner; discriminate|cbn; congruence].
             ++ rewrite Forall_forall in Ft. now apply Ft.
          -- destruct (a_track _ _ A Tr x Rx Tx) as (y & Ry & Ty & E1 & E2). exists y. split; [assumption|]. split; [assumption|].
             split; [assumption|]. rewrite Out; [assumption|]. apply NL; [apply Ry|congruence].
        * pose proof (v_len _ _ _ _ _ _ V) as VL. pose proof (a_len _ _ A) as AL. cbn [fold_right].
          cbn [length] in Len. rewrite Len in VL. rewrite (Permutation_length P) in VL.
          assert (length L <= length (members k))%nat by apply filter_len. lia.
  Qed.
  Lemma all_ok : forall names D c, ainv D c -> NoDup (names ++ D) -> (forall k, In k names -> exists_name c0 k = true) ->
    Z.of_nat (length (c_mods c0) + 3 * fold_right (fun k n => length (members k) + n)%nat 0%nat (names ++ D) + 4) < 2 ^ 32 ->
    exists c' D', uniquify I c names = Ok c' /\ ainv D' c' /\ (forall k, In k D' <-> In k names \/ In k D).
  Proof.
    induction names as [|k r IH]; intros D c A N H B; cbn [uniquify].
    - exists c, D. split; [reflexivity|]. split; [exact A|]. cbn. tauto.
    - cbn in N. inversion N as [|? ? Nk N']; subst.
      assert (forall a b, fold_right (fun k n => length (members k) + n)%nat 0%nat (a ++ b)
        = (fold_right (fun k n => length (members k) + n)%nat 0%nat a + fold_right (fun k n => length (members k) + n)%nat 0%nat b)%nat) as Fa.
      { induction a; intros b; cbn; [reflexivity|]. rewrite IHa. lia. }
      pose proof (a_len _ _ A) as AL. rewrite Fa in B. cbn [fold_right] in B.
      destruct (one_ok D c k A) as (c1 & E1 & A1).
      + intros J. apply Nk, in_or_app. now right.
      + apply H. now left.
      + lia.
      + rewrite E1. cbn [obind]. destruct (IH (k :: D) c1 A1) as (c' & D' & E & A' & J).
        * apply Permutation_NoDup with (l := k :: r ++ D); [apply Permutation_middle|exact N].
        * intros k' Hk. apply H. now right.
        * rewrite Fa. cbn [fold_right]. lia.
        * exists c', D'. split; [exact E|]. split; [exact A'|]. intros k'. rewrite J. cbn. tauto.
  Qed.
  Lemma total_members : forall names, Permutation names (map fst (c_mods c0)) ->
    fold_right (fun k n => length (members k) + n)%nat 0%nat names = length (flat_map snd (c_mods c0)).
  Proof.
    intros names P.
    assert (forall a b, Permutation a b -> fold_right (fun k n => length (members k) + n)%nat 0%nat a = fold_right (fun k n => length (members k) + n)%nat 0%nat b) as Fp.
    { induction 1; cbn; lia. }
    rewrite (Fp _ _ P). clear P.
    assert (forall m, incl m (c_mods c0) -> fold_right (fun k n => length (members k) + n)%nat 0%nat (map fst m) = length (flat_map snd m)) as G.
    { induction m as [|[k l] r IH]; intros Inc; [reflexivity|]. cbn [map fst fold_right flat_map snd]. rewrite app_length.
      rewrite IH by (intros x Hx; apply Inc; now right). unfold members. rewrite (in_find _ _ k l (proj1 wf)); [reflexivity|]. apply Inc. now left. }
    apply G. intros x; auto.
  Qed.
  Lemma uniquify_ok : forall names, Permutation names (map fst (c_mods c0)) ->
    Z.of_nat (length (c_mods c0) + 3 * length (flat_map snd (c_mods c0)) + 4) < 2 ^ 32 ->
    exists c', uniquify I c0 names = Ok c' /\ unique_names design_of (c_name c')
      /\ (n_track I = true -> forall x, renamable design_of x -> n_tracked I x = true ->
          exists y, renamable design_of y /\ n_tracked I y = true /\ c_name c0 y = c_name c0 x /\ c_name c' y = c_name c0 x).
  Proof.
    intros names P B.
    destruct (all_ok names [] c0 ainv_start) as (c' & D' & E & A & J).
    - rewrite app_nil_r. eapply Permutation_NoDup; [symmetry; exact P|apply wf].
    - intros k Hk. apply (Permutation_in _ P) in Hk. unfold exists_name. destruct (find_key (c_mods c0) k) eqn:F; [reflexivity|].
      apply find_none in F. contradiction.
    - rewrite app_nil_r, (total_members names P). exact B.
    - exists c'. split; [exact E|].
      assert (forall x, dom x -> In (c_name c0 x) D') as InD.
      { intros x (l & H & _). apply J. left. apply (Permutation_in _ (Permutation_sym P)). apply (in_map fst) in H. exact H. }
      split; [|apply A]. constructor.
      + intros g h Rg Rh En. apply (a_class _ _ A); auto. apply InD, Rg.
      + intros g h Dg Dh. apply (a_apart _ _ A); assumption.
      + intros g Dg N. now apply (a_keep _ _ A).
      + intros g h Dg Dh Ne Q. destruct (a_fresh _ _ A g Dg) as [K|K]; [contradiction|]. cbn in Q. rewrite Q in K.
        rewrite (placed_exists dom c0 h) in K; [discriminate|apply ainv_start|assumption].
      + intros g Rg. apply (a_kept _ _ A g Rg).
  Qed.
End all.
