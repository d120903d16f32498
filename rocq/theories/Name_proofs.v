From Verif Require Import Base Name_spec Num_model Num_spec Num_proofs Name_model.
Local Open Scope Z_scope.

Lemma eqb_sym_s : forall a b : string, (a =? b)%string = (b =? a)%string.
Proof. intros. apply String.eqb_sym. Qed.
Lemma find_in : forall (A : Type) m k (v : A), find_key m k = Some v -> In (k, v) m.
Proof.
  induction m as [|[k' v'] r IH]; cbn; intros k v H; [discriminate|].
  destruct (String.eqb_spec k k') as [->|]; [injection H as ->; auto|auto].
Qed.
Lemma in_find : forall (A : Type) m k (v : A), NoDup (map fst m) -> In (k, v) m -> find_key m k = Some v.
Proof.
  induction m as [|[k' v'] r IH]; cbn; intros k v N H; [destruct H|]. inversion N; subst.
  destruct H as [E|H].
  - injection E as -> ->. now rewrite String.eqb_refl.
  - destruct (String.eqb_spec k k') as [->|]; [|auto]. exfalso. apply H2. apply (in_map fst) in H. exact H.
Qed.
Lemma find_none : forall (A : Type) (m : list (string * A)) k, find_key m k = None <-> ~ In k (map fst m).
Proof.
  induction m as [|[k' v'] r IH]; cbn; intros k; [tauto|].
  destruct (String.eqb_spec k k') as [->|D]; [intuition discriminate|]. rewrite IH. intuition congruence.
Qed.
Lemma find_app : forall (A : Type) (a b : list (string * A)) k,
  find_key (a ++ b) k = match find_key a k with Some v => Some v | None => find_key b k end.
Proof. induction a as [|[k' v'] r IH]; cbn; intros; [reflexivity|]. destruct (k =? k')%string; auto. Qed.
Lemma find_emplace : forall (A : Type) (m : list (string * A)) k v k',
  find_key (emplace m k v) k' = match find_key m k' with Some u => Some u | None => if (k' =? k)%string then Some v else None end.
Proof.
  intros. unfold emplace. destruct (find_key m k) eqn:E.
  - destruct (find_key m k') eqn:E'; [reflexivity|]. destruct (String.eqb_spec k' k) as [->|]; [congruence|reflexivity].
  - rewrite find_app. destruct (find_key m k'); reflexivity.
Qed.
Lemma emplace_nodup : forall (A : Type) (m : list (string * A)) k v, NoDup (map fst m) -> NoDup (map fst (emplace m k v)).
Proof.
  intros. unfold emplace. destruct (find_key m k) eqn:E; [assumption|]. apply find_none in E.
  rewrite map_app. cbn. apply NoDup_rev in H. rewrite <- (rev_involutive (map fst m ++ [k])). apply NoDup_rev.
  rewrite rev_app_distr. cbn. constructor; [|assumption]. rewrite <- in_rev. exact E.
Qed.
Lemma find_erase : forall (A : Type) (m : list (string * A)) k k',
  find_key (erase m k) k' = if (k' =? k)%string then None else find_key m k'.
Proof.
  unfold erase. induction m as [|[k0 v0] r IH]; cbn; intros k k'; [destruct (k' =? k)%string; reflexivity|].
  destruct (String.eqb_spec k0 k) as [->|D]; cbn.
  - rewrite IH. destruct (String.eqb_spec k' k); reflexivity.
  - rewrite IH. destruct (String.eqb_spec k' k0) as [->|]; [|reflexivity].
    destruct (String.eqb_spec k0 k); [congruence|reflexivity].
Qed.
Lemma erase_nodup : forall (A : Type) (m : list (string * A)) k, NoDup (map fst m) -> NoDup (map fst (erase m k)).
Proof.
  unfold erase. induction m as [|[k0 v0] r IH]; cbn; intros k N; [constructor|]. inversion N; subst.
  destruct (k0 =? k)%string; cbn; [auto|]. constructor; [|auto].
  intros H. apply H1. apply in_map_iff in H as ([a b] & E & I). cbn in E. subst. apply filter_In in I as [I _].
  apply (in_map fst) in I. exact I.
Qed.
Lemma has_in : forall l k, has l k = true <-> In k l.
Proof.
  intros. unfold has. rewrite existsb_exists. split.
  - intros (x & I & E). apply String.eqb_eq in E. now subst.
  - intros I. exists k. split; [assumption|apply String.eqb_refl].
Qed.
Lemma has_insert : forall l k k', has (insert_name l k) k' = (k' =? k)%string || has l k'.
Proof.
  intros. unfold insert_name. destruct (has l k) eqn:E.
  - destruct (String.eqb_spec k' k) as [->|]; [now rewrite E|reflexivity].
  - unfold has. rewrite existsb_app. cbn. rewrite orb_false_r. apply orb_comm.
Qed.
Lemma has_erase : forall l k k', has (erase_name l k) k' = negb (k' =? k)%string && has l k'.
Proof.
  unfold erase_name, has. induction l as [|x r IH]; cbn; intros; [now rewrite andb_false_r|].
  destruct (String.eqb_spec x k) as [->|]; cbn.
  - rewrite IH. destruct (String.eqb_spec k' k); cbn; reflexivity.
  - rewrite IH. destruct (String.eqb_spec k' x) as [->|]; cbn; [|reflexivity].
    destruct (String.eqb_spec x k); [congruence|reflexivity].
Qed.

(* ---- widths ---- *)
Lemma width_mod : forall size w, size <> [] -> fold_left (fun w i => u32 (w * i)) size w = u32 (w * fold_right Z.mul 1 size).
Proof.
  assert (forall size w, u32 (fold_left (fun w i => u32 (w * i)) size w) = u32 (w * fold_right Z.mul 1 size)) as H.
  { induction size as [|i r IH]; intros w; cbn [fold_left fold_right]; [f_equal; lia|].
    rewrite IH. unfold u32. rewrite Z.mul_mod_idemp_l by lia. f_equal. lia. }
  intros size w N. rewrite <- H. destruct (exists_last N) as (r & x & ->). rewrite fold_left_app. cbn [fold_left].
  unfold u32. now rewrite Z.mod_mod by lia.
Qed.
Lemma bits_nonneg : forall w size, 0 <= w -> Forall (fun s => 0 <= s) size -> 0 <= bits w size.
Proof.
  intros w size Hw H. unfold bits. assert (0 <= fold_right Z.mul 1 size); [|nia].
  induction H; cbn [fold_right]; nia.
Qed.
Lemma width_bits : forall o, 0 <= o_width o -> Forall (fun s => 0 <= s) (o_size o) -> bits (o_width o) (o_size o) < 2 ^ 32 ->
  width_of o = bits (o_width o) (o_size o).
Proof.
  intros o Hw Hs Hb. unfold width_of. destruct (o_size o) as [|i r] eqn:E.
  - unfold bits. cbn [fold_left fold_right]. lia.
  - rewrite width_mod by discriminate. pose proof (bits_nonneg _ _ Hw Hs). unfold u32. apply Z.mod_small. unfold bits in *. lia.
Qed.

(* ---- the tables ---- *)
Record inv (g : gen) (D : directory) : Prop := {
  i_nodup : NoDup (map fst (g_vars g));
  i_name : forall k v, get_var g k = Some v -> o_name (g_heap g v) = k /\ (v < g_next g)%nat;
  i_ports : forall k, has (g_ports g) k = match get_var g k with Some v => match o_port (g_heap g v) with Some _ => true | None => false end | None => false end;
  i_look : forall k, lookup g k = D k;
  i_size : forall k v, get_var g k = Some v -> 0 <= o_width (g_heap g v) /\ Forall (fun s => 0 <= s) (o_size (g_heap g v)) /\ bits (o_width (g_heap g v)) (o_size (g_heap g v)) < 2 ^ 32
}.
Lemma inv_empty : inv empty_gen no_names.
Proof. constructor; try discriminate; [constructor|reflexivity|reflexivity]. Qed.

Lemma D_none : forall g D k, inv g D -> (get_var g k = None <-> D k = None).
Proof. intros g D k I. rewrite <- (i_look _ _ I k). unfold lookup. destruct (get_var g k); cbn; intuition discriminate. Qed.
Lemma D_some : forall g D k v, inv g D -> get_var g k = Some v -> D k = Some (shown g v).
Proof. intros g D k v I E. rewrite <- (i_look _ _ I k). unfold lookup. now rewrite E. Qed.

(* adding a fresh object under a free name *)
Definition added (g : gen) (n : string) (o : obj) (ps : list string) : gen :=
  {| g_vars := emplace (g_vars g) n (g_next g); g_ports := ps; g_params := g_params g;
     g_heap := fun i => if Nat.eqb i (g_next g) then o else g_heap g i; g_next := S (g_next g) |}.
Lemma inv_added : forall g D n o, inv g D -> D n = None -> o_name o = n -> 0 <= o_width o -> Forall (fun s => 0 <= s) (o_size o) ->
  bits (o_width o) (o_size o) < 2 ^ 32 ->
  inv (added g n o (match o_port o with Some _ => insert_name (g_ports g) n | None => g_ports g end))
      (put D n (Some {| dc_width := o_width o; dc_size := o_size o; dc_signed := o_signed o; dc_port := o_port o; dc_used := o_used o |})).
Proof.
  intros g D n o I F En Hw Hs Hb. pose proof F as F'. apply (D_none g D n I) in F'.
  set (g' := added _ _ _ _).
  assert (forall k, get_var g' k = if (k =? n)%string then Some (g_next g) else get_var g k) as V.
  { intros k. unfold get_var, g'. cbn [added g_vars]. rewrite find_emplace. change (find_key (g_vars g) k) with (get_var g k).
    destruct (String.eqb_spec k n) as [->|]; [now rewrite F'|]. destruct (get_var g k); reflexivity. }
  assert (forall v, (v < g_next g)%nat -> g_heap g' v = g_heap g v) as Hh.
  { intros v L. cbn. destruct (Nat.eqb_spec v (g_next g)); [lia|reflexivity]. }
  assert (g_heap g' (g_next g) = o) as Ho by (cbn; now rewrite Nat.eqb_refl).
  constructor.
  - apply emplace_nodup, I.
  - intros k v. rewrite V. destruct (String.eqb_spec k n) as [->|].
    + intros E. injection E as <-. rewrite Ho. split; [assumption|cbn; lia].
    + intros E. destruct (i_name _ _ I k v E) as [E1 L]. rewrite Hh by assumption. split; [assumption|cbn; lia].
  - intros k. rewrite V. assert (has (g_ports g') k = match o_port o with Some _ => (k =? n)%string || has (g_ports g) k | None => has (g_ports g) k end) as P.
    { cbn. destruct (o_port o); [apply has_insert|reflexivity]. }
    rewrite P, (i_ports _ _ I k); clear P. destruct (String.eqb_spec k n) as [->|].
    + rewrite F', Ho. destruct (o_port o); reflexivity.
    + cbn [orb]. destruct (get_var g k) eqn:E; [|destruct (o_port o); reflexivity].
      rewrite Hh by (eapply i_name; eauto). destruct (o_port o); reflexivity.
  - intros k. unfold lookup. rewrite V. unfold put. destruct (String.eqb_spec k n) as [->|].
    + cbn [option_map]. unfold shown. now rewrite Ho.
    + rewrite <- (i_look _ _ I k). unfold lookup. destruct (get_var g k) eqn:E; [|reflexivity]. cbn [option_map].
      unfold shown. rewrite Hh by (eapply i_name; eauto). reflexivity.
  - intros k v. rewrite V. destruct (String.eqb_spec k n) as [->|].
    + intros E. injection E as <-. rewrite Ho. auto.
    + intros E. rewrite Hh by (eapply i_name; eauto). eapply i_size; eauto.
Qed.
Lemma inv_eq : forall g D D', inv g D -> (forall k, D k = D' k) -> inv g D'.
Proof. intros g D D' I H. destruct I; constructor; auto. intros k. rewrite <- H. auto. Qed.

Lemma reindex_fold : forall (nm : nat -> string) l m k,
  find_key (fold_left (fun m (kv : string * nat) => emplace m (nm (snd kv)) (snd kv)) l m) k
  = match find_key m k with Some v => Some v | None => find_key (map (fun kv => (nm (snd kv), snd kv)) l) k end.
Proof.
  induction l as [|[k0 v0] r IH]; intros m k; cbn; [destruct (find_key m k); reflexivity|].
  rewrite IH, find_emplace. destruct (find_key m k); [reflexivity|]. destruct (k =? nm v0)%string; reflexivity.
Qed.
Lemma reindex_nodup : forall (nm : nat -> string) l m, NoDup (map fst m) ->
  NoDup (map fst (fold_left (fun m (kv : string * nat) => emplace m (nm (snd kv)) (snd kv)) l m)).
Proof. induction l as [|kv r IH]; intros m N; cbn; [assumption|]. apply IH, emplace_nodup, N. Qed.
Lemma reindex_ports : forall h (l : list (string * nat)) acc k,
  has (fold_left (fun l kv => match o_port (h (snd kv)) with Some _ => insert_name l (o_name (h (snd kv))) | None => l end) l acc) k
  = has acc k || existsb (fun kv => match o_port (h (snd kv)) with Some _ => (k =? o_name (h (snd kv)))%string | None => false end) l.
Proof.
  induction l as [|[k0 v0] r IH]; intros acc k; cbn [fold_left existsb snd]; [now rewrite orb_false_r|].
  rewrite IH. destruct (o_port (h v0)); [|reflexivity]. rewrite has_insert.
  destruct (k =? o_name (h v0))%string, (has acc k); reflexivity.
Qed.
Lemma relabel : forall (l : list (string * nat)) a b k, a <> b -> ~ In b (map fst l) ->
  find_key (map (fun kv => (if (fst kv =? a)%string then b else fst kv, snd kv)) l) k
  = if (k =? b)%string then find_key l a else if (k =? a)%string then None else find_key l k.
Proof.
  induction l as [|[k0 v0] r IH]; cbn; intros a b k D N; [destruct (k =? b)%string, (k =? a)%string; reflexivity|].
  rewrite IH by tauto. destruct (String.eqb_spec k0 a) as [->|D0].
  - rewrite String.eqb_refl. destruct (String.eqb_spec k b) as [->|]; [reflexivity|].
    destruct (String.eqb_spec k a) as [->|]; [reflexivity|reflexivity].
  - destruct (String.eqb_spec a k0) as [->|]; [congruence|].
    destruct (String.eqb_spec k b) as [->|].
    + destruct (String.eqb_spec b k0) as [->|]; [tauto|reflexivity].
    + destruct (String.eqb_spec k k0) as [->|]; [|reflexivity].
      destruct (String.eqb_spec k0 a); [congruence|reflexivity].
Qed.

Lemma inv_set : forall g D n v o, inv g D -> get_var g n = Some v -> o_name o = n -> o_width o = o_width (g_heap g v) ->
  o_size o = o_size (g_heap g v) -> o_port o = o_port (g_heap g v) ->
  inv (set_obj g v o) (put D n (Some {| dc_width := o_width o; dc_size := o_size o; dc_signed := o_signed o; dc_port := o_port o; dc_used := o_used o |})).
Proof.
  intros g D n v o I E En Ew Es Ep.
  assert (forall k u, get_var g k = Some u -> k <> n -> u <> v) as U.
  { intros k u Eu Dk ->. apply Dk. destruct (i_name _ _ I _ _ E), (i_name _ _ I _ _ Eu). congruence. }
  assert (forall k u, get_var g k = Some u -> k <> n -> g_heap (set_obj g v o) u = g_heap g u) as Hh.
  { intros k u Eu Dk. cbn. destruct (Nat.eqb_spec u v); [exfalso; eapply U; eauto|reflexivity]. }
  assert (g_heap (set_obj g v o) v = o) as Ho by (cbn; now rewrite Nat.eqb_refl).
  constructor.
  - apply (i_nodup _ _ I).
  - intros k u Eu. change (get_var (set_obj g v o) k) with (get_var g k) in Eu. destruct (i_name _ _ I k u Eu) as [N L].
    split; [|exact L]. destruct (String.string_dec k n) as [->|Dk]; [|now rewrite (Hh k u Eu Dk)].
    assert (u = v) as -> by congruence. now rewrite Ho.
  - intros k. change (get_var (set_obj g v o) k) with (get_var g k). change (g_ports (set_obj g v o)) with (g_ports g).
    rewrite (i_ports _ _ I k). destruct (get_var g k) eqn:Eu; [|reflexivity].
    destruct (String.string_dec k n) as [->|Dk]; [|now rewrite (Hh k _ Eu Dk)].
    assert (n0 = v) as -> by congruence. now rewrite Ho, Ep.
  - intros k. unfold lookup, put. change (get_var (set_obj g v o) k) with (get_var g k).
    destruct (String.eqb_spec k n) as [->|Dk].
    + rewrite E. cbn [option_map]. unfold shown. now rewrite Ho.
    + rewrite <- (i_look _ _ I k). unfold lookup. destruct (get_var g k) eqn:Eu; [|reflexivity]. cbn [option_map].
      unfold shown. now rewrite (Hh k _ Eu Dk).
  - intros k u Eu. change (get_var (set_obj g v o) k) with (get_var g k) in Eu.
    destruct (String.string_dec k n) as [->|Dk]; [|rewrite (Hh k u Eu Dk); eapply i_size; eauto].
    assert (u = v) as -> by congruence. rewrite Ho, Ew, Es. eapply i_size; eauto.
Qed.

Lemma inv_erase : forall g D n, inv g D ->
  inv (with_ports (with_vars g (erase (g_vars g) n)) (erase_name (g_ports g) n)) (put D n None).
Proof.
  intros g D n I. set (g' := with_ports _ _).
  assert (forall k, get_var g' k = if (k =? n)%string then None else get_var g k) as V by (intros; apply find_erase).
  constructor.
  - apply erase_nodup, I.
  - intros k v. rewrite V. destruct (String.eqb_spec k n); [discriminate|]. apply I.
  - intros k. rewrite V. cbn [g' with_ports g_ports]. rewrite has_erase, (i_ports _ _ I k).
    destruct (String.eqb_spec k n); reflexivity.
  - intros k. unfold lookup, put. rewrite V. destruct (String.eqb_spec k n); [reflexivity|]. apply (i_look _ _ I k).
  - intros k v. rewrite V. destruct (String.eqb_spec k n); [discriminate|]. apply I.
Qed.
Lemma erase_name_id : forall l k, has l k = false -> erase_name l k = l.
Proof.
  unfold erase_name, has. induction l as [|x r IH]; cbn; intros k H; [reflexivity|]. apply orb_false_iff in H as [H1 H2].
  rewrite String.eqb_sym in H1. rewrite H1. cbn. now rewrite IH.
Qed.

Lemma inv_rename : forall g D a b v, inv g D -> get_var g a = Some v -> a <> b -> D b = None ->
  inv (reindex_vars (set_obj g v (with_name (g_heap g v) b))) (put (put D a None) b (D a)).
Proof.
  intros g D a b v I E Dab Fb. pose proof Fb as Fb'. apply (D_none g D b I) in Fb'.
  set (g0 := set_obj g v (with_name (g_heap g v) b)). set (g' := reindex_vars g0).
  assert (forall k u, In (k, u) (g_vars g) -> o_name (g_heap g0 u) = if (k =? a)%string then b else k) as Nm.
  { intros k u H. apply in_find in H; [|apply I]. cbn. destruct (Nat.eqb_spec u v) as [->|Du].
    - destruct (i_name _ _ I _ _ H) as [N _], (i_name _ _ I _ _ E) as [N' _]. assert (k = a) as -> by congruence.
      now rewrite String.eqb_refl.
    - destruct (i_name _ _ I _ _ H) as [N _]. rewrite N. destruct (String.eqb_spec k a) as [->|]; [|reflexivity].
      unfold get_var in E. congruence. }
  assert (forall k, get_var g' k = if (k =? b)%string then Some v else if (k =? a)%string then None else get_var g k) as V.
  { intros k. unfold get_var, g', reindex_vars. cbn [g_vars].
    rewrite (reindex_fold (fun u => o_name (g_heap g0 u))). cbn [find_key].
    change (g_vars g0) with (g_vars g).
    rewrite (map_ext_in _ (fun kv => (if (fst kv =? a)%string then b else fst kv, snd kv))).
    - rewrite relabel; [|assumption|now apply find_none]. unfold get_var in E. now rewrite E.
    - intros [k0 u0] H. cbn [fst snd]. now rewrite (Nm k0 u0 H). }
  assert (forall k u, get_var g k = Some u -> k <> a -> g_heap g' u = g_heap g u) as Hh.
  { intros k u Eu Dk. cbn. destruct (Nat.eqb_spec u v) as [->|]; [|reflexivity].
    destruct (i_name _ _ I _ _ E), (i_name _ _ I _ _ Eu). congruence. }
  assert (g_heap g' v = with_name (g_heap g v) b) as Ho by (cbn; now rewrite Nat.eqb_refl).
  constructor.
  - apply (reindex_nodup (fun u => o_name (g_heap g0 u)) (g_vars g0) []). constructor.
  - intros k u. rewrite V. destruct (String.eqb_spec k b) as [->|Db].
    + intros H. injection H as <-. rewrite Ho. split; [reflexivity|]. cbn. apply (i_name _ _ I _ _ E).
    + destruct (String.eqb_spec k a) as [->|Da]; [discriminate|]. intros H. rewrite (Hh k u H Da). apply (i_name _ _ I _ _ H).
  - intros k. assert (has (g_ports g') k = existsb (fun kv => match o_port (g_heap g0 (snd kv)) with Some _ => (k =? o_name (g_heap g0 (snd kv)))%string | None => false end) (g_vars g)) as ->
      by apply reindex_ports.
    rewrite V. destruct (existsb _ (g_vars g)) eqn:X.
    + apply existsb_exists in X as ([k0 u] & H & P). cbn [snd] in P. rewrite (Nm k0 u H) in P.
      apply in_find in H; [|apply I]. destruct (o_port (g_heap g0 u)) eqn:Pu; [|discriminate]. apply String.eqb_eq in P. subst k.
      destruct (String.eqb_spec k0 a) as [->|Da].
      * assert (u = v) as -> by (unfold get_var in E; congruence). rewrite String.eqb_refl. change (g_heap g' v) with (g_heap g0 v). now rewrite Pu.
      * destruct (String.eqb_spec k0 b) as [->|Db]; [unfold get_var in Fb'; congruence|].
        destruct (String.eqb_spec k0 a); [congruence|]. unfold get_var. rewrite H. change (g_heap g' u) with (g_heap g0 u). now rewrite Pu.
    + assert (forall k0 u, get_var g k0 = Some u -> (if (k0 =? a)%string then b else k0) = k -> o_port (g_heap g0 u) = None) as Q.
      { intros k0 u H Ek. apply find_in in H. destruct (o_port (g_heap g0 u)) eqn:Pu; [exfalso|reflexivity].
        assert (true = false); [|discriminate]. rewrite <- X. symmetry. apply existsb_exists. exists (k0, u).
        split; [assumption|]. cbn [snd]. rewrite Pu, (Nm k0 u H). now apply String.eqb_eq. }
      destruct (String.eqb_spec k b) as [->|Db].
      * change (g_heap g' v) with (g_heap g0 v). rewrite (Q a v E); [reflexivity|]. now rewrite String.eqb_refl.
      * destruct (String.eqb_spec k a) as [->|Da]; [reflexivity|]. destruct (get_var g k) eqn:Eu; [|reflexivity].
        change (g_heap g' n) with (g_heap g0 n). rewrite (Q k n Eu); [reflexivity|]. now destruct (String.eqb_spec k a).
  - intros k. unfold lookup, put. rewrite V. destruct (String.eqb_spec k b) as [->|Db].
    + cbn [option_map]. rewrite (D_some g D a v I E). unfold shown. now rewrite Ho.
    + destruct (String.eqb_spec k a) as [->|Da]; [reflexivity|]. rewrite <- (i_look _ _ I k). unfold lookup.
      destruct (get_var g k) eqn:Eu; [|reflexivity]. cbn [option_map]. unfold shown. now rewrite (Hh k n Eu Da).
  - intros k u. rewrite V. destruct (String.eqb_spec k b) as [->|Db].
    + intros H. injection H as <-. rewrite Ho. cbn. apply (i_size _ _ I _ _ E).
    + destruct (String.eqb_spec k a) as [->|Da]; [discriminate|]. intros H. rewrite (Hh k u H Da). apply (i_size _ _ I _ _ H).
Qed.

Section step.
  Variable valid : string -> bool.
  Definition accepted (r : outcome unit) : bool := match r with Ok _ => true | _ => false end.
  Lemma step_ok : forall g D a, inv g D -> plain D a ->
    inv (fst (step valid g a)) (fst (step_spec valid D a))
    /\ accepted (snd (step valid g a)) = snd (step_spec valid D a)
    /\ snd (step valid g a) <> UB.
  Proof.
    intros g D a I P. destruct a as [n w size sg|p n w size sg|n w|n|a b|n|n]; cbn [step step_spec plain] in *.
    - destruct P as (Pb & Pw & Ps). unfold decl_var. destruct (get_var g n) as [v|] eqn:E.
      + rewrite (D_some g D n v I E). destruct (i_size _ _ I _ _ E) as (S1 & S2 & S3).
        cbn [shown dc_width dc_size dc_signed]. rewrite (width_bits _ S1 S2 S3).
        destruct (bits (o_width (g_heap g v)) (o_size (g_heap g v)) =? w)%Z, (Bool.eqb (o_signed (g_heap g v)) sg); cbn;
          (split; [exact I|split; [reflexivity|discriminate]]).
      + rewrite (proj1 (D_none g D n I) E). unfold legal, ctor_ok. destruct (valid n && negb (w =? 0)%Z); cbn [fst snd].
        * split; [|split; [reflexivity|discriminate]].
          apply (inv_added g D n {| o_name := n; o_width := w; o_size := size; o_signed := sg; o_port := None; o_used := false |}); auto.
          now apply D_none with (g := g).
        * split; [exact I|split; [reflexivity|discriminate]].
    - destruct P as ((Pb & Pw & Ps) & Pd). unfold decl_port. unfold legal, ctor_ok.
      pose proof (i_ports _ _ I n) as Pn. destruct (get_var g n) as [v|] eqn:E.
      + rewrite (D_some g D n v I E) in Pd |- *. cbn [shown dc_port] in Pd.
        destruct (valid n && negb (w =? 0)%Z); [|cbn; split; [exact I|split; [reflexivity|discriminate]]].
        destruct (o_port (g_heap g v)); [|congruence]. cbn [new_obj fst snd]. rewrite Pn.
        cbn [fst snd]. split; [exact I|split; [reflexivity|discriminate]].
      + rewrite (proj1 (D_none g D n I) E). destruct (valid n && negb (w =? 0)%Z); [|cbn; split; [exact I|split; [reflexivity|discriminate]]].
        cbn [new_obj fst snd]. rewrite Pn. cbn [fst snd]. split; [|split; [reflexivity|discriminate]].
        apply (inv_added g D n {| o_name := n; o_width := w; o_size := size; o_signed := sg; o_port := Some p; o_used := false |}); auto.
        now apply D_none with (g := g).
    - unfold decl_enum_var. destruct (get_var g n) as [v|] eqn:E.
      + rewrite (D_some g D n v I E). cbn. split; [exact I|split; [reflexivity|discriminate]].
      + rewrite (proj1 (D_none g D n I) E). unfold legal, ctor_ok. destruct (valid n && negb (w =? 0)%Z); cbn [fst snd].
        * split; [|split; [reflexivity|discriminate]].
          apply (inv_added g D n {| o_name := n; o_width := w; o_size := [1]; o_signed := false; o_port := None; o_used := false |}); auto.
          -- now apply D_none with (g := g).
          -- cbn. lia.
          -- constructor; [lia|constructor].
          -- unfold bits. cbn [o_width o_size fold_right]. lia.
        * split; [exact I|split; [reflexivity|discriminate]].
    - unfold use_var. destruct (get_var g n) as [v|] eqn:E.
      + rewrite (D_some g D n v I E). cbn [fst snd]. split; [|split; [reflexivity|discriminate]].
        apply (inv_set g D n v (mark_used (g_heap g v))); auto. apply (i_name _ _ I _ _ E).
      + rewrite (proj1 (D_none g D n I) E). cbn. split; [exact I|split; [reflexivity|discriminate]].
    - unfold rename. destruct (get_var g a) as [v|] eqn:E.
      + rewrite (D_some g D a v I E). destruct (i_name _ _ I _ _ E) as [N _]. rewrite N.
        destruct (String.eqb_spec a b) as [->|Dab]; [cbn; split; [exact I|split; [reflexivity|discriminate]]|].
        destruct (get_var g b) as [u|] eqn:Eb.
        * rewrite (D_some g D b u I Eb). cbn. split; [exact I|split; [reflexivity|discriminate]].
        * pose proof (proj1 (D_none g D b I) Eb) as Fb. rewrite Fb. cbn [fst snd]. split; [|split; [reflexivity|discriminate]].
          rewrite <- (D_some g D a v I E). apply inv_rename; auto.
      + rewrite (proj1 (D_none g D a I) E). cbn. split; [exact I|split; [reflexivity|discriminate]].
    - unfold remove_port. pose proof (i_ports _ _ I n) as Pn. rewrite Pn. destruct (get_var g n) as [v|] eqn:E.
      + rewrite (D_some g D n v I E) in P |- *. cbn [shown dc_port dc_used] in *. destruct (o_port (g_heap g v)) eqn:Ep.
        * destruct P as [P|P]; [discriminate|]. unfold remove_var. change (get_var (with_ports g (erase_name (g_ports g) n)) n) with (get_var g n).
          rewrite E. cbn [with_ports g_heap]. rewrite P. cbn [fst snd]. split; [|split; [reflexivity|discriminate]].
          exact (inv_erase g D n I).
        * cbn. split; [exact I|split; [reflexivity|discriminate]].
      + rewrite (proj1 (D_none g D n I) E). cbn. split; [exact I|split; [reflexivity|discriminate]].
    - unfold remove_var. pose proof (i_ports _ _ I n) as Pn. destruct (get_var g n) as [v|] eqn:E.
      + rewrite (D_some g D n v I E) in P |- *. cbn [shown dc_port dc_used] in *. destruct (o_used (g_heap g v)).
        * cbn. split; [exact I|split; [reflexivity|discriminate]].
        * destruct P as [P|P]; [|discriminate]. rewrite P in Pn. cbn [fst snd]. split; [|split; [reflexivity|discriminate]].
          pose proof (inv_erase g D n I) as J. rewrite (erase_name_id _ _ Pn) in J. exact J.
      + rewrite (proj1 (D_none g D n I) E). cbn. split; [exact I|split; [reflexivity|discriminate]].
  Qed.
  Lemma play_ok : forall l g D, inv g D -> plain_history valid D l ->
    inv (play valid g l) (fold_left (fun D a => fst (step_spec valid D a)) l D).
  Proof.
    induction l as [|a r IH]; intros g D I P; cbn; [exact I|]. destruct P as [P R].
    apply IH; [apply step_ok; assumption|exact R].
  Qed.
End step.
Lemma port_ok : forall g D n, inv g D -> lookup_port g n = Ok (match D n with Some d => match dc_port d with Some _ => Some d | None => None end | None => None end).
Proof.
  intros g D n I. unfold lookup_port, get_port. rewrite (i_ports _ _ I n). destruct (get_var g n) as [v|] eqn:E.
  - rewrite (D_some g D n v I E). cbn [shown dc_port]. destruct (o_port (g_heap g v)) eqn:Ep; [|reflexivity].
    cbn. unfold shown. now rewrite Ep.
  - rewrite (proj1 (D_none g D n I) E). reflexivity.
Qed.

(* ---- fresh names ---- *)
Lemma app_inj_s : forall a b c : string, (a ++ b = a ++ c)%string -> b = c.
Proof. induction a as [|x a IH]; cbn; intros b c H; [assumption|]. injection H as H. auto. Qed.
Lemma counted_inj : forall p n i j, 0 <= i -> 0 <= j -> counted p n i = counted p n j -> i = j.
Proof.
  intros p n i j Hi Hj H. unfold counted in H. do 2 apply app_inj_s in H. unfold dec in H.
  apply (print_num_inj 10); auto; lia.
Qed.
Lemma loop_find : forall fuel tk p n c, 0 <= c -> c + Z.of_nat fuel <= 2 ^ 32 ->
  (exists i, c <= i < c + Z.of_nat fuel /\ unique_loop fuel tk p n c = Some (counted p n i) /\ tk (counted p n i) = false
             /\ forall j, c <= j < i -> tk (counted p n j) = true)
  \/ (unique_loop fuel tk p n c = None /\ forall j, c <= j < c + Z.of_nat fuel -> tk (counted p n j) = true).
Proof.
  induction fuel as [|f IH]; intros tk p n c Hc Hb; cbn [unique_loop].
  - right. split; [reflexivity|]. intros j Hj. lia.
  - destruct (tk (counted p n c)) eqn:T.
    + destruct f as [|f'].
      * right. cbn [unique_loop]. split; [reflexivity|]. intros j Hj. assert (j = c) as -> by lia. exact T.
      * assert (u32 (c + 1) = c + 1) as -> by (unfold u32; apply Z.mod_small; lia).
        destruct (IH tk p n (c + 1)) as [(i & Hi & E & F & M)|(E & M)]; [lia|lia| |].
        -- left. exists i. split; [lia|]. split; [exact E|]. split; [exact F|]. intros j Hj.
           destruct (Z.eq_dec j c) as [->|]; [exact T|]. apply M. lia.
        -- right. split; [exact E|]. intros j Hj. destruct (Z.eq_dec j c) as [->|]; [exact T|]. apply M. lia.
    + left. exists c. split; [lia|]. split; [reflexivity|]. split; [exact T|]. intros j Hj. lia.
Qed.
Lemma taken_in : forall g n, taken g n = true <-> In n (map fst (g_vars g)).
Proof.
  intros. unfold taken, get_var. destruct (find_key (g_vars g) n) eqn:E.
  - apply find_in, (in_map fst) in E. cbn in E. tauto.
  - apply find_none in E. split; [discriminate|tauto].
Qed.
Lemma nodup_map : forall (A B : Type) (f : A -> B) l, (forall x y, In x l -> In y l -> f x = f y -> x = y) -> NoDup l -> NoDup (map f l).
Proof.
  induction l as [|a r IH]; cbn; intros H N; [constructor|]. inversion N; subst. constructor; [|apply IH; auto].
  intros I. apply in_map_iff in I as (y & E & I). apply H in E; auto. now subst.
Qed.
Lemma unique_found : forall g p n, Z.of_nat (length (g_vars g)) < 2 ^ 32 ->
  exists r, get_unique_variable_name g p n = Some r /\ taken g r = false
    /\ (r = base_name p n \/ exists i, 0 <= i <= Z.of_nat (length (g_vars g)) /\ r = counted p n i /\ taken g (base_name p n) = true
        /\ forall j, 0 <= j < i -> taken g (counted p n j) = true).
Proof.
  intros g p n L. unfold get_unique_variable_name, unique_name. destruct (taken g (base_name p n)) eqn:T.
  2: { exists (base_name p n). auto. }
  destruct (loop_find (S (length (g_vars g))) (taken g) p n 0) as [(i & Hi & E & F & M)|(E & M)]; [lia|lia| |].
  - exists (counted p n i). split; [exact E|]. split; [exact F|]. right. exists i. split; [lia|]. split; [reflexivity|]. split; [reflexivity|]. intros j Hj. apply M. lia.
  - exfalso. set (N := length (g_vars g)) in *.
    assert (NoDup (map (fun k => counted p n (Z.of_nat k)) (seq 0 (S N)))) as ND.
    { apply nodup_map; [|apply seq_NoDup]. intros a b _ _ H. apply counted_inj in H; lia. }
    assert (incl (map (fun k => counted p n (Z.of_nat k)) (seq 0 (S N))) (map fst (g_vars g))) as Inc.
    { intros x Hx. apply in_map_iff in Hx as (k & <- & Hk). apply in_seq in Hk. apply taken_in, M. lia. }
    pose proof (NoDup_incl_length ND Inc) as Len. rewrite !map_length, seq_length in Len. fold N in Len. lia.
Qed.

(* ---- moving the variables of one module into another ---- *)
Definition moved_name (top : gen) (prefix k : string) : string := if taken top k then base_name prefix k else k.
Definition as_var (d : decl) : decl :=
  match dc_port d with
  | Some _ => {| dc_width := dc_width d; dc_size := dc_size d; dc_signed := dc_signed d; dc_port := None; dc_used := false |}
  | None => d
  end.
Section transfer.
  Variables (valid : string -> bool) (child : gen) (prefix : string).
  Hypothesis free : forall k, In k (map fst (g_vars child)) -> taken child (base_name prefix k) = false.
  Lemma one_ok : forall T k v, In k (map fst (g_vars child)) -> (v < g_next T)%nat ->
    taken T (moved_name T prefix k) = false -> valid (moved_name T prefix k) = true -> o_width (g_heap T v) <> 0 ->
    exists T' u, transfer_one valid child prefix (T, Ok tt) (k, v) = (T', Ok tt)
      /\ (forall m, get_var T' m = if (m =? moved_name T prefix k)%string then Some u else get_var T m)
      /\ shown T' u = as_var (shown T v)
      /\ (forall w, w <> v -> (w < g_next T)%nat -> g_heap T' w = g_heap T w)
      /\ (g_next T <= g_next T')%nat /\ (u < g_next T')%nat /\ (u = v \/ g_next T <= u)%nat.
  Proof.
    intros T k v Ik Lv Ft Vt Wt. cbn [transfer_one].
    assert ((if taken T k then match get_unique_variable_name child prefix k with Some x => x | None => k end else k) = moved_name T prefix k) as ->.
    { unfold moved_name. destruct (taken T k); [|reflexivity]. unfold get_unique_variable_name, unique_name. now rewrite (free k Ik). }
    set (t := moved_name T prefix k) in *. assert (get_var T t = None) as Gt by (unfold taken in Ft; destruct (get_var T t); [discriminate|reflexivity]).
    destruct (o_port (g_heap T v)) eqn:Ep.
    - unfold decl_var. change (get_var (set_obj T v (with_name (g_heap T v) t)) t) with (get_var T t). rewrite Gt.
      unfold ctor_ok. rewrite Vt. destruct (Z.eqb_spec (o_width (g_heap T v)) 0); [congruence|]. cbn [andb negb new_obj omap].
      eexists. exists (g_next T). split; [reflexivity|]. split; [|split; [|split; [|split; [|split]]]].
      + intros m. unfold get_var. cbn [with_vars g_vars set_obj g_next]. rewrite find_emplace. fold (get_var T m).
        destruct (String.eqb_spec m t) as [->|]; [now rewrite Gt|]. destruct (get_var T m); reflexivity.
      + unfold shown. cbn. rewrite Nat.eqb_refl. cbn. unfold as_var. cbn. now rewrite Ep.
      + intros w Dw Lw. cbn. destruct (Nat.eqb_spec w (g_next T)); [lia|]. destruct (Nat.eqb_spec w v); [congruence|reflexivity].
      + cbn. lia.
      + cbn. lia.
      + lia.
    - eexists. exists v. split; [reflexivity|]. split; [|split; [|split; [|split; [|split]]]].
      + intros m. unfold get_var. cbn [with_vars g_vars set_obj g_next]. rewrite find_emplace. fold (get_var T m).
        destruct (String.eqb_spec m t) as [->|]; [now rewrite Gt|]. destruct (get_var T m); reflexivity.
      + unfold shown. cbn. rewrite Nat.eqb_refl. cbn. unfold as_var. cbn. now rewrite Ep.
      + intros w Dw Lw. cbn. destruct (Nat.eqb_spec w v); [congruence|reflexivity].
      + cbn. lia.
      + cbn. lia.
      + lia.
  Qed.
  Lemma taken_get : forall g n, taken g n = false <-> get_var g n = None.
  Proof. intros. unfold taken. destruct (get_var g n); split; congruence. Qed.
  Lemma base_inj : forall a b, prefix <> EmptyString -> base_name prefix a = base_name prefix b -> a = b.
  Proof. unfold base_name. intros a b N. destruct prefix; [congruence|]. intros H. apply app_inj_s in H. cbn in H. now injection H. Qed.
  Lemma all_ok : prefix <> EmptyString -> forall l top0 T,
    incl l (g_vars child) -> NoDup (map fst l) -> NoDup (map snd l) ->
    (forall k v, In (k, v) l -> (v < g_next T)%nat /\ o_width (g_heap T v) <> 0 /\ valid (moved_name top0 prefix k) = true
                               /\ taken T k = taken top0 k /\ taken T (moved_name top0 prefix k) = false
                               /\ forall m, get_var T m <> Some v) ->
    (forall m u, get_var T m = Some u -> (u < g_next T)%nat) ->
    exists T', fold_left (transfer_one valid child prefix) l (T, Ok tt) = (T', Ok tt)
      /\ (forall m u, get_var T m = Some u -> get_var T' m = Some u /\ shown T' u = shown T u)
      /\ (forall k v, In (k, v) l -> lookup T' (moved_name top0 prefix k) = Some (as_var (shown T v)))
      /\ (forall m, get_var T m = None -> get_var T' m <> None -> exists k, In k (map fst l) /\ m = moved_name top0 prefix k).
  Proof.
    intros Np. induction l as [|[k v] r IH]; intros top0 T Inc N1 N2 H HL.
    - exists T. split; [reflexivity|]. split; [auto|]. split; [intros k v []|congruence].
    - cbn in N1, N2. inversion N1 as [|? ? K1 N1']; subst. inversion N2 as [|? ? K2 N2']; subst.
      destruct (H k v (or_introl eq_refl)) as (Lv & Wv & Va & Tk & Tm & Fv).
      assert (moved_name T prefix k = moved_name top0 prefix k) as Em by (unfold moved_name; now rewrite Tk).
      assert (forall k' v', In (k', v') (g_vars child) -> In k' (map fst (g_vars child))) as Ik by (intros ? ? J; apply (in_map fst) in J; exact J).
      destruct (one_ok T k v) as (T1 & u & E & G & S & Hh & Ln & Lu & Du).
      + eapply Ik, Inc. now left.
      + exact Lv.
      + now rewrite Em.
      + now rewrite Em.
      + exact Wv.
      + rewrite Em in G. cbn [fold_left]. rewrite E.
        assert (forall k' v', In (k', v') r -> moved_name top0 prefix k' <> moved_name top0 prefix k /\ k' <> moved_name top0 prefix k) as Dm.
        { intros k' v' J. assert (k' <> k) as Dk by (intros ->; apply K1; apply (in_map fst) in J; exact J).
          assert (In k' (map fst (g_vars child))) as I1 by (eapply Ik, Inc; right; eauto).
          assert (In k (map fst (g_vars child))) as I2 by (eapply Ik, Inc; left; eauto).
          assert (forall x y, In x (map fst (g_vars child)) -> In y (map fst (g_vars child)) -> base_name prefix x <> y) as Fb.
          { intros x y Ix Iy Q. subst y. apply taken_in in Iy. rewrite (free x Ix) in Iy. discriminate. }
          unfold moved_name. destruct (taken top0 k'), (taken top0 k); split; intros Q.
          - apply base_inj in Q; auto.
          - now apply (Fb _ _ I2 I1).
          - now apply (Fb _ _ I1 I2).
          - auto.
          - now apply (Fb _ _ I2 I1).
          - now apply (Fb _ _ I2 I1).
          - auto.
          - auto. }
        assert (forall k' v', In (k', v') r -> v' <> v) as Dv by (intros k' v' J ->; apply K2; apply (in_map snd) in J; exact J).
        destruct (IH top0 T1) as (T' & E' & P1 & P2 & P3); auto.
        * intros x Hx. apply Inc. now right.
        * intros k' v' J. destruct (H k' v' (or_intror J)) as (L1 & W1 & V1 & X1 & Y1 & Z1).
          destruct (Dm k' v' J) as [D1 D2]. split; [lia|]. rewrite Hh by eauto. split; [assumption|]. split; [assumption|].
          assert (forall m, m <> moved_name top0 prefix k -> taken T1 m = taken T m) as Tt.
          { intros m Dx. unfold taken. rewrite G. destruct (String.eqb_spec m (moved_name top0 prefix k)); [congruence|reflexivity]. }
          rewrite !Tt by assumption. split; [assumption|]. split; [assumption|].
          intros m. rewrite G. destruct (String.eqb_spec m (moved_name top0 prefix k)); [|apply Z1].
          intros Q. injection Q as ->. apply Dv in J. lia.
        * intros m u'. rewrite G. destruct (String.eqb_spec m (moved_name top0 prefix k)).
          -- intros Q. injection Q as <-. exact Lu.
          -- intros Q. apply HL in Q. lia.
        * exists T'. split; [exact E'|]. split; [|split].
          -- intros m u' Q. assert (u' <> v) as Du' by (intros ->; eapply Fv; eauto).
             assert (m <> moved_name top0 prefix k) as Dmm by (intros ->; apply taken_get in Tm; congruence).
             destruct (P1 m u') as [Q1 Q2].
             { rewrite G. destruct (String.eqb_spec m (moved_name top0 prefix k)); [congruence|exact Q]. }
             split; [exact Q1|]. rewrite Q2. unfold shown. rewrite Hh; auto. eapply HL; eauto.
          -- intros k' v' [Q|J].
             ++ injection Q as <- <-. destruct (P1 (moved_name top0 prefix k) u) as [Q1 Q2].
                { rewrite G. now rewrite String.eqb_refl. }
                unfold lookup. rewrite Q1. cbn [option_map]. now rewrite Q2, S.
             ++ rewrite (P2 k' v' J). f_equal. unfold shown. rewrite Hh; eauto. eapply H. right. eauto.
          -- intros m Q1 Q2. destruct (String.string_dec m (moved_name top0 prefix k)) as [->|Dmm].
             ++ exists k. split; [now left|reflexivity].
             ++ destruct (P3 m) as (k' & J & ->); auto.
                { rewrite G. destruct (String.eqb_spec m (moved_name top0 prefix k)); [congruence|exact Q1]. }
                exists k'. split; [now right|reflexivity].
  Qed.
End transfer.
