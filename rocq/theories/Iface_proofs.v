From Coq Require Import Permutation Sorted.
From Verif Require Import Base Decl_spec Decl_model Decl_proofs Call_model Call_proofs Iface_spec Iface_model.
Local Open Scope list_scope.

Lemma mem_in : forall n l, mem n l = true <-> In n l.
Proof. intros n l. unfold mem. rewrite existsb_exists. split; [intros (m & H & E); apply String.eqb_eq in E; now subst|intros H; exists n; split; [auto|apply String.eqb_refl]]. Qed.
Lemma set_add_in : forall n m l, In m (set_add n l) <-> m = n \/ In m l.
Proof.
  intros n m l. unfold set_add. destruct (mem n l) eqn:E; [apply mem_in in E; split; [auto|intros [->|H]; auto]|].
  rewrite in_app_iff. cbn. intuition auto.
Qed.
Lemma set_add_nodup : forall n l, NoDup l -> NoDup (set_add n l).
Proof.
  intros n l N. unfold set_add. destruct (mem n l) eqn:E; [exact N|]. apply nodup_app2; [exact N|repeat constructor; auto|].
  intros x Hx [<-|[]]. apply mem_in in Hx. congruence.
Qed.
Lemma has_in {V} : forall n (l : list (string * V)), has n l = true <-> In n (map fst l).
Proof.
  intros n l. unfold has. destruct (find n l) eqn:E.
  - split; [intros _|auto]. apply find_in in E. apply in_map_iff. exists (n, v). auto.
  - apply find_none in E. split; [discriminate|tauto].
Qed.
Lemma update_names {V} : forall n v (l : list (string * V)), map fst (update n v l) = map fst l.
Proof. induction l as [|(m, w) l IH]; cbn; [reflexivity|]. destruct (String.eqb n m); cbn; [reflexivity|now rewrite IH]. Qed.
Lemma update_in {V} : forall n (v : V) l m w, In (m, w) (update n v l) -> In (m, w) l \/ (m = n /\ w = v).
Proof.
  induction l as [|(k, x) l IH]; cbn; intros m w H; [easy|]. destruct (String.eqb_spec n k).
  - destruct H as [H|H]; [injection H as <- <-; subst; auto|auto].
  - destruct H as [H|H]; [auto|]. destruct (IH m w H); auto.
Qed.

Definition side (ok : dir -> bool) (d : idef) (n : string) : Prop := match find n (i_ports d) with Some p => ok (ip_dir p) = true | None => has n (i_vars d) = true end.
Definition inv (d : idef) : Prop :=
  NoDup (map fst (i_ports d)) /\ NoDup (map fst (i_vars d)) /\ NoDup (map fst (i_mods d)) /\
  forall m md, In (m, md) (i_mods d) -> NoDup (m_in md) /\ NoDup (m_out md) /\
    (forall n, In n (m_in md) -> side is_in d n \/ has n (i_vars d) = true) /\ (forall n, In n (m_out md) -> side is_out d n \/ has n (i_vars d) = true).
(* a port may be added under the name of a variable that is in a modport already *)
Lemma find_app {V} : forall n (l r : list (string * V)), find n (l ++ r) = match find n l with Some v => Some v | None => find n r end.
Proof. induction l as [|(m, w) l IH]; cbn; intros r; [reflexivity|]. destruct (String.eqb n m); auto. Qed.
Lemma has_app {V} : forall n (l r : list (string * V)), has n l = true -> has n (l ++ r) = true.
Proof. intros n l r. rewrite !has_in, map_app, in_app_iff. auto. Qed.
Lemma nodup_snoc {V} : forall (l : list (string * V)) n v, NoDup (map fst l) -> has n l = false -> NoDup (map fst (l ++ [(n, v)])).
Proof.
  intros l n v N H. rewrite map_app. apply nodup_app2; [exact N|repeat constructor; auto|]. intros x Hx [<-|[]]. apply has_in in Hx. cbn in Hx. congruence.
Qed.
Lemma istep_inv : forall d x e, inv d -> istep d x = Ok e -> inv e.
Proof.
  intros d x e (Np & Nv & Nm & M) H. destruct x as [n p|n v|n|m n|m n]; cbn in H.
  - destruct (has n (i_ports d)) eqn:E; [discriminate|]. injection H as <-. split; [now apply nodup_snoc|]. split; [exact Nv|]. split; [exact Nm|].
    intros m md Hm. destruct (M m md Hm) as (A & B & C & D). cbn. split; [exact A|]. split; [exact B|].
    assert (K : forall ok k, side ok d k \/ has k (i_vars d) = true -> side ok {| i_name := i_name d; i_ports := i_ports d ++ [(n, p)]; i_vars := i_vars d; i_mods := i_mods d |} k \/ has k (i_vars d) = true).
    { intros ok k [H|H]; [|auto]. unfold side in *. cbn. rewrite find_app. destruct (find k (i_ports d)); [left; exact H|right; exact H]. }
    split; intros k Hk; apply K; auto.
  - destruct (has n (i_vars d)) eqn:E; [discriminate|]. injection H as <-. split; [exact Np|]. split; [now apply nodup_snoc|]. split; [exact Nm|].
    intros m md Hm. destruct (M m md Hm) as (A & B & C & D). cbn. split; [exact A|]. split; [exact B|].
    assert (K : forall ok k, side ok d k \/ has k (i_vars d) = true -> side ok {| i_name := i_name d; i_ports := i_ports d; i_vars := i_vars d ++ [(n, v)]; i_mods := i_mods d |} k \/ has k (i_vars d ++ [(n, v)]) = true).
    { intros ok k [H|H]; [|right; now apply has_app]. unfold side in *. cbn. destruct (find k (i_ports d)); [auto|right; now apply has_app]. }
    split; intros k Hk; apply K; auto.
  - destruct (has n (i_mods d)) eqn:E; [discriminate|]. injection H as <-. split; [exact Np|]. split; [exact Nv|]. split; [now apply nodup_snoc|].
    cbn. intros m md Hm. apply in_app_iff in Hm as [Hm|[Hm|[]]]; [apply (M m md Hm)|]. injection Hm as <- <-. cbn. repeat split; try constructor; easy.
  - unfold set_dir in H. destruct (find m (i_mods d)) as [md|] eqn:F; [|discriminate]. apply find_in in F. destruct (M m md F) as (A & B & C & D).
    assert (Put : side is_in d n -> inv {| i_name := i_name d; i_ports := i_ports d; i_vars := i_vars d; i_mods := update m (add_in md n) (i_mods d) |}).
    { intros Sd. split; [exact Np|]. split; [exact Nv|]. cbn. rewrite update_names. split; [exact Nm|]. intros k kd Hk.
      apply update_in in Hk as [Hk|[-> ->]]; [apply (M k kd Hk)|]. cbn. split; [now apply set_add_nodup|]. split; [exact B|]. split; [|exact D].
      intros q Hq. apply set_add_in in Hq as [->|Hq]; [left; exact Sd|apply C; exact Hq]. }
    unfold side in Put. destruct (find n (i_ports d)) as [p|] eqn:Fp.
    + destruct (is_in (ip_dir p)) eqn:Ei; [|discriminate]. injection H as <-. auto.
    + destruct (has n (i_vars d)) eqn:Ev; injection H as <-; auto. repeat split; auto; apply (M _ _ H).
  - unfold set_dir in H. destruct (find m (i_mods d)) as [md|] eqn:F; [|discriminate]. apply find_in in F. destruct (M m md F) as (A & B & C & D).
    assert (Put : side is_out d n -> inv {| i_name := i_name d; i_ports := i_ports d; i_vars := i_vars d; i_mods := update m (add_out md n) (i_mods d) |}).
    { intros Sd. split; [exact Np|]. split; [exact Nv|]. cbn. rewrite update_names. split; [exact Nm|]. intros k kd Hk.
      apply update_in in Hk as [Hk|[-> ->]]; [apply (M k kd Hk)|]. cbn. split; [exact A|]. split; [now apply set_add_nodup|]. split; [exact C|].
      intros q Hq. apply set_add_in in Hq as [->|Hq]; [left; exact Sd|apply D; exact Hq]. }
    unfold side in Put. destruct (find n (i_ports d)) as [p|] eqn:Fp.
    + destruct (is_out (ip_dir p)) eqn:Ei; [|discriminate]. injection H as <-. auto.
    + destruct (has n (i_vars d)) eqn:Ev; injection H as <-; auto. repeat split; auto; apply (M _ _ H).
Qed.
Lemma isteps_inv : forall l d e, inv d -> isteps d l = Ok e -> inv e.
Proof. induction l as [|x l IH]; cbn; intros d e I H; [congruence|]. apply obind_Ok in H as (k & Hk & H). eapply IH; [eapply istep_inv; eauto|exact H]. Qed.
Lemma new_idef_inv : forall n, inv (new_idef n).
Proof. intros n. unfold inv, new_idef. cbn. repeat split; try constructor; easy. Qed.
Lemma istep_port_kept : forall d x e n p, istep d x = Ok e -> find n (i_ports d) = Some p -> find n (i_ports e) = Some p.
Proof.
  intros d x e n p H F. destruct x as [k q|k v|k|m k|m k]; cbn in H.
  - destruct (has _ _); [discriminate|]. injection H as <-. cbn. now rewrite find_app, F.
  - destruct (has _ _); [discriminate|]. now injection H as <-.
  - destruct (has _ _); [discriminate|]. now injection H as <-.
  - unfold set_dir in H. destruct (find m _); [|discriminate]. destruct (find k _); [destruct (is_in _); [|discriminate]|destruct (has _ _)]; now injection H as <-.
  - unfold set_dir in H. destruct (find m _); [|discriminate]. destruct (find k _); [destruct (is_out _); [|discriminate]|destruct (has _ _)]; now injection H as <-.
Qed.
Lemma isteps_port_kept : forall l d e n p, isteps d l = Ok e -> find n (i_ports d) = Some p -> find n (i_ports e) = Some p.
Proof. induction l as [|x l IH]; cbn; intros d e n p H F; [congruence|]. apply obind_Ok in H as (k & Hk & H). eapply IH; [exact H|]. eapply istep_port_kept; eauto. Qed.
Lemma isteps_ports : forall l d e n p, isteps d l = Ok e -> In (DPort n p) l -> find n (i_ports e) = Some p.
Proof.
  induction l as [|x l IH]; cbn; intros d e n p H I; [easy|]. apply obind_Ok in H as (k & Hk & H). destruct I as [->|I]; [|eauto].
  eapply isteps_port_kept; [exact H|]. cbn in Hk. destruct (has n (i_ports d)) eqn:E; [discriminate|]. injection Hk as <-. cbn. rewrite find_app.
  unfold has in E. destruct (find n (i_ports d)); [discriminate|]. cbn. now rewrite String.eqb_refl.
Qed.

(* lists with commas *)
Lemma commas_ok {A} : forall (l : list A) c, commas c (c + List.length l) l = comma_list l.
Proof.
  induction l as [|a l IH]; intros c; cbn [commas comma_list]; [reflexivity|]. destruct l as [|b l].
  - replace (c + List.length [a])%nat with (S c) by (cbn; lia). rewrite Nat.eqb_refl. reflexivity.
  - destruct (Nat.eqb_spec (S c) (c + List.length (a :: b :: l))); [cbn in *; lia|]. cbn [app]. f_equal. f_equal.
    replace (c + List.length (a :: b :: l))%nat with (S c + List.length (b :: l))%nat by (cbn; lia). apply IH.
Qed.
Lemma commas_last {A} : forall (l : list A) c s, l <> [] -> (c + List.length l <> s)%nat -> exists r, commas c s l = r ++ [LComma].
Proof.
  induction l as [|a l IH]; intros c s Ne H; [congruence|]. cbn [commas]. destruct l as [|b l].
  - destruct (Nat.eqb_spec (S c) s); [cbn in H; lia|]. exists [LItem a]. reflexivity.
  - destruct (IH (S c) s) as (r & E); [congruence|cbn in *; lia|]. rewrite E. exists (LItem a :: (if Nat.eqb (S c) s then [] else [LComma]) ++ r).
    cbn [app]. now rewrite <- app_assoc.
Qed.
Lemma comma_list_last {A} : forall (l : list A) r, comma_list l <> r ++ [LComma].
Proof.
  induction l as [|a l IH]; intros r E; cbn in E; [now destruct r|]. destruct l as [|b l].
  - destruct r as [|x [|y r]]; cbn in E; [discriminate|discriminate|]. injection E as _ E. discriminate.
  - destruct r as [|x r]; cbn in E; [discriminate|]. injection E as _ E. destruct r as [|y r]; [destruct l; discriminate|]. injection E as _ E.
    exact (IH r E).
Qed.
Lemma mod_names_acc : forall l s, NoDup s -> NoDup (fold_left (fun s n => set_add n s) l s) /\ (forall n, In n (fold_left (fun s n => set_add n s) l s) <-> In n l \/ In n s).
Proof.
  induction l as [|a l IH]; intros s N; cbn; [split; [exact N|tauto]|]. destruct (IH (set_add a s) (set_add_nodup a s N)) as (A & B). split; [exact A|].
  intros n. rewrite B, set_add_in. intuition auto.
Qed.
Lemma mod_names_in : forall md n, NoDup (m_in md) -> In n (mod_names md) <-> In n (m_in md) \/ In n (m_out md).
Proof. intros md n N. unfold mod_names. rewrite (proj2 (mod_names_acc (m_out md) (m_in md) N)). tauto. Qed.
Lemma mod_names_disjoint : forall l s, NoDup l -> (forall n, In n l -> ~ In n s) -> fold_left (fun s n => set_add n s) l s = s ++ l.
Proof.
  induction l as [|a l IH]; intros s N D; cbn; [now rewrite app_nil_r|]. inversion N; subst. unfold set_add at 2.
  destruct (mem a s) eqn:E; [apply mem_in in E; destruct (D a (or_introl eq_refl) E)|]. rewrite IH; [now rewrite <- app_assoc| auto|].
  intros n Hn Hs. apply in_app_iff in Hs as [Hs|[->|[]]]; [exact (D n (or_intror Hn) Hs)|auto].
Qed.
Lemma set_add_len : forall n s, (List.length (set_add n s) <= S (List.length s))%nat.
Proof. intros n s. unfold set_add. destruct (mem n s); [lia|]. rewrite app_length. cbn. lia. Qed.
Lemma mod_len : forall l s, (List.length (fold_left (fun s n => set_add n s) l s) <= List.length l + List.length s)%nat.
Proof. induction l as [|a l IH]; intros s; cbn; [lia|]. specialize (IH (set_add a s)). pose proof (set_add_len a s). lia. Qed.
Lemma mod_len_lt : forall l s n, In n l -> In n s -> (List.length (fold_left (fun s n => set_add n s) l s) < List.length l + List.length s)%nat.
Proof.
  induction l as [|a l IH]; intros s n Hl Hs; [easy|]. cbn. destruct Hl as [->|Hl].
  - assert (Q : set_add n s = s) by (unfold set_add; apply mem_in in Hs; now rewrite Hs). pose proof (mod_len l s) as L. rewrite Q. lia.
  - assert (K : In n (set_add a s)) by (apply set_add_in; auto). pose proof (IH (set_add a s) n Hl K). pose proof (set_add_len a s). lia.
Qed.

(* sorting keeps to keys *)
Lemma sinsert_map {A B} (f : A -> B) (lt : B -> B -> bool) a : forall l,
  map f (sinsert (fun x y => lt (f x) (f y)) a l) = sinsert lt (f a) (map f l).
Proof. induction l as [|b l IH]; cbn; [reflexivity|]. destruct (lt (f a) (f b)); cbn; [reflexivity|now rewrite IH]. Qed.
Lemma ssort_map {A B} (f : A -> B) (lt : B -> B -> bool) : forall l, map f (ssort (fun x y => lt (f x) (f y)) l) = ssort lt (map f l).
Proof.
  intros l. unfold ssort. change (@nil B) with (map f []). generalize (@nil A) as acc. induction l as [|a l IH]; intros acc; cbn [fold_left map]; [reflexivity|].
  rewrite IH. now rewrite sinsert_map.
Qed.
Lemma in_order_names {V} : forall l : list (string * V), map fst (in_order l) = set_order (map fst l).
Proof. intros l. unfold in_order, set_order. apply (ssort_map fst str_ltb). Qed.
Lemma assoc_eq {V} : forall a b : list (string * V), NoDup (map fst a) -> map fst a = map fst b -> (forall n, In n (map fst a) -> find n a = find n b) -> a = b.
Proof.
  induction a as [|(n, v) a IH]; intros [|(m, w) b] N E F; cbn in *; try discriminate; [reflexivity|]. injection E as <- E. inversion N; subst.
  pose proof (F n (or_introl eq_refl)) as F0. rewrite String.eqb_refl in F0. injection F0 as <-. f_equal. apply IH; auto.
  intros k Hk. specialize (F k (or_intror Hk)). destruct (String.eqb_spec k n); [congruence|exact F].
Qed.
Lemma find_perm {V} : forall (a b : list (string * V)) n, NoDup (map fst a) -> Permutation a b -> find n a = find n b.
Proof.
  intros a b n N P. assert (Nb : NoDup (map fst b)) by (eapply Permutation_NoDup; [apply Permutation_map; exact P|exact N]).
  destruct (find n a) as [v|] eqn:E.
  - symmetry. apply find_nodup; [exact Nb|]. eapply Permutation_in; [exact P|now apply find_in].
  - symmetry. apply find_none. apply find_none in E. intros H. apply E. eapply Permutation_in; [symmetry; apply Permutation_map; exact P|exact H].
Qed.
Lemma pairs_eq {A} (eqb : A -> A -> bool) (ok : forall a b, eqb a b = true -> a = b) : forall a b,
  Nat.eqb (List.length a) (List.length b) && forallb (fun p => eqb (fst p) (snd p)) (combine a b) = true -> a = b.
Proof.
  induction a as [|x a IH]; intros [|y b] H; cbn in *; try discriminate; [reflexivity|]. apply andb_true_iff in H as [L H]. apply andb_true_iff in H as [X H].
  f_equal; [now apply ok|]. apply IH. now rewrite L, H.
Qed.
Lemma names_eqb_eq : forall a b, names_eqb a b = true -> a = b.
Proof. apply pairs_eq. intros a b. apply String.eqb_eq. Qed.
Lemma zs_eqb_eq : forall a b, zs_eqb a b = true -> a = b.
Proof. apply pairs_eq. intros a b. apply Z.eqb_eq. Qed.
Lemma iport_eqb_eq : forall a b, iport_eqb a b = true -> a = b.
Proof.
  intros [w s d t] [w' s' d' t'] H. unfold iport_eqb in H. cbn in H. repeat apply andb_true_iff in H as [H ?].
  apply Z.eqb_eq in H. apply zs_eqb_eq in H2. apply Nat.eqb_eq in H0. subst. f_equal. destruct d, d'; cbn in H1; congruence.
Qed.
Lemma ivar_eqb_eq : forall a b, ivar_eqb a b = true -> a = b.
Proof. intros [w s] [w' s'] H. unfold ivar_eqb in H. cbn in H. apply andb_true_iff in H as [H ?]. apply Z.eqb_eq in H. apply zs_eqb_eq in H0. now subst. Qed.
Lemma opt_eqb_eq {A} (f : A -> A -> bool) : (forall a b, f a b = true -> a = b) -> forall a b, opt_eqb f a b = true -> a = b.
Proof. intros H [a|] [b|]; cbn; intros E; try discriminate; [now rewrite (H a b E)|reflexivity]. Qed.
Lemma same_whole : forall r u, inv (u_def r) -> inv (u_def u) -> u_mod r = None -> u_mod u = None -> same_interface r u = true ->
  in_order (i_ports (u_def r)) = in_order (i_ports (u_def u)) /\ in_order (i_vars (u_def r)) = in_order (i_vars (u_def u)).
Proof.
  intros r u (Npr & Nvr & _) (Npu & Nvu & _) Er Eu H. unfold same_interface, port_names, var_names, port_of, var_of in H. rewrite Er, Eu in H.
  rewrite !andb_true_iff in H. destruct H as [[[H H2] H1] H0]. apply names_eqb_eq in H, H1. rewrite forallb_forall in H0, H2. rewrite <- !in_order_names in *. split.
  - apply assoc_eq; [eapply Permutation_NoDup; [apply Permutation_map, in_order_perm|exact Npr]|exact H|]. intros n Hn. rewrite H in Hn.
    specialize (H2 n Hn). apply (opt_eqb_eq _ iport_eqb_eq) in H2. rewrite <- (find_perm _ _ n Npr (in_order_perm _)), <- (find_perm _ _ n Npu (in_order_perm _)). auto.
  - apply assoc_eq; [eapply Permutation_NoDup; [apply Permutation_map, in_order_perm|exact Nvr]|exact H1|]. intros n Hn. rewrite H1 in Hn.
    specialize (H0 n Hn). apply (opt_eqb_eq _ ivar_eqb_eq) in H0. rewrite <- (find_perm _ _ n Nvr (in_order_perm _)), <- (find_perm _ _ n Nvu (in_order_perm _)). auto.
Qed.
Lemma visit_keeps : forall l seen out n r, visit seen l = Ok out -> find n seen = Some r -> find n out = Some r.
Proof.
  induction l as [|f l IH]; cbn; intros seen out n r H E; [congruence|]. destruct (find (def_name f) seen) as [ref|] eqn:F.
  - destruct (same_interface ref f); [|discriminate]. eauto.
  - apply (IH _ _ _ _ H). rewrite find_emplace, E. reflexivity.
Qed.
Lemma visit_every : forall l seen out u, visit seen l = Ok out -> In u l -> exists r, find (def_name u) out = Some r /\ (r = u \/ same_interface r u = true).
Proof.
  induction l as [|g l IH]; cbn; intros seen out u H I; [easy|]. destruct (find (def_name g) seen) as [ref|] eqn:F.
  - destruct (same_interface ref g) eqn:Ag; [|discriminate]. destruct I as [->|I]; [|eauto]. exists ref. split; [|auto]. now apply (visit_keeps l seen).
  - destruct I as [->|I]; [|eauto]. exists u. split; [|auto]. apply (visit_keeps l _ _ _ _ H). rewrite find_emplace, F. now rewrite String.eqb_refl.
Qed.
Lemma visit_origin : forall l seen out, visit seen l = Ok out -> NoDup (map fst seen) -> (forall n r, In (n, r) seen -> def_name r = n) ->
  NoDup (map fst out) /\ (forall n r, In (n, r) out -> def_name r = n /\ (In (n, r) seen \/ In r l)).
Proof.
  induction l as [|g l IH]; cbn; intros seen out H N K; [injection H as <-; split; [exact N|]; intros n r Hr; split; [now apply K|now left]|].
  destruct (find (def_name g) seen) as [ref|] eqn:F.
  - destruct (same_interface ref g) eqn:Ag; [|discriminate]. destruct (IH _ _ H N K) as (A & B). split; [exact A|]. intros n r Hr.
    destruct (B n r Hr) as (X & [Y|Y]); auto.
  - assert (K' : forall n r, In (n, r) (emplace (def_name g) g seen) -> def_name r = n /\ (In (n, r) seen \/ r = g)).
    { intros n r. unfold emplace. rewrite F, in_app_iff. intros [X|[X|[]]]; [split; [now apply K|auto]|]. injection X as <- <-. auto. }
    destruct (IH _ _ H (emplace_nodup _ _ _ N)) as (A & B). { intros n r X. apply (K' n r X). }
    split; [exact A|]. intros n r Hr. destruct (B n r Hr) as (X & [Y|Y]); split; auto. destruct (K' n r Y) as (_ & [Q | ->]); auto.
Qed.
