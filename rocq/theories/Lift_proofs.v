From Coq Require Import Permutation.
From Verif Require Import Base Lift_spec Lift_model.
Local Open Scope nat_scope.

Lemma key_eqb_eq : forall a b, key_eqb a b = true <-> a = b.
Proof.
  intros [v|v j|x] [w|w k|y]; cbn; try (split; discriminate).
  - rewrite Nat.eqb_eq. split; congruence.
  - rewrite andb_true_iff, !Nat.eqb_eq. split; [intros [-> ->]; reflexivity|intros E; inversion E; auto].
  - rewrite Z.eqb_eq. split; congruence.
Qed.
Lemma key_eqb_refl : forall a, key_eqb a a = true.
Proof. intros a. now apply key_eqb_eq. Qed.
Definition key_of (n : net) : key := match n with Whole v | Bit v _ | Part v _ _ => KSig v | Deep v j _ => KElem v j | Lit z => KLit z end.
Lemma update_keys : forall k f m, map fst (update k f m) = if existsb (key_eqb k) (map fst m) then map fst m else map fst m ++ [k].
Proof.
  intros k f. induction m as [|[k' l] r IH]; [reflexivity|]. cbn [update map fst existsb]. destruct (key_eqb k k') eqn:E; [reflexivity|]. cbn [map fst]. rewrite IH. now destruct (existsb (key_eqb k) (map fst r)).
Qed.
Lemma note_keys : forall n m m', note n m = Some m' -> In (key_of n) (map fst m') /\ incl (map fst m) (map fst m').
Proof.
  assert (forall k f m, In k (map fst (update k f m)) /\ incl (map fst m) (map fst (update k f m))) as U.
  { intros k f m. rewrite update_keys. destruct (existsb (key_eqb k) (map fst m)) eqn:E.
    - apply existsb_exists in E. destruct E as (k' & I & E). apply key_eqb_eq in E. subst. split; [exact I|apply incl_refl].
    - split; [apply in_or_app; right; now left|apply incl_appl, incl_refl]. }
  intros [v|v k|v hi lo|v j k|z] m m' E; cbn in E; inversion E; subst; apply U.
Qed.
Lemma note_all_keys : forall ns m m', note_all ns m = Some m' -> incl (map fst m) (map fst m') /\ forall n, In n ns -> In (key_of n) (map fst m').
Proof.
  induction ns as [|n r IH]; intros m m' E; cbn [note_all] in E; [inversion E; subst; split; [apply incl_refl|intros n []]|]. destruct (note n m) as [m1|] eqn:N; [|discriminate].
  destruct (IH _ _ E) as [A B]. destruct (note_keys _ _ _ N) as [C D]. split; [eapply incl_tran; eassumption|]. intros n' [->|I]; [apply A, C|apply B, I].
Qed.
Lemma note_all_bits : forall v ks acc, note_all (map (Bit v) ks) [(KSig v, acc)] = Some [(KSig v, fold_left (fun a k => emplace k a) ks acc)].
Proof. intros v. induction ks as [|k r IH]; intros acc; [reflexivity|]. cbn [map note_all note update fold_left]. rewrite key_eqb_refl. apply IH. Qed.
Lemma note_all_bits0 : forall v ks, ks <> [] -> note_all (map (Bit v) ks) [] = Some [(KSig v, fold_left (fun a k => emplace k a) ks [])].
Proof. intros v [|k r] Hk; [contradiction|]. cbn [map note_all note update fold_left]. apply note_all_bits. Qed.
Lemma note_all_same : forall n, note n [] = Some [(key_of n, [])] -> note n [(key_of n, [])] = Some [(key_of n, [])] -> forall l : list net, l <> [] -> (forall x, In x l -> x = n) -> note_all l [] = Some [(key_of n, [])].
Proof.
  intros n E1 E2 [|x r] Hl A; [contradiction|]. rewrite (A x (or_introl eq_refl)). cbn [note_all]. rewrite E1. assert (forall y, In y r -> y = n) as B by (intros y I; apply A; now right).
  clear A Hl E1. induction r as [|y r IH]; [reflexivity|]. cbn [note_all]. rewrite (B y (or_introl eq_refl)), E2. apply IH. intros z I. apply B. now right.
Qed.
Lemma emplace_in : forall k l x, In x (emplace k l) <-> x = k \/ In x l.
Proof.
  intros k l x. unfold emplace. destruct (existsb (Nat.eqb k) l) eqn:E.
  - apply existsb_exists in E. destruct E as (y & I & E). apply Nat.eqb_eq in E. subst y. split; [auto|intros [-> | I']; auto].
  - rewrite in_app_iff. cbn. intuition congruence.
Qed.
Lemma emplace_all_in : forall ks acc x, In x (fold_left (fun a k => emplace k a) ks acc) <-> In x ks \/ In x acc.
Proof. induction ks as [|k r IH]; intros acc x; cbn [fold_left]; [cbn; tauto|]. rewrite IH, emplace_in. cbn. intuition congruence. Qed.
Lemma emplace_nodup : forall k l, NoDup l -> NoDup (emplace k l).
Proof.
  intros k l Hn. unfold emplace. destruct (existsb (Nat.eqb k) l) eqn:E; [exact Hn|]. apply (Permutation_NoDup (Permutation_cons_append l k)). constructor; [|exact Hn].
  intros I. assert (existsb (Nat.eqb k) l = true) by (apply existsb_exists; exists k; split; [exact I|apply Nat.eqb_refl]). congruence.
Qed.
Lemma emplace_all_nodup : forall ks acc, NoDup acc -> NoDup (fold_left (fun a k => emplace k a) ks acc).
Proof. induction ks as [|k r IH]; intros acc Hn; cbn [fold_left]; [exact Hn|]. apply IH, emplace_nodup, Hn. Qed.
Lemma seq_in_forallb : forall ls n, forallb (fun i => existsb (Nat.eqb i) ls) (seq 0 n) = true <-> incl (seq 0 n) ls.
Proof.
  intros ls n. rewrite forallb_forall. split; intros A i I.
  - apply A in I. apply existsb_exists in I. destruct I as (y & I & E). apply Nat.eqb_eq in E. now subst.
  - apply existsb_exists. exists i. split; [apply A, I|apply Nat.eqb_refl].
Qed.
(* the nets of a port *)
Lemma net_reached : forall p n, net_of p = Ok n <-> reached p = Some n.
Proof. intros p n. unfold net_of, reached. destruct (pl_net p); split; intros E; inversion E; reflexivity. Qed.
Lemma net_open : forall p, net_of p = UB <-> reached p = None.
Proof. intros p. unfold net_of, reached. destruct (pl_net p); split; intros E; inversion E; reflexivity. Qed.
Definition plug_of (port : nat) (i : inst) : option plug := find (fun p => Nat.eqb (pl_port p) port) (n_plugs i).
Definition reach (port : nat) (i : inst) : option net := match plug_of port i with Some p => reached p | None => None end.
Lemma plug_in : forall port i, In port (map pl_port (n_plugs i)) -> exists p, plug_of port i = Some p /\ In p (n_plugs i) /\ pl_port p = port.
Proof.
  intros port i I. apply in_map_iff in I. destruct I as (p & E & I). unfold plug_of. destruct (find (fun p0 => Nat.eqb (pl_port p0) port) (n_plugs i)) as [q|] eqn:F.
  - exists q. split; [reflexivity|]. apply find_some in F. destruct F as [F1 F2]. apply Nat.eqb_eq in F2. auto.
  - apply (find_none _ _ F) in I. apply Nat.eqb_neq in I. contradiction.
Qed.
Lemma plug_unique : forall i p, NoDup (map pl_port (n_plugs i)) -> In p (n_plugs i) -> plug_of (pl_port p) i = Some p.
Proof.
  intros i p. unfold plug_of. induction (n_plugs i) as [|q r IH]; [intros _ []|]. cbn [map]. intros Hn I. inversion Hn; subst. cbn [find]. destruct (Nat.eqb_spec (pl_port q) (pl_port p)) as [E|E].
  - destruct I as [->|I]; [reflexivity|]. exfalso. apply H1. rewrite E. now apply in_map.
  - destruct I as [->|I]; [congruence|auto].
Qed.
Lemma nets_ok : forall port is ns, (forall i, In i is -> In port (map pl_port (n_plugs i))) -> (nets_of port is = Ok ns <-> map (reach port) is = map Some ns).
Proof.
  intros port. induction is as [|i r IH]; intros ns A; cbn [nets_of map].
  - split; [intros E; inversion E; reflexivity|]. destruct ns; [reflexivity|discriminate].
  - destruct (plug_in port i (A i (or_introl eq_refl))) as (p & E & _ & _). unfold plug_of in E. rewrite E. unfold reach at 1. unfold plug_of. rewrite E. assert (forall j, In j r -> In port (map pl_port (n_plugs j))) as B by (intros; apply A; now right).
    destruct (net_of p) as [n| |] eqn:N; cbn [obind].
    + apply net_reached in N. rewrite N. destruct (nets_of port r) as [t| |] eqn:T; cbn [obind].
      * pose proof (proj1 (IH t B) eq_refl) as U. rewrite U. destruct ns as [|n' ns]; cbn [map]; split; intros X; inversion X; subst; try reflexivity.
        f_equal. assert (Some n' :: map Some ns = Some n' :: map Some ns) by reflexivity. clear - H1. revert ns H1. induction t as [|a t IHt]; intros [|b ns] E; try discriminate; [reflexivity|]. cbn in E. inversion E; subst. f_equal. specialize (IHt ns H1). now inversion IHt.
      * split; [discriminate|]. destruct ns as [|n' ns]; [discriminate|]. cbn [map]. intros X. inversion X; subst. assert (@Throw (list net) = Ok ns) by (apply IH; assumption). discriminate.
      * split; [discriminate|]. destruct ns as [|n' ns]; [discriminate|]. cbn [map]. intros X. inversion X; subst. assert (@UB (list net) = Ok ns) by (apply IH; assumption). discriminate.
    + unfold net_of in N. destruct (pl_net p); discriminate.
    + apply net_open in N. rewrite N. split; [discriminate|]. destruct ns; discriminate.
Qed.
Lemma scan_ok : forall ps, scan ps = Ok true <-> forall p, In p ps -> exists n, reached p = Some n /\ forall v hi lo, n <> Part v hi lo.
Proof.
  induction ps as [|p r IH]; cbn [scan]; [split; [intros _ p []|reflexivity]|]. destruct (net_of p) as [n| |] eqn:N; cbn [obind].
  - apply net_reached in N. assert ((forall v hi lo, n <> Part v hi lo) -> (scan r = Ok true <-> forall q, In q (p :: r) -> exists n0, reached q = Some n0 /\ forall v hi lo, n0 <> Part v hi lo)) as U.
    { intros Hn. rewrite IH. split; intros A; [intros q [<-|I]; [exists n; auto|now apply A]|intros q I; apply A; now right]. }
    destruct n; try (apply U; discriminate). split; [discriminate|]. intros A. destruct (A p (or_introl eq_refl)) as (n0 & E & Q). rewrite N in E. inversion E; subst. exfalso. now apply (Q v hi lo).
  - unfold net_of in N. destruct (pl_net p); discriminate.
  - apply net_open in N. split; [discriminate|]. intros A. destruct (A p (or_introl eq_refl)) as (n0 & E & _). congruence.
Qed.
