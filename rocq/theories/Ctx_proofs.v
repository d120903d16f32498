From Coq Require Import Lia.
From Verif Require Import Base Ctx_spec Ctx_model.
Local Open Scope list_scope.

Definition dflt (o : option (list nat)) : list nat := match o with Some s => s | None => [] end.
Lemma by_name_eq c n : by_name c n = dflt (lookup (c_modules c) n).
Proof. reflexivity. Qed.
Lemma lookup_change m n f k : lookup (change m n f) k = if String.eqb k n then Some (f (dflt (lookup m n))) else lookup m k.
Proof.
  induction m as [|(j & s) m IH]; cbn [change lookup].
  - destruct (String.eqb k n); reflexivity.
  - destruct (String.eqb_spec n j) as [->|Nj]; cbn [lookup].
    + destruct (String.eqb_spec k j); reflexivity.
    + rewrite IH. destruct (String.eqb_spec k j) as [->|]; [|reflexivity]. destruct (String.eqb_spec j n); [congruence|reflexivity].
Qed.
Lemma emplace_in g s x : In x (emplace g s) <-> x = g \/ In x s.
Proof.
  unfold emplace. destruct (existsb (Nat.eqb g) s) eqn:E.
  - apply existsb_exists in E. destruct E as (y & Hy & Ey). apply Nat.eqb_eq in Ey. subst y. split; [intros H; right; exact H|intros [-> | H]; assumption].
  - rewrite in_app_iff. cbn. split; [intros [H|[H|[]]]; [right; exact H|left; symmetry; exact H]|intros [-> | H]; [right; left; reflexivity|left; exact H]].
Qed.
Lemma erase_in g s x : In x (erase g s) <-> x <> g /\ In x s.
Proof.
  unfold erase. rewrite filter_In. split.
  - intros (A & B). split; [|exact A]. intros ->. rewrite Nat.eqb_refl in B. discriminate B.
  - intros (A & B). split; [exact B|]. destruct (Nat.eqb_spec g x); [congruence|reflexivity].
Qed.
Lemma emplace_nodup g s : NoDup s -> NoDup (emplace g s).
Proof.
  intros H. unfold emplace. destruct (existsb (Nat.eqb g) s) eqn:E; [exact H|].
  assert (Ng : ~ In g s) by (intros Hg; assert (existsb (Nat.eqb g) s = true) by (apply existsb_exists; exists g; split; [exact Hg|apply Nat.eqb_refl]); congruence).
  clear E. induction H as [|y s Ny _ IH]; cbn [app]; [constructor; [intros []|constructor]|].
  constructor; [|apply IH; intros X; apply Ng; right; exact X]. rewrite in_app_iff. cbn. intros [A|[A|[]]]; [contradiction|]. apply Ng. left. symmetry. exact A.
Qed.
Lemma nth_set l g x h : nth_error (set_gen l g x) h = if Nat.eqb h g then option_map (fun _ => x) (nth_error l g) else nth_error l h.
Proof.
  revert g h. induction l as [|y l IH]; intros g h; cbn [set_gen].
  - destruct g, h; cbn; try reflexivity; destruct (Nat.eqb h g); reflexivity.
  - destruct g as [|g], h as [|h]; cbn; try reflexivity. apply IH.
Qed.
Lemma nth_snoc {A} (l : list A) x h : nth_error (l ++ [x]) h = if Nat.eqb h (length l) then Some x else nth_error l h.
Proof.
  destruct (Nat.eqb_spec h (length l)) as [->|N].
  - rewrite nth_error_app2, Nat.sub_diag by lia. reflexivity.
  - destruct (Nat.lt_ge_cases h (length l)); [rewrite nth_error_app1 by lia; reflexivity|].
    rewrite (proj2 (nth_error_None (l ++ [x]) h)), (proj2 (nth_error_None l h)) by (rewrite ?app_length; cbn; lia). reflexivity.
Qed.

(* by_name after a change of the map *)
Lemma by_change gs m n f k : by_name {| c_gens := gs; c_modules := change m n f |} k = if String.eqb k n then f (by_name {| c_gens := gs; c_modules := m |} n) else by_name {| c_gens := gs; c_modules := m |} k.
Proof. unfold by_name. cbn [c_modules]. rewrite lookup_change. destruct (String.eqb k n); reflexivity. Qed.
Lemma by_gens gs gs' m k : by_name {| c_gens := gs; c_modules := m |} k = by_name {| c_gens := gs'; c_modules := m |} k.
Proof. reflexivity. Qed.
Lemma after_app c h k : after c (h ++ k) = after (after c h) k.
Proof. unfold after. apply fold_left_app. Qed.
Lemma in_by_exists c g n : In g (by_name c n) -> name_exists c n = true.
Proof. unfold by_name, name_exists. destruct (lookup (c_modules c) n); [reflexivity|intros []]. Qed.

(* what a rename does *)
Lemma rename_cases c g x n : nth_error (c_gens c) g = Some x -> n <> ""%string -> g_name x <> ""%string ->
  (In g (by_name c (g_name x)) /\ run c (Rename g n) = ({| c_gens := set_gen (c_gens c) g (renamed x n); c_modules := change (change (c_modules c) (g_name x) (erase g)) n (emplace g) |}, Ok tt))
  \/ (~ In g (by_name c (g_name x)) /\ run c (Rename g n) = (c, Throw)).
Proof.
  intros E Nn Nx. cbn [run]. rewrite E. unfold change_generator_name, by_name. destruct (String.eqb_spec n ""); [contradiction|]. destruct (String.eqb_spec (g_name x) ""); [contradiction|]. cbn [orb].
  destruct (lookup (c_modules c) (g_name x)) as [s|]; [|right; split; [intros []|reflexivity]].
  destruct (existsb (Nat.eqb g) s) eqn:Ex.
  - left. split; [|reflexivity]. apply existsb_exists in Ex. destruct Ex as (y & Hy & Ey). apply Nat.eqb_eq in Ey. subst y. exact Hy.
  - right. split; [|reflexivity]. intros H. assert (existsb (Nat.eqb g) s = true) by (apply existsb_exists; exists g; split; [exact H|apply Nat.eqb_refl]). congruence.
Qed.

(* the sets are sets *)
Definition sets (c : ctx) : Prop := forall n, NoDup (by_name c n).
Lemma sets_change gs gs' m n f : (forall s, NoDup s -> NoDup (f s)) -> sets {| c_gens := gs; c_modules := m |} -> sets {| c_gens := gs'; c_modules := change m n f |}.
Proof. intros F S k. rewrite by_change. destruct (String.eqb k n); [apply F|]; apply S. Qed.
Lemma sets_run c a : sets c -> sets (fst (run c a)).
Proof.
  destruct c as (gs & m). intros S0. destruct a as [n| |g|g n|g|g|g e cl|]; cbn [run c_gens c_modules]; try (destruct (nth_error gs g) as [x|]; [|exact S0]); cbn [fst].
  - apply (sets_change gs); [apply emplace_nodup|exact S0].
  - exact S0.
  - exact S0.
  - unfold change_generator_name. cbn [c_gens c_modules]. destruct (_ || _)%bool; [exact S0|]. destruct (lookup m (g_name x)) as [s|]; [|exact S0]. destruct (existsb _ _); [|exact S0]. cbn [fst].
    apply (sets_change gs); [apply emplace_nodup|]. apply (sets_change gs); [intros s0; apply NoDup_filter|exact S0].
  - apply (sets_change gs); [apply emplace_nodup|exact S0].
  - destruct (lookup m (g_name x)); [|exact S0]. cbn [fst]. apply (sets_change gs); [intros s0; apply NoDup_filter|exact S0].
  - exact S0.
  - intros n. constructor.
Qed.
Lemma sets_after h : sets (after empty h).
Proof.
  assert (G : forall h c, sets c -> sets (after c h)).
  { clear h. induction h as [|a h IH]; intros c S0; [exact S0|]. cbn [after fold_left]. apply IH, sets_run, S0. }
  apply G. intros n. constructor.
Qed.

(* everything is listed under its name only, and has one *)
Definition good (c : ctx) : Prop := (forall g n, In g (by_name c n) -> name_of c g = Some n) /\ forall g x, nth_error (c_gens c) g = Some x -> g_name x <> ""%string.
Lemma name_snoc gs m x g : name_of {| c_gens := gs ++ [x]; c_modules := m |} g = if Nat.eqb g (length gs) then Some (g_name x) else option_map g_name (nth_error gs g).
Proof. unfold name_of. cbn [c_gens]. rewrite nth_snoc. destruct (Nat.eqb g (length gs)); reflexivity. Qed.
Lemma listed_old gs m : good {| c_gens := gs; c_modules := m |} -> forall g n, In g (by_name {| c_gens := gs; c_modules := m |} n) -> (g < length gs)%nat.
Proof. intros (G & _) g n H. specialize (G g n H). unfold name_of in G. cbn [c_gens] in G. apply nth_error_Some. intros E. rewrite E in G. discriminate G. Qed.
Lemma good_run c a : a <> New "" -> a <> Unnamed -> (forall g, a <> Rename g "") -> good c -> good (fst (run c a)).
Proof.
  destruct c as (gs & m). intros N1 N2 N3 G0. pose proof (listed_old gs m G0) as Old. destruct G0 as (G & Nm).
  assert (Snoc : forall x m', g_name x <> ""%string -> (forall g n, In g (by_name {| c_gens := gs; c_modules := m' |} n) -> In g (by_name {| c_gens := gs; c_modules := m |} n) \/ (g = length gs /\ n = g_name x)) ->
    good {| c_gens := gs ++ [x]; c_modules := m' |}).
  { intros x m' Nx L. split.
    - intros g n H. rewrite name_snoc. destruct (L g n H) as [H'|(-> & ->)]; [|rewrite Nat.eqb_refl; reflexivity].
      pose proof (Old g n H') as Lt. destruct (Nat.eqb_spec g (length gs)); [lia|]. exact (G g n H').
    - intros g y E. cbn [c_gens] in E. rewrite nth_snoc in E. destruct (Nat.eqb g (length gs)); [injection E as <-; exact Nx|exact (Nm g y E)]. }
  destruct a as [n| |g|g n|g|g|g e cl|]; try (cbn [run c_gens c_modules]; destruct (nth_error gs g) as [x|] eqn:Eg; [|split; assumption]).
  - cbn [run c_gens c_modules fst]. apply Snoc; [cbn; congruence|]. intros g k H. cbn [g_name]. rewrite by_change in H. destruct (String.eqb_spec k n) as [Ek|]; [rewrite Ek|left; exact H].
    apply emplace_in in H. destruct H as [-> | H]; [right; split; reflexivity|left; exact H].
  - congruence.
  - cbn [fst]. apply Snoc; [exact (Nm g x Eg)|]. intros h k H. left. exact H.
  - assert (Nx : g_name x <> ""%string) by exact (Nm g x Eg). assert (Nn : n <> ""%string) by (intros ->; exact (N3 g eq_refl)).
    destruct (rename_cases {| c_gens := gs; c_modules := m |} g x n Eg Nn Nx) as [(Hg & R)|(Hg & R)]; cbn [run c_gens] in R; rewrite Eg in R; rewrite R; [|split; assumption].
    cbn [fst c_gens c_modules]. split.
    + intros h k H. rewrite by_change in H. unfold name_of. cbn [c_gens]. rewrite nth_set, Eg. cbn [option_map]. destruct (Nat.eqb_spec h g) as [->|Nh].
      * cbn [option_map g_name renamed]. destruct (String.eqb_spec k n) as [Ek|Nk]; [rewrite Ek; reflexivity|]. exfalso. rewrite by_change in H.
        destruct (String.eqb_spec k (g_name x)) as [Ek|Nk']; [apply erase_in in H; destruct H as (A & _); contradiction|]. apply Nk'.
        pose proof (G g k H) as A. unfold name_of in A. cbn [c_gens] in A. rewrite Eg in A. cbn in A. congruence.
      * apply G. destruct (String.eqb_spec k n) as [Ek|Nk]; [subst k|].
        -- apply emplace_in in H. destruct H as [H|H]; [contradiction|]. rewrite by_change in H. destruct (String.eqb n (g_name x)) eqn:E; [|exact H]. apply erase_in in H. apply String.eqb_eq in E. rewrite E. exact (proj2 H).
        -- rewrite by_change in H. destruct (String.eqb k (g_name x)) eqn:E; [|exact H]. apply erase_in in H. apply String.eqb_eq in E. rewrite E. exact (proj2 H).
    + intros h y E. cbn [c_gens] in E. rewrite nth_set, Eg in E. destruct (Nat.eqb h g); [injection E as <-; exact Nn|exact (Nm h y E)].
  - cbn [fst]. split; [|exact Nm]. intros h k H. rewrite by_change in H. destruct (String.eqb_spec k (g_name x)) as [Ek|]; [subst k|exact (G h k H)]. apply emplace_in in H. destruct H as [-> | H]; [|exact (G h _ H)].
    unfold name_of. cbn [c_gens]. rewrite Eg. reflexivity.
  - destruct (lookup m (g_name x)); [|split; assumption]. cbn [fst]. split; [|exact Nm]. intros h k H. rewrite by_change in H. destruct (String.eqb_spec k (g_name x)) as [Ek|]; [subst k|exact (G h k H)]. apply erase_in in H. exact (G h _ (proj2 H)).
  - cbn [fst]. split.
    + intros h k H. specialize (G h k H). unfold name_of in *. cbn [c_gens] in *. rewrite nth_set, Eg. destruct (Nat.eqb_spec h g) as [->|]; [rewrite Eg in G; exact G|exact G].
    + intros h y E. cbn [c_gens] in E. rewrite nth_set, Eg in E. destruct (Nat.eqb h g); [injection E as <-; exact (Nm g x Eg)|exact (Nm h y E)].
  - cbn [run fst]. split; [intros h k []|exact Nm].
Qed.
Lemma good_after h : all_named h -> good (after empty h).
Proof.
  assert (G : forall h c, all_named h -> good c -> good (after c h)).
  { clear h. induction h as [|a h IH]; intros c A G0; [exact G0|]. cbn [after fold_left]. apply IH; [intros b Hb; apply A; right; exact Hb|].
    destruct (A a (or_introl eq_refl)) as (A1 & A2 & A3). apply good_run; assumption. }
  intros A. apply G; [exact A|]. split; [intros g n []|]. intros g x E. destruct g; discriminate E.
Qed.

(* everything that is no clone is listed *)
Definition full (c : ctx) : Prop := forall g x, nth_error (c_gens c) g = Some x -> g_def x = None -> In g (by_name c (g_name x)).
Lemma full_run c a : a <> New "" -> a <> Unnamed -> (forall g, a <> Rename g "") -> a <> Clear -> (forall g, a <> Drop g) -> good c -> full c -> full (fst (run c a)).
Proof.
  destruct c as (gs & m). intros N1 N2 N3 N4 N5 (G & Nm) F. unfold full in F. cbn [c_gens] in F.
  destruct a as [n| |g|g n|g|g|g e cl|]; try congruence; try (exfalso; exact (N5 g eq_refl)); try (cbn [run c_gens c_modules]; destruct (nth_error gs g) as [x|] eqn:Eg; [|exact F]).
  - cbn [run fst c_gens c_modules]. intros h y E D. cbn [c_gens] in E. rewrite nth_snoc in E. rewrite by_change. destruct (Nat.eqb_spec h (length gs)) as [->|Nh].
    + injection E as <-. cbn [g_name]. rewrite String.eqb_refl. apply emplace_in. left. reflexivity.
    + specialize (F h y E D). destruct (String.eqb_spec (g_name y) n) as [En|]; [|exact F]. apply emplace_in. right. rewrite <- En. exact F.
  - cbn [fst]. intros h y E D. cbn [c_gens] in E. rewrite nth_snoc in E. destruct (Nat.eqb h (length gs)); [injection E as <-; discriminate D|]. exact (F h y E D).
  - assert (Nx : g_name x <> ""%string) by exact (Nm g x Eg). assert (Nn : n <> ""%string) by (intros ->; exact (N3 g eq_refl)).
    destruct (rename_cases {| c_gens := gs; c_modules := m |} g x n Eg Nn Nx) as [(Hg & R)|(Hg & R)]; cbn [run c_gens] in R; rewrite Eg in R; rewrite R; [|exact F].
    cbn [fst c_gens c_modules]. intros h y E D. cbn [c_gens] in E. rewrite nth_set, Eg in E. rewrite by_change. destruct (Nat.eqb_spec h g) as [->|Nh].
    + injection E as <-. cbn [g_name renamed]. rewrite String.eqb_refl. apply emplace_in. left. reflexivity.
    + specialize (F h y E D). destruct (String.eqb_spec (g_name y) n) as [En|Ny].
      * apply emplace_in. right. rewrite by_change. destruct (String.eqb_spec n (g_name x)) as [Ex|]; [apply erase_in; split; [exact Nh|rewrite <- Ex, <- En; exact F]|rewrite <- En; exact F].
      * rewrite by_change. destruct (String.eqb_spec (g_name y) (g_name x)) as [Ex|]; [apply erase_in; split; [exact Nh|rewrite <- Ex; exact F]|exact F].
  - cbn [fst]. intros h y E D. cbn [c_gens] in E. specialize (F h y E D). rewrite by_change. destruct (String.eqb_spec (g_name y) (g_name x)) as [Ex|]; [apply emplace_in; right; rewrite <- Ex; exact F|exact F].
  - cbn [fst]. intros h y E D. cbn [c_gens] in E. rewrite nth_set, Eg in E. destruct (Nat.eqb_spec h g) as [->|]; [injection E as <-; exact (F g x Eg D)|exact (F h y E D)].
Qed.
Lemma full_after h : all_named h -> kept h -> full (after empty h).
Proof.
  assert (G : forall h c, all_named h -> kept h -> good c -> full c -> full (after c h)).
  { clear h. induction h as [|a h IH]; intros c A K G0 F0; [exact F0|]. cbn [after fold_left]. destruct (A a (or_introl eq_refl)) as (A1 & A2 & A3), (K a (or_introl eq_refl)) as (K1 & K2).
    apply IH; [intros b Hb; apply A; right; exact Hb|intros b Hb; apply K; right; exact Hb|apply good_run; assumption|apply full_run; assumption]. }
  intros A K. apply G; [exact A|exact K| |].
  - split; [intros g n []|]. intros g x E. destruct g; discriminate E.
  - intros g x E. destruct g; discriminate E.
Qed.
