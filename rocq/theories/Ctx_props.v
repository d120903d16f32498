From Coq Require Import Lia.
From Verif Require Import Base Ctx_spec Ctx_model Ctx_proofs.
Local Open Scope list_scope.

(* C496: when everything has a name, the generators listed under a name are generators of that name, each once; if nothing was taken out,
   they are all of them but clones. *)
Theorem C496_listed : forall h, all_named h ->
  let c := after empty h in
  (forall g n, In g (by_name c n) -> name_of c g = Some n)
  /\ (forall n, NoDup (by_name c n))
  /\ (kept h -> forall g n, name_of c g = Some n -> original c g = None -> In g (by_name c n)).
Proof.
  intros h A. cbv zeta. split; [exact (proj1 (good_after h A))|]. split; [apply sets_after|].
  intros K g n Hn Ho. pose proof (full_after h A K) as F. unfold name_of, original in *. destruct (nth_error (c_gens (after empty h)) g) as [x|] eqn:E; [|discriminate Hn].
  cbn in Hn. injection Hn as <-. exact (F g x E Ho).
Qed.
(* ... and what is taken out is listed nowhere; nothing is after the context was cleared. *)
Theorem C496_dropped : forall h g n, all_named h -> ~ In g (by_name (after empty (h ++ [Drop g])) n) /\ by_name (after empty (h ++ [Clear])) n = [].
Proof.
  intros h g n A. rewrite !after_app. split; [|reflexivity]. destruct (good_after h A) as (G & _). destruct (after empty h) as (gs & m) eqn:Ec. clear Ec.
  cbn [after fold_left run c_gens c_modules]. destruct (nth_error gs g) as [x|] eqn:E.
  - assert (X : forall k, In g (by_name {| c_gens := gs; c_modules := m |} k) -> k = g_name x) by (intros k H; specialize (G g k H); unfold name_of in G; cbn [c_gens] in G; rewrite E in G; cbn in G; congruence).
    destruct (lookup m (g_name x)) eqn:L; cbn [fst].
    + rewrite by_change. destruct (String.eqb_spec n (g_name x)) as [En|Nn]; [intros H; apply erase_in in H; destruct H as (B & _); congruence|]. intros H. exact (Nn (X n H)).
    + intros H. pose proof (X n H) as En. unfold by_name in H. cbn [c_modules] in H. rewrite En, L in H. exact H.
  - cbn [fst]. intros H. specialize (G g n H). unfold name_of in G. cbn [c_gens] in G. rewrite E in G. discriminate G.
Qed.
Definition h1 : list act := [New "a"; New "a"; Clone 0; Rename 1 "b"; New "b"]%string.
Example C496_ex : all_named h1 /\ kept h1 /\ by_name (after empty h1) "a" = [0%nat] /\ by_name (after empty h1) "b" = [1%nat; 3%nat].
Proof.
  split; [intros a H; cbn in H; decompose [or] H; try contradiction; subst; repeat split; discriminate|].
  split; [intros a H; cbn in H; decompose [or] H; try contradiction; subst; split; discriminate|]. split; reflexivity.
Qed.

(* C497: a new name is given exactly to a generator that is in the context, which is then listed under it alone; nothing else is renamed or
   listed elsewhere.  One that is not in the context is refused, and nothing changes. *)
Theorem C497_rename : forall h g n k, all_named h -> n <> ""%string -> name_of (after empty h) g = Some k ->
  let c := after empty h in let c' := fst (run c (Rename g n)) in
  (In g (by_name c k) -> snd (run c (Rename g n)) = Ok tt /\ name_of c' g = Some n /\ (forall d, d <> g -> name_of c' d = name_of c d)
     /\ (forall d j, In d (by_name c' j) <-> (d = g /\ j = n) \/ (d <> g /\ In d (by_name c j))))
  /\ (~ In g (by_name c k) -> run c (Rename g n) = (c, Throw)).
Proof.
  intros h g n k A Nn Hk. cbv zeta. destruct (good_after h A) as (G & Nm). destruct (after empty h) as (gs & m) eqn:Ec. clear Ec.
  unfold name_of in Hk. cbn [c_gens] in *. destruct (nth_error gs g) as [x|] eqn:E; [|discriminate Hk]. cbn in Hk. injection Hk as <-.
  destruct (rename_cases {| c_gens := gs; c_modules := m |} g x n E Nn (Nm g x E)) as [(Hg & R)|(Hg & R)]; rewrite R; (split; [|intros X; try contradiction; try reflexivity]); [|intros X; contradiction].
  intros _. cbn [fst snd c_gens c_modules]. split; [reflexivity|]. unfold name_of. cbn [c_gens]. split; [rewrite nth_set, E, Nat.eqb_refl; reflexivity|].
  split; [intros d Nd; rewrite nth_set; destruct (Nat.eqb_spec d g); [contradiction|reflexivity]|].
  assert (O : forall j, In g (by_name {| c_gens := gs; c_modules := m |} j) -> j = g_name x) by (intros j H; specialize (G g j H); unfold name_of in G; cbn [c_gens] in G; rewrite E in G; cbn in G; congruence).
  assert (B : forall d j, In d (by_name {| c_gens := set_gen gs g (renamed x n); c_modules := change m (g_name x) (erase g) |} j) <-> d <> g /\ In d (by_name {| c_gens := gs; c_modules := m |} j)).
  { intros d j. rewrite by_change. destruct (String.eqb_spec j (g_name x)) as [Ej|Nj]; [rewrite erase_in, Ej; reflexivity|].
    split; [intros H; split; [intros Ed; subst d; exact (Nj (O j H))|exact H]|intros (_ & H); exact H]. }
  intros d j. rewrite by_change. destruct (String.eqb_spec j n) as [Ej|Nj].
  - rewrite emplace_in, B, Ej. split; [intros [H|H]; [left; split; [exact H|reflexivity]|right; exact H]|intros [(H & _)|H]; [left; exact H|right; exact H]].
  - rewrite B. split; [intros H; right; exact H|intros [(_ & H)|H]; [contradiction|exact H]].
Qed.
Example C497_ex : snd (run (after empty h1) (Rename 0 "c")) = Ok tt /\ snd (run (after empty h1) (Rename 2 "c")) = Throw.
Proof. split; reflexivity. Qed.

(* C498: a generator whose name is taken away stays listed under it, and one that gets its first name later is not listed under it. *)
Theorem C498_unnamed_refuted :
  (forall c g k, name_of c g = Some k -> let c' := fst (run c (Rename g "")) in name_of c' g = Some ""%string /\ forall n, by_name c' n = by_name c n)
  /\ (forall c g n, name_of c g = Some ""%string -> let c' := fst (run c (Rename g n)) in name_of c' g = Some n /\ forall j, by_name c' j = by_name c j)
  /\ ~ (forall h g n, kept h -> In g (by_name (after empty h) n) -> name_of (after empty h) g = Some n)
  /\ ~ (forall h g n, kept h -> n <> ""%string -> name_of (after empty h) g = Some n -> original (after empty h) g = None -> In g (by_name (after empty h) n)).
Proof.
  assert (K : forall h, (forall a, In a h -> match a with Clear | Drop _ => False | _ => True end) -> kept h) by (intros h H a Ha; specialize (H a Ha); destruct a; try contradiction; split; discriminate).
  repeat split.
  - unfold name_of in *. cbn [run]. destruct (nth_error (c_gens c) g) as [x|] eqn:E; [|discriminate H]. unfold change_generator_name. cbn [String.eqb orb fst c_gens]. rewrite nth_set, E, Nat.eqb_refl. reflexivity.
  - intros n. cbn [run]. destruct (nth_error (c_gens c) g) as [x|]; reflexivity.
  - unfold name_of in *. cbn [run]. destruct (nth_error (c_gens c) g) as [x|] eqn:E; [|discriminate H]. cbn in H. injection H as H. unfold change_generator_name. rewrite H. rewrite Bool.orb_true_r. cbn [fst c_gens]. rewrite nth_set, E, Nat.eqb_refl. reflexivity.
  - intros j. unfold name_of in H. cbn [run]. destruct (nth_error (c_gens c) g) as [x|] eqn:E; [|discriminate H]. cbn in H. injection H as H. unfold change_generator_name. rewrite H. rewrite Bool.orb_true_r. reflexivity.
  - intros H. specialize (H [New "a"; Rename 0 ""]%string 0%nat "a"%string (K [New "a"; Rename 0 ""]%string ltac:(intros a Ha; cbn in Ha; decompose [or] Ha; try contradiction; subst; exact Logic.I)) (or_introl eq_refl)). discriminate H.
  - intros H. specialize (H [Unnamed; Rename 0 "a"]%string 0%nat "a"%string (K [Unnamed; Rename 0 "a"]%string ltac:(intros a Ha; cbn in Ha; decompose [or] Ha; try contradiction; subst; exact Logic.I)) ltac:(discriminate) eq_refl eq_refl). exact H.
Qed.

(* C499: a name is said to exist as soon as a generator had it, also when none has it any more. *)
Theorem C499_exists_refuted :
  (forall c a n, name_exists c n = true -> a <> Clear -> name_exists (fst (run c a)) n = true)
  /\ (forall h n, (exists g, In g (by_name (after empty h) n)) -> name_exists (after empty h) n = true)
  /\ ~ (forall h n, all_named h -> kept h -> name_exists (after empty h) n = true -> exists g, name_of (after empty h) g = Some n).
Proof.
  split; [|split].
  - intros (gs & m) a n H Na. unfold name_exists in *. cbn [c_modules] in H. 
    assert (X : forall m k f, match lookup m n with Some _ => true | None => false end = true -> match lookup (change m k f) n with Some _ => true | None => false end = true)
      by (intros m0 k f H0; rewrite lookup_change; destruct (String.eqb n k); [reflexivity|exact H0]).
    destruct a as [k| |g|g k|g|g|g e cl|]; cbn [run c_gens c_modules]; try (destruct (nth_error gs g) as [x|]; [|exact H]); cbn [fst c_modules]; try exact H; try congruence.
    + apply X, H.
    + unfold change_generator_name. cbn [c_gens c_modules]. destruct (_ || _)%bool; [exact H|]. destruct (lookup m (g_name x)); [|exact H]. destruct (existsb _ _); [|exact H]. cbn [fst c_modules]. apply X, X, H.
    + apply X, H.
    + destruct (lookup m (g_name x)); [|exact H]. cbn [fst c_modules]. apply X, H.
  - intros h n (g & H). exact (in_by_exists _ g n H).
  - intros H. destruct (H [New "a"; Rename 0 "b"]%string "a"%string) as (g & E).
    + intros a Ha; cbn in Ha; decompose [or] Ha; try contradiction; subst; repeat split; discriminate.
    + intros a Ha; cbn in Ha; decompose [or] Ha; try contradiction; subst; split; discriminate.
    + reflexivity.
    + destruct g as [|[|g]]; discriminate E.
Qed.

Lemma own_marks : forall c g, own c g = true <-> marks c g = Some (false, false).
Proof. intros c g. unfold own, marks. destruct (nth_error (c_gens c) g) as [x|]; cbn [option_map]; [|split; discriminate]. destruct (g_ext x), (g_cloned x); cbn [negb andb]; split; intros H; congruence. Qed.

(* C500: a generator is unique exactly if one generator is listed under its name that is neither external nor a clone. *)
Theorem C500_unique : forall h g n, name_of (after empty h) g = Some n ->
  let c := after empty h in
  is_unique c g = true <-> exists d, (In d (by_name c n) /\ marks c d = Some (false, false)) /\ forall e, In e (by_name c n) -> marks c e = Some (false, false) -> e = d.
Proof.
  intros h g n Hn. cbv zeta. enough (K : is_unique (after empty h) g = true <-> exists d, (In d (by_name (after empty h) n) /\ own (after empty h) d = true) /\ forall e, In e (by_name (after empty h) n) -> own (after empty h) e = true -> e = d).
  { rewrite K. split; intros (d & (A & B) & X); exists d; (split; [split; [exact A|apply own_marks; exact B]|intros e He Oe; apply X; [exact He|apply own_marks; exact Oe]]). }
  unfold is_unique. rewrite Hn. pose proof (sets_after h n) as Nd. unfold by_name in *. destruct (lookup (c_modules (after empty h)) n) as [s|].
  - pose proof (NoDup_filter (own (after empty h)) Nd) as Nf. split.
    + intros H. apply Nat.eqb_eq in H. destruct (filter (own (after empty h)) s) as [|d [|e l]] eqn:E; try discriminate H. exists d.
      assert (X : forall e, In e s -> own (after empty h) e = true -> e = d) by (intros e He Oe; assert (Hf : In e (filter (own (after empty h)) s)) by (apply filter_In; split; assumption); rewrite E in Hf; destruct Hf as [Hf|[]]; symmetry; exact Hf).
      split; [apply filter_In; rewrite E; left; reflexivity|exact X].
    + intros (d & Hd & X). apply Nat.eqb_eq. apply filter_In in Hd. assert (Y : forall e, In e (filter (own (after empty h)) s) -> e = d) by (intros e He; apply filter_In in He; apply X; apply He).
      destruct (filter (own (after empty h)) s) as [|a [|b l]]; [destruct Hd|reflexivity|]. exfalso. inversion Nf as [|a' l' Na _]; subst. apply Na. left. rewrite (Y a), (Y b); [reflexivity|right; left; reflexivity|left; reflexivity].
  - split; [discriminate|]. intros (d & ([] & _) & _).
Qed.
Example C500_ex : is_unique (after empty h1) 0 = true /\ is_unique (after empty h1) 1 = false.
Proof. split; reflexivity. Qed.

(* C501: two generators with contents and the same name can both be unique: one that got its name later is not counted. *)
Theorem C501_unique_refuted :
  ~ (forall h g d n, name_of (after empty h) g = Some n -> name_of (after empty h) d = Some n -> marks (after empty h) g = Some (false, false) -> marks (after empty h) d = Some (false, false) ->
       is_unique (after empty h) g = true -> is_unique (after empty h) d = true -> g = d).
Proof. intros H. specialize (H [New "a"; Unnamed; Mark 1 false true; Rename 1 "a"; Mark 1 false false]%string 0%nat 1%nat "a"%string eq_refl eq_refl eq_refl eq_refl eq_refl eq_refl). discriminate H. Qed.

(* C502: a clone keeps the name its original had when it was cloned, and so does its instance. *)
Theorem C502_clone_refuted :
  (forall c g n d k, name_of c d = Some k -> d <> g -> name_of (fst (run c (Rename g n))) d = Some k)
  /\ (forall h g, all_named h -> (exists k, name_of (after empty h) g = Some k) -> let c := after empty (h ++ [Clone g]) in
        let d := length (c_gens (after empty h)) in original c d = Some g /\ name_of c d = name_of c g)
  /\ ~ (forall h g d, all_named h -> kept h -> original (after empty h) d = Some g -> name_of (after empty h) d = name_of (after empty h) g).
Proof.
  split; [|split].
  - intros c g n d k H Nd. cbn [run]. destruct (nth_error (c_gens c) g) as [x|]; [|exact H]. unfold change_generator_name.
    assert (X : forall m y, name_of {| c_gens := set_gen (c_gens c) g y; c_modules := m |} d = Some k) by (intros m y; unfold name_of in *; cbn [c_gens]; rewrite nth_set; destruct (Nat.eqb_spec d g); [contradiction|exact H]).
    destruct (_ || _)%bool; [apply X|]. destruct (lookup _ _); [|exact H]. destruct (existsb _ _); [apply X|exact H].
  - intros h g A (k & Hk). cbv zeta. rewrite after_app. cbn [after fold_left run]. unfold name_of, original in *. destruct (nth_error (c_gens (after empty h)) g) as [x|] eqn:E; [|discriminate Hk].
    cbn [fst c_gens]. rewrite !nth_snoc, Nat.eqb_refl. split; [reflexivity|]. destruct (Nat.eqb_spec g (length (c_gens (after empty h)))) as [->|]; [reflexivity|]. rewrite E. reflexivity.
  - intros H. specialize (H [New "a"; Clone 0; Rename 0 "b"]%string 0%nat 1%nat). cbn in H.
    assert (X : Some "a"%string = Some "b"%string); [|discriminate X]. apply H; [| |reflexivity].
    + intros a Ha; cbn in Ha; decompose [or] Ha; try contradiction; subst; repeat split; discriminate.
    + intros a Ha; cbn in Ha; decompose [or] Ha; try contradiction; subst; split; discriminate.
Qed.
Print Assumptions C496_listed.
Print Assumptions C496_dropped.
Print Assumptions C497_rename.
Print Assumptions C498_unnamed_refuted.
Print Assumptions C499_exists_refuted.
Print Assumptions C500_unique.
Print Assumptions C501_unique_refuted.
Print Assumptions C502_clone_refuted.
