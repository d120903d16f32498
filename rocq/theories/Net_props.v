(* C181-C184: who assigns a signal, and who uses it *)
From Verif Require Import Base IR Net_spec Net_model Net_proofs.
Local Open Scope nat_scope.

(* adding statements, taking a connection away, clearing the block *)
Definition plain (o : nop) : Prop := match o with OAdd _ | OUnwire _ _ | OClear => True | _ => False end.
Definition added (os : list nop) : list nat := flat_map (fun o => match o with OAdd i => [i] | _ => [] end) os.

Lemma run_kept : forall T same, (forall i, target (fst (T i))) -> forall os seen s, Forall plain os -> NoDup (added os) -> (forall i, In i (added os) -> ~ In i seen) -> kept_by T seen s ->
  exists s', net_run T same os s = Ok s' /\ kept_by T (rev (added os) ++ seen) s'.
Proof.
  intros T same Tg. induction os as [|o os IH]; intros seen s P N F K; [exists s; split; [reflexivity|exact K]|].
  apply Forall_cons_iff in P. destruct P as [Po P]. cbn [net_run]. destruct o as [i|a b|i|i|]; cbn [plain] in Po; try contradiction; cbn [net_op added flat_map app] in *.
  - apply NoDup_cons_iff in N. destruct N as [Ni N]. destruct (kept_add T Tg seen s i K (F i (or_introl eq_refl))) as (s1 & E & K1). rewrite E. cbn [obind]. fold (added os) in *.
    destruct (IH (i :: seen) s1 P N) as (s' & E' & K'); [|exact K1|].
    { intros j J [<-|I]; [contradiction|]. apply (F j); [now right|exact I]. }
    exists s'. split; [exact E'|]. cbn [rev]. now rewrite <- app_assoc.
  - apply IH; auto. now apply kept_unwire.
  - apply IH; auto. now apply kept_clear.
Qed.
Lemma started : forall T same os, (forall i, target (fst (T i))) -> Forall plain os -> NoDup (added os) -> exists s, net_run T same os net_start = Ok s /\ kept_by T (rev (added os)) s.
Proof.
  intros T same os Tg P N. destruct (run_kept T same Tg os [] net_start P N (fun _ _ F => F) (kept_start T)) as (s & E & K). rewrite app_nil_r in K. now exists s.
Qed.
(* the design is always built *)
Theorem C181_built : forall T same os, (forall i, target (fst (T i))) -> Forall plain os -> NoDup (added os) -> exists s, net_run T same os net_start = Ok s.
Proof. intros T same os Tg P N. destruct (started T same os Tg P N) as (s & E & _). now exists s. Qed.
(* the sources are the statements of the design that assign the signal: whatever the statements are *)
Theorem C181_sources : forall T same os s, (forall i, target (fst (T i))) -> Forall plain os -> NoDup (added os) -> net_run T same os net_start = Ok s ->
  forall x i, sr s x i = true <-> In i (placed s) /\ drives x (fst (T i)).
Proof. intros T same os s Tg P N E. destruct (started T same os Tg P N) as (s' & E' & K). rewrite E in E'. injection E' as <-. apply (kb_sr T _ _ K). Qed.
(* the sinks are the statements of the design that use it: when no part of a signal is selected *)
Theorem C181_sinks : forall T same os s, (forall i, target (fst (T i)) /\ whole (fst (T i)) /\ whole (snd (T i))) -> Forall plain os -> NoDup (added os) -> net_run T same os net_start = Ok s ->
  forall x i, sk s x i = true <-> In i (placed s) /\ uses x (T i).
Proof.
  intros T same os s Tg P N E x i. destruct (started T same os (fun i => proj1 (Tg i)) P N) as (s' & E' & K). rewrite E in E'. injection E' as <-. rewrite (kb_sk T _ _ K).
  destruct (Tg i) as (_ & Wl & Wr). split.
  - intros (_ & U & [I|O]); [auto|]. exfalso. destruct U as [U|U]; [now apply O, whole_open|now apply (whole_indexes _ x Wl)].
  - intros [I U]. split; [exact (kb_seen T _ _ K i I)|]. auto.
Qed.
(* in general no use in the design is missing, *)
Theorem C181_no_use_missing : forall T same os s, (forall i, target (fst (T i))) -> Forall plain os -> NoDup (added os) -> net_run T same os net_start = Ok s ->
  forall x i, In i (placed s) -> uses x (T i) -> sk s x i = true.
Proof.
  intros T same os s Tg P N E x i I U. destruct (started T same os Tg P N) as (s' & E' & K). rewrite E in E'. injection E' as <-. apply (kb_sk T _ _ K). split; [exact (kb_seen T _ _ K i I)|]. auto.
Qed.
(* and when nothing is taken away the sinks are right *)
Lemma run_placed : forall T same os s s', (forall i, target (fst (T i))) -> Forall (fun o => exists i, o = OAdd i) os -> net_run T same os s = Ok s' -> placed s' = (placed s ++ added os)%list.
Proof.
  intros T same os s s' Tg. revert s. induction os as [|o os IH]; intros s F E; [injection E as <-; cbn; now rewrite app_nil_r|]. apply Forall_cons_iff in F. destruct F as [(i & ->) F]. cbn [net_run net_op] in E.
  assert (exists s1, net_add T i s = Ok s1 /\ placed s1 = (placed s ++ [i])%list) as (s1 & E1 & P1).
  { unfold net_add. destruct (parented s i); cbn [obind]; [eexists; split; reflexivity|]. destruct (add_source_ok i (fst (T i)) (add_sink i (snd (T i)) s) (Tg i)) as (s1 & -> & E1 & _). cbn [obind]. eexists. split; [reflexivity|]. cbn [with_placed with_parent placed]. rewrite E1. now destruct (add_sink_rest i (snd (T i)) s) as (_ & -> & _). }
  rewrite E1 in E. cbn [obind] in E. rewrite (IH s1 F E), P1, <- app_assoc. reflexivity.
Qed.
Theorem C181_sinks_of_a_new_design : forall T same os s, (forall i, target (fst (T i))) -> Forall (fun o => exists i, o = OAdd i) os -> NoDup (added os) -> net_run T same os net_start = Ok s ->
  placed s = added os /\ forall x i, sk s x i = true <-> In i (placed s) /\ uses x (T i).
Proof.
  intros T same os s Tg A N E. pose proof (run_placed T same os net_start s Tg A E) as Pl. cbn [net_start placed app] in Pl. split; [exact Pl|]. intros x i.
  assert (Forall plain os) as P by (eapply Forall_impl; [|exact A]; intros o (j & ->); exact Logic.I). destruct (started T same os Tg P N) as (s' & E' & K). rewrite E in E'. injection E' as <-. rewrite (kb_sk T _ _ K), Pl, <- in_rev. tauto.
Qed.
(* taking a connection away removes one statement that makes it, if there is one, and no other *)
Theorem C181_unwire : forall T (same : nexp -> nexp -> bool) a b s, NoDup (placed s) ->
  let joins i := (same (fst (T i)) a = true /\ same (snd (T i)) b = true) \/ (same (snd (T i)) a = true /\ same (fst (T i)) b = true) in
  (exists i, In i (placed s) /\ joins i /\ forall j, In j (placed (net_unwire T same a b s)) <-> In j (placed s) /\ j <> i)
  \/ ((forall i, In i (placed s) -> ~ joins i) /\ net_unwire T same a b s = s).
Proof.
  intros T same a b s N joins. unfold net_unwire. match goal with |- context [find ?f _] => set (p := f) end.
  assert (forall i, p i = true <-> joins i) as J by (intros i; unfold p, joins; now rewrite orb_true_iff, !andb_true_iff).
  destruct (find p (placed s)) as [i|] eqn:E.
  - left. apply find_some in E. destruct E as [I E]. exists i. split; [exact I|]. split; [now apply J|]. intros j. cbn [net_remove with_placed placed].
    destruct (remove_sink_rest i (snd (T i)) (remove_source i (fst (T i)) s)) as (-> & _). destruct (remove_source_rest i (fst (T i)) s) as (_ & -> & _). now apply erase_in.
  - right. split; [|reflexivity]. intros i I Ji. apply J in Ji. apply (find_none _ _ E) in I. congruence.
Qed.
(* clearing a block *)
Theorem C181_clear : forall T s, placed (net_clear T s) = [].
Proof. reflexivity. Qed.

(* which uses stay when a connection is taken away: of the signals that are only selected from on the right,
   and of those in an index on the left *)
Theorem C182_what_stays : forall T same os s, (forall i, target (fst (T i))) -> Forall plain os -> NoDup (added os) -> net_run T same os net_start = Ok s ->
  forall x i, ~ In i (placed s) -> (sk s x i = true <-> In i (added os) /\ uses x (T i) /\ ~ open x (snd (T i))).
Proof.
  intros T same os s Tg P N E x i I. destruct (started T same os Tg P N) as (s' & E' & K). rewrite E in E'. injection E' as <-. rewrite (kb_sk T _ _ K), <- in_rev. tauto.
Qed.
(* objects: here each signal and each expression written down is one *)
Fixpoint nsame (a b : nexp) : bool :=
  match a, b with
  | NVar x, NVar y => Nat.eqb x y
  | NConst, NConst => true
  | NSlice a, NSlice b => nsame a b
  | NIndex a i, NIndex b j => nsame a b && nsame i j
  | NOp a a', NOp b b' => nsame a b && nsame a' b'
  | _, _ => false
  end.
Theorem C182_slice_refuted : ~ (forall T same os s, (forall i, target (fst (T i))) -> Forall plain os -> NoDup (added os) -> net_run T same os net_start = Ok s ->
  forall x i, sk s x i = true <-> In i (placed s) /\ uses x (T i)).
Proof.
  intros Q. set (T := fun _ : nat => (NVar 0, NSlice (NVar 1))).
  destruct (net_run T nsame [OAdd 7; OUnwire (NVar 0) (NSlice (NVar 1))] net_start) as [s| |] eqn:E; try discriminate E.
  assert (sk s 1 7 = true /\ placed s = []) as [A B] by (injection E as <-; split; vm_compute; reflexivity).
  apply (Q T nsame [OAdd 7; OUnwire (NVar 0) (NSlice (NVar 1))] s) in A; [|intros i; constructor|repeat constructor|repeat constructor; intros []|exact E]. rewrite B in A. tauto.
Qed.
Theorem C182_index_refuted : ~ (forall T same os s, (forall i, target (fst (T i)) /\ whole (snd (T i))) -> Forall plain os -> NoDup (added os) -> net_run T same os net_start = Ok s ->
  forall x i, sk s x i = true <-> In i (placed s) /\ uses x (T i)).
Proof.
  intros Q. set (T := fun _ : nat => (NIndex (NVar 0) (NVar 2), NVar 1)).
  destruct (net_run T nsame [OAdd 7; OClear] net_start) as [s| |] eqn:E; try discriminate E.
  assert (sk s 2 7 = true /\ placed s = []) as [A B] by (injection E as <-; split; vm_compute; reflexivity).
  apply (Q T nsame [OAdd 7; OClear] s) in A; [|intros i; repeat constructor|repeat constructor|repeat constructor; intros []|exact E]. rewrite B in A. tauto.
Qed.

(* C183: removing a statement keeps every entry *)
Theorem C183_remove_keeps : forall i s, sk (net_remove i s) = sk s /\ sr (net_remove i s) = sr s.
Proof. intros i s. auto. Qed.
Theorem C183_remove_refuted : ~ (forall (T : nat -> asg) s i, NoDup (placed s) -> (forall x j, sr s x j = true <-> In j (placed s) /\ drives x (fst (T j))) ->
  forall x j, sr (net_remove i s) x j = true <-> In j (placed (net_remove i s)) /\ drives x (fst (T j))).
Proof.
  intros Q. set (T := fun _ : nat => (NVar 0, NVar 1)). destruct (started T nsame [OAdd 7] (fun _ => tg_var 0)) as (s & E & K); [repeat constructor|repeat constructor; intros []|].
  assert (sr s 0 7 = true /\ placed (net_remove 7 s) = []) as [A B] by (injection E as <-; split; vm_compute; reflexivity).
  apply (Q T s 7 (kb_nodup T _ _ K) (kb_sr T _ _ K) 0 7) in A. rewrite B in A. tauto.
Qed.
(* taking an assignment back: right when both sides are signals, *)
Theorem C183_unassign : forall T s i x y, NoDup (placed s) -> T i = (NVar x, NVar y) ->
  (forall z j, sk s z j = true <-> In j (placed s) /\ uses z (T j)) -> (forall z j, sr s z j = true <-> In j (placed s) /\ drives z (fst (T j))) ->
  let s' := net_unassign T i s in
  (forall z j, sk s' z j = true <-> In j (placed s') /\ uses z (T j)) /\ (forall z j, sr s' z j = true <-> In j (placed s') /\ drives z (fst (T j))).
Proof.
  intros T s i x y N Ti K R s'. subst s'. unfold net_unassign. rewrite Ti. cbn [fst snd net_remove with_placed with_sr with_sk placed sk sr]. split; intros z j; rewrite put_false, erase_in by exact N; [rewrite K|rewrite R]; split.
  - intros [[I U] D]. split; [split; [exact I|]|exact U]. intros ->. apply D. split; [reflexivity|]. rewrite Ti in U. destruct U as [U|U]; cbn in U; now inv_o.
  - intros [[I D] U]. split; [auto|]. intros [-> _]. now apply D.
  - intros [[I U] D]. split; [split; [exact I|]|exact U]. intros ->. apply D. split; [reflexivity|]. rewrite Ti in U. cbn in U. now inv_o.
  - intros [[I D] U]. split; [auto|]. intros [-> _]. now apply D.
Qed.
(* not when the right side is an expression of signals *)
Theorem C183_unassign_refuted : ~ (forall T s i x, NoDup (placed s) -> fst (T i) = NVar x -> whole (snd (T i)) -> (forall z j, sk s z j = true <-> In j (placed s) /\ uses z (T j)) ->
  forall z j, sk (net_unassign T i s) z j = true <-> In j (placed (net_unassign T i s)) /\ uses z (T j)).
Proof.
  intros Q. set (T := fun _ : nat => (NVar 0, NOp (NVar 1) (NVar 2))). assert (forall i, target (fst (T i)) /\ whole (fst (T i)) /\ whole (snd (T i))) as Tg by (intros i; repeat constructor).
  destruct (started T nsame [OAdd 7] (fun i => proj1 (Tg i))) as (s & E & K); [repeat constructor|repeat constructor; intros []|].
  assert (sk s 1 7 = true) as A by (injection E as <-; reflexivity).
  pose proof (Q T s 7 0 (kb_nodup T _ _ K) eq_refl (proj2 (proj2 (Tg 0))) (C181_sinks T nsame [OAdd 7] s Tg ltac:(repeat constructor) ltac:(repeat constructor; intros []) E) 1 7) as X.
  apply X in A. clear X. injection E as <-. destruct A as [A _]. vm_compute in A. exact A.
Qed.

(* C184: a statement that was taken away and is added again is in the design, and no signal knows *)
Theorem C184_added_again : forall T same os s a b i, (forall i, target (fst (T i))) -> Forall plain os -> NoDup (added os) -> net_run T same os net_start = Ok s -> whole (fst (T i)) -> whole (snd (T i)) ->
  parented s i = true -> find (fun i => (same (fst (T i)) a && same (snd (T i)) b) || (same (snd (T i)) a && same (fst (T i)) b)) (placed s) = Some i ->
  exists s', net_add T i (net_unwire T same a b s) = Ok s' /\ In i (placed s') /\ forall x, sr s' x i = false /\ sk s' x i = false.
Proof.
  intros T same os s a b i Tg P N E Wl Wr Pa F. destruct (started T same os Tg P N) as (s' & E' & K). rewrite E in E'. injection E' as <-.
  pose proof (kept_unwire T same _ s a b K) as K'. pose proof (kb_nodup T _ _ K) as Nd. unfold net_unwire in *. rewrite F in *. set (s1 := net_remove i _) in *.
  assert (parented s1 i = true) as P1. { unfold s1. cbn [net_remove with_placed parented]. destruct (remove_sink_rest i (snd (T i)) (remove_source i (fst (T i)) s)) as (_ & -> & _). now destruct (remove_source_rest i (fst (T i)) s) as (_ & _ & ->). }
  assert (~ In i (placed s1)) as Ni. { unfold s1. cbn [net_remove with_placed placed]. destruct (remove_sink_rest i (snd (T i)) (remove_source i (fst (T i)) s)) as (-> & _). destruct (remove_source_rest i (fst (T i)) s) as (_ & -> & _). rewrite erase_in by exact Nd. tauto. }
  unfold net_add. rewrite P1. cbn [obind]. eexists. split; [reflexivity|]. split; [apply in_or_app; right; now left|]. intros x. cbn [with_placed sk sr]. split.
  - destruct (sr s1 x i) eqn:S1; [|reflexivity]. apply (kb_sr T _ _ K') in S1. tauto.
  - destruct (sk s1 x i) eqn:S1; [|reflexivity]. apply (kb_sk T _ _ K') in S1. destruct S1 as (_ & U & [I|O]); [contradiction|]. exfalso. destruct U as [U|U]; [now apply O, whole_open|now apply (whole_indexes _ x Wl)].
Qed.
Theorem C184_refuted : ~ (forall T same os s, (forall i, target (fst (T i)) /\ whole (fst (T i)) /\ whole (snd (T i))) -> Forall plain os -> net_run T same os net_start = Ok s ->
  forall x i, sr s x i = true <-> In i (placed s) /\ drives x (fst (T i))).
Proof.
  intros Q. set (T := fun _ : nat => (NVar 0, NVar 1)). set (os := [OAdd 7; OUnwire (NVar 0) (NVar 1); OAdd 7]).
  destruct (net_run T nsame os net_start) as [s| |] eqn:E; try discriminate E.
  assert (sr s 0 7 = false /\ placed s = [7]) as [A B] by (injection E as <-; split; vm_compute; reflexivity).
  assert (sr s 0 7 = true) as X; [|congruence]. apply (Q T nsame os s); [intros i; repeat constructor|repeat constructor|exact E|]. rewrite B. split; [now left|constructor].
Qed.

(* three statements, the middle one taken away *)
Definition T3 (i : nat) : asg := match i with 0 => (NVar 0, NOp (NVar 1) (NVar 2)) | 1 => (NCat (NVar 3) (NVar 4), NVar 1) | _ => (NVar 5, NCond (NVar 0) (NVar 3) (NCast (NVar 1))) end.
Example C181_ex : (forall i, target (fst (T3 i)) /\ whole (fst (T3 i)) /\ whole (snd (T3 i))) /\
  exists s, net_run T3 (fun a b => match a, b with NCat _ _, NCat _ _ => true | _, _ => nsame a b end) [OAdd 0; OAdd 1; OAdd 2; OUnwire (NVar 1) (NCat (NVar 3) (NVar 4))] net_start = Ok s /\ placed s = [0; 2] /\
  map (sk s 1) [0; 1; 2] = [true; false; true] /\ map (sr s 3) [0; 1; 2] = [false; false; false] /\ map (sr s 5) [0; 1; 2] = [false; false; true] /\ parented s 0 = true.
Proof. split; [intros [|[|i]]; repeat constructor|]. eexists. split; [reflexivity|]. repeat split. Qed.
Print Assumptions C181_built.
Print Assumptions C181_sources.
Print Assumptions C181_sinks.
Print Assumptions C181_no_use_missing.
Print Assumptions C181_sinks_of_a_new_design.
Print Assumptions C181_unwire.
Print Assumptions C181_clear.
Print Assumptions C182_what_stays.
Print Assumptions C182_slice_refuted.
Print Assumptions C182_index_refuted.
Print Assumptions C183_remove_keeps.
Print Assumptions C183_remove_refuted.
Print Assumptions C183_unassign.
Print Assumptions C183_unassign_refuted.
Print Assumptions C184_added_again.
Print Assumptions C184_refuted.
