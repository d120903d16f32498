(* C30 and C103: unique module names *)
From Verif Require Import Base Name_model Uniq_spec Uniq_model Uniq_proofs.
From Coq Require Import Permutation.
Local Open Scope Z_scope.

(* Whatever the order in which names are visited and modules are stored, the pass ends without an
   error and the new names have every property of unique_names. *)
Theorem C30_modules_get_unique_names : forall I c names,
  well_placed c -> Permutation names (map fst (c_mods c)) ->
  Z.of_nat (length (c_mods c) + 3 * length (flat_map snd (c_mods c)) + 4) < 2 ^ 32 ->
  exists c', uniquify I c names = Ok c' /\ unique_names (design_of I c) (c_name c').
Proof. intros I c names W P B. destruct (uniquify_ok I c W names P B) as (c' & E & U & _). eauto. Qed.

(* Two modules share a name afterwards exactly when they shared name and hash. *)
Theorem C30_equal_names_iff_equal_name_and_hash : forall I c names c' g h,
  well_placed c -> Permutation names (map fst (c_mods c)) ->
  Z.of_nat (length (c_mods c) + 3 * length (flat_map snd (c_mods c)) + 4) < 2 ^ 32 ->
  uniquify I c names = Ok c' -> renamable (design_of I c) g -> renamable (design_of I c) h ->
  (c_name c' g = c_name c' h <-> c_name c g = c_name c h /\ n_hash I g = n_hash I h).
Proof.
  intros I c names c' g h W P B E Rg Rh. destruct (uniquify_ok I c W names P B) as (c1 & E1 & U & _).
  assert (c1 = c') as -> by (apply Ok_inj; congruence).
  destruct (String.string_dec (c_name c g) (c_name c h)) as [Q|Q].
  - rewrite (un_class _ _ U g h Rg Rh Q). cbn. tauto.
  - pose proof (un_apart _ _ U g h (proj1 Rg) (proj1 Rh) Q). tauto.
Qed.

(* A name of which an already generated (tracked) module exists is kept by such a module. *)
Theorem C30_tracked_modules_keep_the_name : forall I c names c' g,
  well_placed c -> Permutation names (map fst (c_mods c)) ->
  Z.of_nat (length (c_mods c) + 3 * length (flat_map snd (c_mods c)) + 4) < 2 ^ 32 ->
  uniquify I c names = Ok c' -> n_track I = true -> renamable (design_of I c) g -> n_tracked I g = true ->
  exists h, renamable (design_of I c) h /\ n_tracked I h = true /\ c_name c h = c_name c g /\ c_name c' h = c_name c g.
Proof.
  intros I c names c' g W P B E T R Tg. destruct (uniquify_ok I c W names P B) as (c1 & E1 & _ & U).
  assert (c1 = c') as -> by (apply Ok_inj; congruence). auto.
Qed.

(* An external module and a module of the design with the same name: whatever their contents,
   some module of the design still has the external module's name afterwards. *)
Theorem C103_external_name_shared_refuted : forall I c names c' e g,
  well_placed c -> Permutation names (map fst (c_mods c)) ->
  Z.of_nat (length (c_mods c) + 3 * length (flat_map snd (c_mods c)) + 4) < 2 ^ 32 ->
  uniquify I c names = Ok c' -> in_design c e -> n_ext I e = true -> renamable (design_of I c) g -> c_name c e = c_name c g ->
  exists h, renamable (design_of I c) h /\ c_name c' h = c_name c' e.
Proof.
  intros I c names c' e g W P B E De Xe R Q. destruct (uniquify_ok I c W names P B) as (c1 & E1 & U & _).
  assert (c1 = c') as -> by (apply Ok_inj; congruence).
  destruct (un_kept _ _ U g R) as (h & Rh & _ & Eh). exists h. split; [exact Rh|]. rewrite Eh.
  rewrite (un_keep _ _ U e De); [cbn; congruence|]. intros (_ & N & _). contradiction.
Qed.

(* Three modules called a (two alike), one already called a_unq0, one external b and one own b. *)
Definition ex_ctx : ctx :=
  {| c_mods := [("a"%string, [0; 1; 2]%nat); ("a_unq0"%string, [3%nat]); ("b"%string, [4; 5]%nat)];
     c_name := fun g => match g with 0 | 1 | 2 => "a"%string | 3 => "a_unq0"%string | _ => "b"%string end%nat |}.
Definition ex_info (tr : bool) : info :=
  {| n_hash := fun g => match g with 0 | 2 => Some 7%Z | 1 => Some 8%Z | 3 => Some 7%Z | 5 => Some 9%Z | _ => None end%nat;
     n_ext := fun g => Nat.eqb g 4; n_track := tr; n_tracked := fun g => Nat.eqb g 1 |}.
Definition ex_names (tr : bool) (names : list string) : option (list string) :=
  match uniquify (ex_info tr) ex_ctx names with Ok c => Some (map (c_name c) [0; 1; 2; 3; 4; 5]%nat) | _ => None end.
Example C30_ex1 : ex_names false ["a"; "a_unq0"; "b"]%string = Some ["a"; "a_unq1"; "a"; "a_unq0"; "b"; "b"]%string.
Proof. vm_compute. reflexivity. Qed.
(* module 1 is tracked and comes first *)
Example C30_ex2 : ex_names true ["b"; "a_unq0"; "a"]%string = Some ["a_unq1"; "a"; "a_unq1"; "a_unq0"; "b"; "b"]%string.
Proof. vm_compute. reflexivity. Qed.
Example C30_ex_hyps : well_placed ex_ctx /\ Permutation ["b"; "a_unq0"; "a"]%string (map fst (c_mods ex_ctx))
  /\ Z.of_nat (length (c_mods ex_ctx) + 3 * length (flat_map snd (c_mods ex_ctx)) + 4) < 2 ^ 32
  /\ renamable (design_of (ex_info true) ex_ctx) 0%nat /\ renamable (design_of (ex_info true) ex_ctx) 1%nat
  /\ in_design ex_ctx 4%nat /\ n_ext (ex_info true) 4%nat = true /\ renamable (design_of (ex_info true) ex_ctx) 5%nat.
Proof.
  assert (forall g l, In (c_name ex_ctx g, l) (c_mods ex_ctx) -> In g l -> in_design ex_ctx g) as D by (intros; eexists; eauto).
  split; [split|].
  - repeat constructor; cbn; intuition discriminate.
  - cbn. intros k l H. repeat (destruct H as [H|H]; [injection H as <- <-; (split; [discriminate|]);
      (split; [repeat constructor; cbn; intuition discriminate|cbn; intuition (subst; reflexivity)])|]). destruct H.
  - split; [|split; [vm_compute; reflexivity|]].
    + cbn. apply Permutation_cons_app with (l1 := ["a"; "a_unq0"]%string) (l2 := []). apply perm_swap.
    + split; [|split; [|split; [|split; [reflexivity|]]]].
      * split; [eapply (D 0%nat); [now left|now left]|]. split; cbn; discriminate.
      * split; [eapply (D 1%nat); [now left|right; now left]|]. split; cbn; discriminate.
      * eapply (D 4%nat); [right; right; now left|now left].
      * split; [eapply (D 5%nat); [right; right; now left|right; now left]|]. split; cbn; discriminate.
Qed.

Print Assumptions C30_modules_get_unique_names.
Print Assumptions C30_equal_names_iff_equal_name_and_hash.
Print Assumptions C30_tracked_modules_keep_the_name.
Print Assumptions C103_external_name_shared_refuted.
