(* C31, C104, C105: structural hashes *)
From Verif Require Import Base IR IRSem_spec Print_model Hash_spec Hash_model Hash_proofs.
From Coq Require Import Permutation.
Local Open Scope Z_scope.

(* C31 is false: modules that differ in any of the ways of blind_t get the same hash, whatever the
   names, widths and texts; and such modules compute different values. *)
Theorem C31_hash_ignores_differences_refuted : forall P name vars kids a b,
  Forall2 blind_t a b -> hash_generator P (Gen name vars a kids) = hash_generator P (Gen name vars b kids).
Proof. intros. unfold hash_generator. rewrite !hash_gen_unfold, (blind_tops_hash P a b) by assumption. reflexivity. Qed.

Ltac blind := repeat first [apply be_swap | apply be_refl | apply be_cond | constructor].
Definition G31 : tenv := fun x => {| d_width := 4; d_signed := false |}.
Definition set2 (e : expr) : stmt := SAssign Blocking (LVar 2) e.
Definition differ (a b : list stmt) : Prop := exists r, activate G31 a r 2%nat <> activate G31 b r 2%nat.
Definition r31 : venv := fun x => match x with O => 5 | 1%nat => 3 | _ => 0 end.
(* x - y against y - x *)
Theorem C31_swapped_subtraction_refuted : exists a b, differ a b /\
  forall P name vars, hash_generator P (Gen name vars [TComb a] []) = hash_generator P (Gen name vars [TComb b] []).
Proof.
  exists [set2 (EBin Minus (EVar 0) (EVar 1))], [set2 (EBin Minus (EVar 1) (EVar 0))]. split.
  - exists r31. vm_compute. discriminate.
  - intros. apply C31_hash_ignores_differences_refuted. blind.
Qed.
(* the same cases under other labels *)
Theorem C31_case_labels_refuted : exists a b, differ a b /\
  forall P name vars, hash_generator P (Gen name vars [TComb a] []) = hash_generator P (Gen name vars [TComb b] []).
Proof.
  exists [SSwitch (EVar 0) [(5, [set2 (EVar 1)])] None], [SSwitch (EVar 0) [(6, [set2 (EVar 1)])] None]. split.
  - exists r31. vm_compute. discriminate.
  - intros. apply C31_hash_ignores_differences_refuted. blind.
Qed.
(* the selector of a multiplexer *)
Theorem C31_multiplexer_condition_refuted : exists a b, differ a b /\
  forall P name vars, hash_generator P (Gen name vars [TComb a] []) = hash_generator P (Gen name vars [TComb b] []).
Proof.
  exists [set2 (ECond (EBin LessThan (EVar 0) (EVar 1)) (EVar 0) (EVar 1))],
    [set2 (ECond (EBin GreaterThan (EVar 0) (EVar 1)) (EVar 0) (EVar 1))]. split.
  - exists r31. vm_compute. discriminate.
  - intros. apply C31_hash_ignores_differences_refuted. blind.
Qed.
(* blocking against non-blocking assignments *)
Theorem C31_assignment_kind_refuted : exists a b, differ a b /\
  forall P name vars evs, hash_generator P (Gen name vars [TSeq evs a] []) = hash_generator P (Gen name vars [TSeq evs b] []).
Proof.
  exists [SAssign Blocking (LVar 1) (EVar 0); set2 (EVar 1)], [SAssign NonBlocking (LVar 1) (EVar 0); set2 (EVar 1)]. split.
  - exists r31. vm_compute. discriminate.
  - intros. apply C31_hash_ignores_differences_refuted. blind.
Qed.
(* the bounds of a loop *)
Theorem C31_loop_bounds_refuted : exists a b, differ a b /\
  forall P name vars, hash_generator P (Gen name vars [TComb a] []) = hash_generator P (Gen name vars [TComb b] []).
Proof.
  exists [SFor 3 0 2 1 [set2 (EBin Add (EVar 2) (EVar 0))]], [SFor 3 0 3 1 [set2 (EBin Add (EVar 2) (EVar 0))]]. split.
  - exists r31. vm_compute. discriminate.
  - intros. apply C31_hash_ignores_differences_refuted. blind.
Qed.

(* A copy of a module - other variable objects with the same names, texts and widths, declared in
   any order, at every level of the hierarchy - has the same hash. *)
Theorem C104_copies_hash_equal : forall P P' f g g',
  (forall e, p_text P' (ren_e f e) = p_text P e) -> (forall e, p_width P' (ren_e f e) = p_width P e) ->
  (forall l, p_ltext P' (ren_l f l) = p_ltext P l) -> (forall l, p_lwidth P' (ren_l f l) = p_lwidth P l) ->
  copy_of f g g' -> hash_generator P' g' = hash_generator P g.
Proof.
  intros P P' f g g' H1 H2 H3 H4 C. unfold hash_generator.
  destruct (copy_gens P P' f H1 H2 H3 H4) as [CG _]. rewrite (CG g g' C).
  destruct (hash_gen P 0 g); cbn [obind]; try reflexivity. do 2 f_equal.
  destruct C as [n v v' body kids kids' Pv _]. cbn [seed]. symmetry. now apply xor_perm.
Qed.

(* An assignment 31 or more ifs deep makes the hash undefined (a shift by the nesting level). *)
Theorem C105_deep_nesting_undefined_refuted : forall P name vars kids n c k l e,
  31 <= Z.of_nat n -> hash_generator P (Gen name vars [TComb [nest n c (SAssign k l e)]] kids) = UB.
Proof.
  intros. unfold hash_generator. rewrite hash_gen_unfold. cbn [hash_tops hash_top].
  unfold at_level at 1. cbn [Z.leb]. rewrite hash_stmts_cons, (nest_ub P n c (SAssign k l e)); [reflexivity| |lia].
  intros L HL. cbn [hash_stmt]. unfold hash_assign, at_level. assert (64 <=? L = true) as -> by lia. reflexivity.
Qed.

Definition nm31 (x : var) : string := match x with O => "a" | 1%nat => "b" | 2%nat => "q" | _ => "i" end.
Definition ltext (nm : var -> string) (l : lhs) : string := match l with LVar x => nm x | _ => "" end.
Definition print31 (nm : var -> string) : printer :=
  {| p_text := expr_text nm true; p_ltext := ltext nm; p_lwidth := fun _ => 4; p_width := fun _ => 4 |}.
Definition g31 : gen := Gen "m" ["a"; "b"; "q"]%string
  [TComb [SIf (EVar 0) [set2 (EBin Minus (EVar 0) (EVar 1))] [set2 (EVar 1)]]; TSeq [(true, 0%nat)] [set2 (EVar 1)]] [].
(* the hash is not constant: another operator, another operand, another predicate *)
Example C31_ex : hash_generator (print31 nm31) g31 <> UB
  /\ hash_generator (print31 nm31) (Gen "m" [] [TComb [set2 (EBin Minus (EVar 0) (EVar 1))]] [])
     <> hash_generator (print31 nm31) (Gen "m" [] [TComb [set2 (EBin Add (EVar 0) (EVar 1))]] [])
  /\ hash_generator (print31 nm31) (Gen "m" [] [TComb [set2 (EVar 0)]] [])
     <> hash_generator (print31 nm31) (Gen "m" [] [TComb [set2 (EVar 1)]] [])
  /\ hash_generator (print31 nm31) (Gen "m" [] [TComb [SIf (EVar 0) [] []]] [])
     <> hash_generator (print31 nm31) (Gen "m" [] [TComb [SIf (EVar 1) [] []]] []).
Proof. repeat split; vm_compute; discriminate. Qed.
(* XXHash64 and FNV-1a on known values: the empty input and the 64-bit FNV-1a of "a" *)
Example C31_ex_hashes : xxh [] 0 = 17241709254077376921 /\ fnv "a" = 12638187200555641996.
Proof. vm_compute. auto. Qed.
(* shifting every identity by ten *)
Definition f31 (x : var) : var := (x + 10)%nat.
Example C104_ex : exists g', copy_of f31 g31 g' /\ g' <> g31 /\
  hash_generator (print31 (fun x => nm31 (x - 10)%nat)) g' = hash_generator (print31 nm31) g31.
Proof.
  eexists. split; [|split].
  - apply (copy_gen f31 "m" _ ["q"; "a"; "b"]%string _ [] []); [|constructor].
    apply Permutation_sym, (Permutation_cons_append ["a"; "b"]%string "q"%string).
  - discriminate.
  - vm_compute. reflexivity.
Qed.

Print Assumptions C31_hash_ignores_differences_refuted.
Print Assumptions C31_swapped_subtraction_refuted.
Print Assumptions C31_case_labels_refuted.
Print Assumptions C31_multiplexer_condition_refuted.
Print Assumptions C31_assignment_kind_refuted.
Print Assumptions C31_loop_bounds_refuted.
Print Assumptions C104_copies_hash_equal.
Print Assumptions C105_deep_nesting_undefined_refuted.
