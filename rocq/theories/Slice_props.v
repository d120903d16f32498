(* C09, C67: slices. *)
From Verif Require Import Base Slice_spec Slice_model Slice_proofs.
Local Open Scope Z_scope.

(* Any chain of selections of a declared array is accepted exactly when it is in range, and
   then the resulting view has exactly the bits, dimensions and element width that packed
   row-major indexing gives, and its width is the number of its bits. *)
Theorem C09_slice_chain_addresses_row_major :
  forall (size : list Z) (w : Z) (ix : list (Z * Z)),
    size <> [] -> Forall (fun d => 0 < d) size -> 0 < w ->
    ((length size > 1)%nat -> last size 0 <> 1) ->
    let root := declare size w false in
    simple_chain (region_of root) ix ->
    match sels (region_of root) ix with
    | Some g => exists v, selects root ix = Ok v /\ region_of v = g
                          /\ v_width v = r_len g /\ v_high v = v_low v + r_len g - 1
                          /\ 0 <= v_low v /\ v_high v < v_width root
    | None => selects root ix = Throw
    end.
Proof.
  intros size w ix N F W L root S.
  pose proof (declare_ok size w N F W L) as O. pose proof (selects_ok ix root O S) as K.
  destruct (sels (region_of root) ix) as [g|] eqn:E; [|exact K].
  destruct K as (v & Hv & Ov & Hg). exists v. split; [exact Hv|]. split; [exact Hg|].
  destruct (ok_width v Ov) as [W1 W2]. rewrite Hg in W1. rewrite <- W1 in *.
  split; [auto|]. split; [lia|].
  assert (rok (region_of root)) as R.
  { split; [|exact W]. cbn. unfold dims_of. destruct (scalar root); [constructor|exact F]. }
  destruct (sels_inside ix _ _ R E) as (_ & I1 & I2).
  destruct (ok_width root O) as [Wr _]. rewrite Wr in I2. rewrite <- Hg in I1, I2.
  cbn [region_of r_off] in I1, I2. rewrite Hg in I2. change (v_low root) with 0 in *. lia.
Qed.
Print Assumptions C09_slice_chain_addresses_row_major.

(* What the specification's indexing means: selecting one element per dimension gives the
   element at the row-major position. *)
Theorem C09_full_index_is_row_major :
  forall (g : region) (idx : list Z),
    Forall2 (fun d i => 0 <= i < d) (r_dims g) idx ->
    sels g (map (fun i => (i, i)) idx)
    = Some {| r_off := r_off g + linear (r_dims g) idx * r_elem g; r_dims := []; r_elem := r_elem g |}.
Proof. exact (fun g idx H => sels_full idx g H). Qed.
Print Assumptions C09_full_index_is_row_major.

Example C09_ex :
  simple_chain (region_of (declare [4; 3] 8 false)) [(2, 2); (1, 1); (5, 2)] /\
  (exists v, selects (declare [4; 3] 8 false) [(2, 2); (1, 1); (5, 2)] = Ok v
             /\ v_low v = (2 * 3 + 1) * 8 + 2 /\ v_width v = 4) /\
  selects (declare [4; 3] 8 false) [(2, 2); (3, 3)] = Throw.
Proof.
  split; [cbn; lia|]. split; [|reflexivity]. eexists. split; [reflexivity|]. split; reflexivity.
Qed.

(* A range of a multi-dimensional array resizes the wrong dimension: the view's width is
   not the number of its bits. *)
Theorem C67_range_of_multi_dim_refuted :
  exists size w h l v, selects (declare size w false) [(h, l)] = Ok v
    /\ v_width v = 4 * 2 * 8 /\ v_high v - v_low v + 1 = 2 * 3 * 8.
Proof. exists [4; 3], 8, 1, 0. eexists. repeat split. Qed.
Print Assumptions C67_range_of_multi_dim_refuted.
