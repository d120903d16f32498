(* Model of the wire-merging pass at module level, src/optimize.cc:370-529. *)
From Verif Require Import Base IR.
Local Open Scope Z_scope.

(* module-level statements as the pass sees them: an assignment slice to slice (bit ranges
   inside non-slice parents), a whole-variable assignment, or anything else *)
Inductive wire : Type :=
| WSlice (l : var) (lhi llo : Z) (r : var) (rhi rlo : Z)
| WWhole (l r : var)
| WOther (id : nat).
Definition wire_eq_dec (a b : wire) : {a = b} + {a <> b}.
Proof. decide equality; try apply Z.eq_dec; apply Nat.eq_dec. Defined.

(* width: Var::width(); shape: Var::size() *)
Record shapes := { s_width : var -> Z; s_size : var -> list Z }.
Definition zlist_eqb (a b : list Z) : bool := if list_eq_dec Z.eq_dec a b then true else false.

(* src/optimize.cc:444-452: equal width, same number of dimensions, same first dimension *)
Definition same_shape (S : shapes) (a b : var) : bool :=
  (s_width S a =? s_width S b)
  && Nat.eqb (length (s_size S a)) (length (s_size S b))
  && match s_size S a, s_size S b with
     | x :: _, y :: _ => x =? y
     | _, _ => false
     end.
Definition pair_of (S : shapes) (s : wire) : option (var * var) :=
  match s with
  | WSlice l _ _ r _ _ => if same_shape S l r then Some (l, r) else None
  | _ => None
  end.
Definition pair_eq_dec (a b : var * var) : {a = b} + {a <> b}.
Proof. decide equality; apply Nat.eq_dec. Defined.
Definition in_pair (S : shapes) (p : var * var) (s : wire) : bool :=
  match pair_of S s with Some q => if pair_eq_dec q p then true else false | None => false end.
Definition pairs (S : shapes) (l : list wire) : list (var * var) :=
  nodup pair_eq_dec (flat_map (fun s => match pair_of S s with Some p => [p] | None => [] end) l).
(* src/optimize.cc:457-464: merged when there are as many statements as bits *)
Definition full (S : shapes) (l : list wire) (p : var * var) : bool :=
  Z.of_nat (length (filter (in_pair S p) l)) =? s_width S (fst p).
(* src/optimize.cc:378-390, 466-489: the merged statements are removed, one assignment per
   pair is appended.  The C++ appends in pointer order of the pairs, the model in order of
   appearance. *)
Definition merge_wires (S : shapes) (l : list wire) : list wire :=
  let ps := filter (full S l) (pairs S l) in
  filter (fun s => negb (existsb (fun p => in_pair S p s) ps)) l
  ++ map (fun p => WWhole (fst p) (snd p)) ps.

(* The same pass on one statement block, src/optimize.cc:391-407, 432-456, 491-520: the new
   assignment goes to the end of the block and takes the kind of one of the merged ones (the
   C++ takes the one with the smallest address; the model the first). *)
Definition block_pair (S : shapes) (s : stmt) : option (var * var) :=
  match s with
  | SAssign _ (LSlice y _ _) (ESlice (EVar x) _ _) => if same_shape S y x then Some (y, x) else None
  | _ => None
  end.
Definition in_block_pair (S : shapes) (p : var * var) (s : stmt) : bool :=
  match block_pair S s with Some q => if pair_eq_dec q p then true else false | None => false end.
Definition block_pairs (S : shapes) (l : list stmt) : list (var * var) :=
  nodup pair_eq_dec (flat_map (fun s => match block_pair S s with Some p => [p] | None => [] end) l).
Definition block_full (S : shapes) (l : list stmt) (p : var * var) : bool :=
  Z.of_nat (length (filter (in_block_pair S p) l)) =? s_width S (fst p).
Definition first_kind (l : list stmt) : akind :=
  match l with SAssign k _ _ :: _ => k | _ => Undefined end.
Definition merge_block (S : shapes) (l : list stmt) : list stmt :=
  let ps := filter (block_full S l) (block_pairs S l) in
  filter (fun s => negb (existsb (fun p => in_block_pair S p s) ps)) l
  ++ map (fun p => SAssign (first_kind (filter (in_block_pair S p) l)) (LVar (fst p)) (EVar (snd p))) ps.
