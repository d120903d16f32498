(* Model of the merge-if pass on one marked block, src/optimize.cc:116-202. *)
From Verif Require Import Base IR.
Local Open Scope Z_scope.

(* src/optimize.cc:179-196 get_targeted_if: which statements are candidates.  As in
   IfCase_model, identity of the compared variable is equality of the expression. *)
Definition if_target (s : stmt) : option (expr * Z) :=
  match s with SIf (EBin Eq l (EConst k _ _)) _ _ => Some (l, k) | _ => None end.
Definition in_group (g : expr) (s : stmt) : bool :=
  match if_target s with Some (l, _) => expr_eqb l g | None => false end.
Definition same_const (a b : stmt) : bool :=
  match if_target a, if_target b with Some (_, k), Some (_, k') => k =? k' | _, _ => false end.

(* src/optimize.cc:147-156 the bodies of [b] are appended to those of [a] *)
Definition fuse (a b : stmt) : stmt :=
  match a, b with
  | SIf c t f, SIf _ t' f' => SIf c (t ++ t') (f ++ f')
  | _, _ => a
  end.
(* src/optimize.cc:139-159 first pass *)
Fixpoint merge1 (acc : list stmt) (s : stmt) : list stmt :=
  match acc with
  | [] => [s]
  | a :: r => if same_const a s then fuse a s :: r else a :: merge1 r s
  end.
(* src/optimize.cc:161-170 second pass *)
Definition nest (acc : list stmt) : option stmt :=
  match acc with
  | SIf c t f :: rest => Some (SIf c t (f ++ rest))
  | _ => None
  end.
(* the first if of the group stays in place, the others leave the block (173-176) *)
Fixpoint place (g : expr) (top : stmt) (done : bool) (l : list stmt) : list stmt :=
  match l with
  | [] => []
  | s :: r =>
      if in_group g s then if done then place g top true r else top :: place g top true r
      else s :: place g top done r
  end.
Definition merge_group (l : list stmt) (g : expr) : list stmt :=
  let grp := filter (in_group g) l in
  if Nat.leb (length grp) 1 then l
  else match nest (fold_left merge1 grp []) with
       | None => l
       | Some top => place g top false l
       end.
Definition targets (l : list stmt) : list expr :=
  nodup expr_eq_dec (flat_map (fun s => match if_target s with Some (g, _) => [g] | None => [] end) l).
(* src/optimize.cc:128-177 transform_block for a block with the merge_if_block attribute.
   [gs]: the order in which the groups are visited (pointer order in the C++). *)
Definition merge_if_block (gs : list expr) (l : list stmt) : list stmt :=
  fold_left merge_group gs l.
