(* What it means that the uses of a signal a move to a signal b. *)
From Verif Require Import Base SV_spec IR IRSem_spec Design_spec Dce_spec.
Local Open Scope Z_scope.

(* b in the place of a *)
Fixpoint in_place (a b : var) (e : expr) : expr :=
  match e with
  | EVar x => EVar (if Nat.eqb x a then b else x)
  | EConst v w s => EConst v w s
  | EUn op x => EUn op (in_place a b x)
  | EBin op x y => EBin op (in_place a b x) (in_place a b y)
  | ECond c x y => ECond (in_place a b c) (in_place a b x) (in_place a b y)
  | ESlice x hi lo => ESlice (in_place a b x) hi lo
  | EConcat x y => EConcat (in_place a b x) (in_place a b y)
  | EExtend x w => EExtend (in_place a b x) w
  end.
(* the signal of a slice of slices of a signal *)
Fixpoint root (e : expr) : option var := match e with EVar x => Some x | ESlice x _ _ => root x | _ => None end.
(* the members of a concatenation *)
Fixpoint members (e : expr) : list expr := match e with EConcat x y => members x ++ [y] | _ => [e] end.
(* expressions with a use of a that does not move: in an extension of a or of a slice of it, in a slice of an
   expression, in a slice that is a test or a member of a concatenation, and from its second time on as a member *)
Inductive hides (a : var) : expr -> Prop :=
| hd_extended x w : root x = Some a -> hides a (EExtend x w)
| hd_extend x w : hides a x -> hides a (EExtend x w)
| hd_un op x : hides a x -> hides a (EUn op x)
| hd_left op x y : hides a x -> hides a (EBin op x y)
| hd_right op x y : hides a y -> hides a (EBin op x y)
| hd_test_slice c x y : root c = Some a -> c <> EVar a -> hides a (ECond c x y)
| hd_test c x y : hides a c -> hides a (ECond c x y)
| hd_then c x y : hides a x -> hides a (ECond c x y)
| hd_else c x y : hides a y -> hides a (ECond c x y)
| hd_sliced x hi lo : root x <> Some a -> In a (evars x) -> hides a (ESlice x hi lo)
| hd_member_slice x y p : In p (members (EConcat x y)) -> root p = Some a -> p <> EVar a -> hides a (EConcat x y)
| hd_member_twice x y l1 l2 l3 : members (EConcat x y) = l1 ++ EVar a :: l2 ++ EVar a :: l3 -> hides a (EConcat x y)
| hd_member x y p : In p (members (EConcat x y)) -> hides a p -> hides a (EConcat x y).
(* statements with a use of a that does not move: as an index on the left, or in a test or return of a itself *)
Inductive holds (a : var) : stmt -> Prop :=
| ho_index k l e : In a (lhs_reads l) -> holds a (SAssign k l e)
| ho_assign k l e : hides a e -> holds a (SAssign k l e)
| ho_if c t f : root c = Some a \/ hides a c -> holds a (SIf c t f)
| ho_switch e cs d : root e = Some a \/ hides a e -> holds a (SSwitch e cs d)
| ho_return e : root e = Some a \/ hides a e -> holds a (SReturn e).
(* statements where the use is not found: a right side that is another signal, a constant or a slice of something else *)
Definition elsewhere (a : var) (e : expr) : Prop :=
  match e with EVar x => x <> a | EConst _ _ _ => True | ESlice _ _ _ => root e <> Some a | _ => False end.
Inductive stuck (a : var) : stmt -> Prop :=
| st_assign k l e : In a (lhs_reads l) \/ In a (evars e) -> elsewhere a e -> stuck a (SAssign k l e)
| st_if c t f : In a (evars c) -> elsewhere a c -> stuck a (SIf c t f)
| st_switch e cs d : In a (evars e) -> elsewhere a e -> stuck a (SSwitch e cs d)
| st_return e : In a (evars e) -> elsewhere a e -> stuck a (SReturn e).
(* it' is it with the uses of a moved *)
Record moved (a b : var) (it it' : item) : Prop := {
  mo_id : i_id it' = i_id it; mo_gen : i_gen it' = i_gen it; mo_events : events_of (i_proc it') = events_of (i_proc it);
  mo_assigns : forall x, assigns x (body_of (i_proc it')) <-> assigns x (body_of (i_proc it));
  mo_reads : forall x, reads x (body_of (i_proc it')) <-> (x <> a /\ reads x (body_of (i_proc it))) \/ (x = b /\ reads a (body_of (i_proc it))) }.
