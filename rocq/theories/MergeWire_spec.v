(* Which bit is connected to which. *)
From Verif Require Import Base IR MergeWire_model.
Local Open Scope Z_scope.

(* statement s connects bit i of y to bit j of x *)
Definition connects1 (W : var -> Z) (s : wire) (y : var) (i : Z) (x : var) (j : Z) : Prop :=
  match s with
  | WSlice l lhi llo r rhi rlo => l = y /\ r = x /\ llo <= i <= lhi /\ j = i - llo + rlo
  | WWhole l r => l = y /\ r = x /\ 0 <= i < W l /\ j = i
  | WOther _ => False
  end.
Definition connects (W : var -> Z) (l : list wire) y i x j : Prop :=
  exists s, In s l /\ connects1 W s y i x j.
Definition drives (W : var -> Z) (s : wire) (y : var) (i : Z) : Prop :=
  exists x j, connects1 W s y i x j.
(* no bit has two drivers among the assignments *)
Definition single_driver (W : var -> Z) (l : list wire) : Prop :=
  forall n m s s' y i, nth_error l n = Some s -> nth_error l m = Some s' ->
    drives W s y i -> drives W s' y i -> n = m.
(* slices are inside their parents and equally wide *)
Definition wire_wf (W : var -> Z) (s : wire) : Prop :=
  match s with
  | WSlice l lhi llo r rhi rlo => 0 <= llo <= lhi /\ lhi < W l /\ 0 <= rlo /\ rhi < W r
                                  /\ lhi - llo = rhi - rlo
  | _ => True
  end.
(* the i-th bit is taken from the i-th bit *)
Definition straight (s : wire) : Prop :=
  match s with WSlice _ _ llo _ _ rlo => llo = rlo | _ => True end.

(* Blocks of non-blocking assignments: targets are whole variables or slices inside their
   variable; a slice copied to a slice keeps its index. *)
From Verif Require Import IRSem_spec.
Definition bwf (G : tenv) (s : stmt) : Prop :=
  match s with
  | SAssign NonBlocking (LVar _) _ => True
  | SAssign NonBlocking (LSlice y hi lo) e =>
      0 <= lo <= hi /\ hi < d_width (G y) /\
      match e with ESlice (EVar x) hi' lo' => hi' = hi /\ lo' = lo | _ => True end
  | _ => False
  end.
Definition bcovers (G : tenv) (s : stmt) (y : var) (i : Z) : Prop :=
  match s with
  | SAssign _ (LVar x) _ => x = y /\ 0 <= i < d_width (G x)
  | SAssign _ (LSlice x hi lo) _ => x = y /\ lo <= i <= hi
  | _ => False
  end.
Definition bsingle (G : tenv) (l : list stmt) : Prop :=
  forall n m s s' y i, nth_error l n = Some s -> nth_error l m = Some s' ->
    bcovers G s y i -> bcovers G s' y i -> n = m.
