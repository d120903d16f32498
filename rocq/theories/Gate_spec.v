(* Clock enable and reset of a sequential process. *)
From Verif Require Import Base IR IRSem_spec.
Local Open Scope Z_scope.

(* what a port is declared as, src/port.hh: PortType; variables that are no ports are Data *)
Inductive ptype := Data | Clock | AsyncReset | SyncReset | ClockEnable.
Definition ptype_eqb (a b : ptype) : bool :=
  match a, b with
  | Data, Data | Clock, Clock | AsyncReset, AsyncReset | SyncReset, SyncReset | ClockEnable, ClockEnable => true
  | _, _ => false
  end.
Definition ports := var -> ptype.

Definition high (G : tenv) (r : venv) (x : var) : bool := truth G r (EVar x).
(* an edge that changes nothing but the inputs, which i gives *)
Definition inputs := venv -> venv.
Definition edges (G : tenv) (body : list stmt) (is : list inputs) (r : venv) : venv :=
  fold_left (fun r i => activate G body (i r)) is r.
(* the process is one if statement whose condition reads a reset: it has a reset branch *)
Definition reset_process (pt : ports) (body : list stmt) (c : expr) (t f : list stmt) : Prop :=
  body = [SIf c t f] /\ exists x, In x (evars c) /\ (pt x = AsyncReset \/ pt x = SyncReset).
(* the block starts with an if on a clock enable *)
Definition starts_gated (pt : ports) (l : list stmt) : Prop :=
  exists x t f r, l = SIf (EVar x) t f :: r /\ pt x = ClockEnable.
(* a port or its negation *)
Definition port_or_not (x : var) (c : expr) : Prop := c = EVar x \/ exists op, c = EUn op (EVar x).
(* no synchronous reset is read *)
Definition no_sync (pt : ports) (e : expr) : Prop := forall x, In x (evars e) -> pt x <> SyncReset.
Arguments high G r x%nat_scope.
Arguments port_or_not x%nat_scope c.
