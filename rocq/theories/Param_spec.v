(* What follows a parameter. *)
From Coq Require Import Relations.
From Verif Require Import Base IR IRSem_spec Param_model.
Local Open Scope Z_scope.

(* q was set from p, or from a parameter that was, and so on *)
Definition follows (st : pstate) (p q : param) : Prop := clos_refl_trans param (fun a b => In b (links st a)) p q.
(* a design in which nothing depends on parameters yet *)
Definition fresh_state (st : pstate) : Prop :=
  (forall p, wvars st p = [] /\ svars st p = [] /\ links st p = [] /\ parent st p = None)
  /\ (forall x, wparam st x = None) /\ (forall x i, sparam st x i = None).
(* the user sets a parameter from at most one other and then leaves it to that one, and gives a dimension
   another parameter, or a width another expression, only after taking the old one away; widths keep theirs *)
Definition disciplined (st : pstate) (a : action) : Prop :=
  match a with
  | SetValue p _ => parent st p = None
  | SetFrom q p => parent st q = None /\ q <> p
  | SetWidth x e => wparam st x = None
  | SetSize x i e => e = None \/ sparam st x i = None
  end.
Section Run.
  Variable pow : Z -> Z -> outcome Z.
  Variable G : tenv.
  Variable slices : xid -> list (list (Z * Z)).
  (* a history of actions that all return *)
  Inductive history : pstate -> Prop :=
  | Start st : fresh_state st -> history st
  | Step st fuel a st' : history st -> disciplined st a -> act pow G slices fuel a st = Ok st' -> history st'.
End Run.
