(* What it means for an expression over parameters to have a value, and for an object of the IR to hang off a
   variable.  Nothing here comes from the code. *)
From Coq Require Import ZArith List Bool.
Import ListNotations.

(* An expression of parameters and constants: the kind a parametrised width is made of. *)
Inductive wexpr :=
| WParam (p : nat)
| WConst (v : Z)
| WOp (op : nat) (l : wexpr) (r : option wexpr)
| WTern (c l r : wexpr)
| WVar (x : nat).                                (* anything that is neither of these: a variable *)

(* The value of an expression, whatever the operators mean; a variable has no value when the design is built. *)
Fixpoint wvalue (sem : nat -> Z -> option Z -> Z) (val : nat -> Z) (e : wexpr) : option Z :=
  match e with
  | WParam p => Some (val p)
  | WConst v => Some v
  | WOp op l None => match wvalue sem val l with Some a => Some (sem op a None) | None => None end
  | WOp op l (Some r) =>
      match wvalue sem val l, wvalue sem val r with
      | Some a, Some b => Some (sem op a (Some b)) | _, _ => None end
  | WTern c l r =>
      match wvalue sem val c, wvalue sem val l, wvalue sem val r with
      | Some a, Some b, Some d => Some (if Z.eqb a 0 then d else b) | _, _, _ => None end
  | WVar _ => None
  end.

(* The parameters an expression names. *)
Fixpoint wparams (e : wexpr) : list nat :=
  match e with
  | WParam p => [p]
  | WConst _ => []
  | WOp _ l None => wparams l
  | WOp _ l (Some r) => wparams l ++ wparams r
  | WTern c l r => wparams c ++ wparams l ++ wparams r
  | WVar _ => []
  end.

(* It has neither a ternary nor a variable in it. *)
Fixpoint plain (e : wexpr) : Prop :=
  match e with
  | WParam _ | WConst _ => True
  | WOp _ l None => plain l
  | WOp _ l (Some r) => plain l /\ plain r
  | WTern _ _ _ | WVar _ => False
  end.
