(* What the checks of src/analysis.cc are for. *)
From Verif Require Import Base SV_spec IR IRSem_spec Design_spec Zero_spec.
Local Open Scope Z_scope.

(* Resets.  A signal is a port of a type, a signal cast to a type, or something else. *)
Inductive ptype := TData | TClock | TAsyncReset | TReset | TClockEnable.
Inductive sigkind := Port (t : ptype) | Cast (t : ptype) | Plain.
Definition on_edge (d : design) (x : var) (high : bool) : Prop := exists it, In it d /\ In (high, x) (events_of (i_proc it)).
Definition tests (d : design) (c : expr) : Prop := exists it t f, In it d /\ IRSem_spec.inside (SIf c t f) (body_of (i_proc it)).
(* x is tested for being high, or low *)
Inductive level_test (x : var) : bool -> expr -> Prop :=
| lt_high : level_test x true (EVar x)
| lt_not : level_test x false (EUn UNot (EVar x))
| lt_invert : level_test x false (EUn UInvert (EVar x)).

(* Combinational loops: x is an operand of the operators of e *)
Inductive operand (x : var) : expr -> Prop :=
| o_var : operand x (EVar x)
| o_un op a : operand x a -> operand x (EUn op a)
| o_left op a b : operand x a -> operand x (EBin op a b)
| o_right op a b : operand x b -> operand x (EBin op a b)
| o_then c a b : operand x a -> operand x (ECond c a b)
| o_else c a b : operand x b -> operand x (ECond c a b)
| o_cat_l a b : operand x a -> operand x (EConcat a b)
| o_cat_r a b : operand x b -> operand x (EConcat a b)
| o_ext a w : operand x a -> operand x (EExtend a w).

(* Connections: a module with its ports, and whether it has a body *)
Inductive dir := DIn | DOut | DInOut.
Record gport := { gp_dir : dir; gp_var : var }.
Record gen := { g_opaque : bool; g_ports : list gport }.
(* an assignment that can assign bit i of x *)
Definition may_drive (x : var) (i : Z) (l : lhs) : Prop :=
  match l with LVar y => y = x | LSlice y hi lo => y = x /\ lo <= i <= hi | LDyn y _ _ => y = x end.
Definition driven_in (d : design) (x : var) (i : Z) : Prop :=
  exists it k l e, In it d /\ IRSem_spec.inside (SAssign k l e) (body_of (i_proc it)) /\ may_drive x i l.

(* Names: the module a signal belongs to, whether it is a port, the parent of a module *)
Record names := { n_owner : var -> nat; n_port : var -> option dir; n_parent : nat -> option nat }.
(* the module whose assignment to x it is: an input is assigned by the parent *)
Definition home (N : names) (x : var) : option nat :=
  match n_port N x with Some DIn => n_parent N (n_owner N x) | _ => Some (n_owner N x) end.
(* y can be used in module m: its own signals and the ports of its instances *)
Definition visible (N : names) (m : nat) (y : var) : Prop :=
  n_owner N y = m \/ (n_parent N (n_owner N y) = Some m /\ n_port N y <> None).
