(* How operands of different widths are brought to one, and the check of assignments. *)
From Verif Require Import Base SV_spec IR IRSem_spec Const_model Sim_model.
Local Open Scope Z_scope.

Section Build.
  Variable G : tenv.
  (* src/expr.hh:210-211, 291-292, src/expr.cc:594-606: what a slice is taken from.  A width cast is an EExtend here, whether it
     makes its operand wider or not; so that it is not one of an operator, casts of casts are left out. *)
  Fixpoint root (e : expr) : expr := match e with ESlice a _ _ => root a | _ => e end.
  Definition is_base (e : expr) : bool := match root e with EVar _ => true | _ => false end.
  Definition is_const (e : expr) : bool := match e with EConst _ _ _ => true | _ => false end.
  (* src/expr.cc:2148-2157, 2184-2201 without iteration variables *)
  Definition safe_to_resize (e : expr) (w : Z) : bool := if is_base e then ewidth G e <=? w else true.
  (* src/expr.cc:727-740 resize_var.  The width of a Const object changes in place: see the objects below. *)
  Definition resize_var (e : expr) (w : Z) : expr := match e with EConst v _ s => EConst v w s | _ => EExtend e w end.
  (* src/expr.cc:742-793.  The widths of && and || are those of SystemVerilog here (LAnd and LOr are not in is_relational_op);
     arrays are not modelled. *)
  Definition build (op : expr_op) (a b : expr) : outcome expr :=
    if is_shift op && (ewidth G b <? ewidth G a) then Ok (EBin op a (resize_var b (ewidth G a)))
    else if negb (ewidth G a =? ewidth G b) then
      let '(a', b') :=
        if safe_to_resize a (ewidth G b) && negb (is_const b) then (resize_var a (ewidth G b), b)
        else if safe_to_resize b (ewidth G a) then (a, resize_var b (ewidth G a))
        else (a, b) in
      if ewidth G a' =? ewidth G b' then Ok (EBin op a' b') else Throw
    else Ok (EBin op a b).

  (* src/analysis.cc:94-121 check_expr *)
  Definition compares (op : expr_op) : bool := match op with LessThan | GreaterThan | LessEqThan | GreaterEqThan | Eq | Neq => true | _ => false end.
  Fixpoint check_expr (e : expr) : bool :=
    match e with
    | EVar _ | EConst _ _ _ | ESlice _ _ _ => true
    | EUn op a => check_expr a
    | EBin op a b => (compares op || ((ewidth G a =? ewidth G e) && (ewidth G b =? ewidth G e))) && check_expr a && check_expr b
    | ECond _ a b => (ewidth G a =? ewidth G e) && (ewidth G b =? ewidth G e) && check_expr a && check_expr b
    (* the two operands of a concatenation *)
    | EConcat a b => check_expr a && check_expr b
    | EExtend a _ => check_expr a
    end.
  (* src/analysis.cc:21-51 visit(AssignStmt): the right side after the check *)
  Definition verify (w : Z) (s : bool) (e : expr) : outcome expr :=
    olet e := match e with
              | EConst v ew es =>
                  if ew =? w then Ok e else
                  match make_const v w es with Ok _ => Ok (EConst v w es) | Throw => Ok e | UB => UB end
              | _ => Ok e
              end in
    if negb (ewidth G e =? w) then Throw
    else if negb (Bool.eqb (ksigned G e) s) then Throw
    else if check_expr e then Ok e else Throw.
End Build.

(* Const objects: an operator has a reference to its operands, and the width of a Const is in the object *)
Inductive oper : Type := OpVar (w : Z) | OpConst (c : nat).
Definition owidth (cw : nat -> Z) (o : oper) : Z := match o with OpVar w => w | OpConst c => cw c end.
Definition set_cwidth (cw : nat -> Z) (c : nat) (w : Z) : nat -> Z := fun d => if Nat.eqb d c then w else cw d.
(* src/expr.cc:742-770 of a variable and a constant: the widths of the constants afterwards *)
Definition build_const (cw : nat -> Z) (w : Z) (c : nat) : nat -> Z := if w =? cw c then cw else set_cwidth cw c w.
(* src/expr.cc:806-818 Expr::width of an operator that is not a comparison *)
Definition op_width (cw : nat -> Z) (a b : oper) : outcome Z := if owidth cw a =? owidth cw b then Ok (owidth cw a) else Throw.
