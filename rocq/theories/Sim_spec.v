(* The expressions and blocks for which the simulator is claimed to be right. *)
From Verif Require Import Base SV_spec IR IRSem_spec.
Local Open Scope Z_scope.

(* arithmetic and bitwise operators; comparisons *)
Definition arith_op (op : expr_op) : bool :=
  match op with Add | Minus | Multiply | And | Or | Xor => true | _ => false end.
Definition order_op (op : expr_op) : bool :=
  match op with LessThan | LessEqThan | GreaterThan | GreaterEqThan => true | _ => false end.

(* an expression counts as signed in kratos when all its operands do; SystemVerilog's rule is esigned *)
Fixpoint all_signed (G : tenv) (e : expr) : bool :=
  match e with
  | EVar x => d_signed (G x)
  | EConst _ _ s => s
  | EUn _ a | EExtend a _ | EConcat a _ => all_signed G a
  | EBin _ a b | ECond _ a b => all_signed G a && all_signed G b
  | ESlice _ _ _ => false
  end.

(* expressions of at most 64 bits without slices, with non-negative constants; signed operands
   up to 63 bits in arithmetic, none under an ordering or an extension; divisions whose operands
   kratos and SystemVerilog agree to be signed or not *)
Fixpoint sim_ok (G : tenv) (e : expr) : Prop :=
  match e with
  | EVar x => 1 <= d_width (G x) <= 64
  | EConst v w _ => 1 <= w <= 64 /\ 0 <= v < 2 ^ w
  | EUn op a =>
      sim_ok G a /\
      match op with
      | UNot | UOr | UPlus => True
      | UInvert => ewidth G a <= 63
      | UXor => ewidth G a <= 32
      | _ => False
      end
  | EBin op a b =>
      sim_ok G a /\ sim_ok G b /\ ewidth G a = ewidth G b /\
      let s := all_signed G a && all_signed G b in
      ((arith_op op = true \/ op = Divide /\ esigned G a && esigned G b = s \/ op = LogicalShiftRight)
         /\ ewidth G a <= (if s then 63 else 64)
       \/ order_op op = true /\ s = false /\ esigned G a && esigned G b = false
       \/ op = Eq)
  | ECond c a b => sim_ok G c /\ sim_ok G a /\ sim_ok G b
  | EConcat a b => sim_ok G a /\ sim_ok G b /\ ewidth G a + ewidth G b <= 64
  | EExtend a w => sim_ok G a /\ all_signed G a = false /\ esigned G a = false /\ w <= 64
  | ESlice _ _ _ => False
  end.
(* no division by zero and no shift by 64 or more happens, in any operand *)
Fixpoint defined (G : tenv) (r : venv) (e : expr) : Prop :=
  match e with
  | EUn _ a | EExtend a _ | ESlice a _ _ => defined G r a
  | EBin op a b =>
      defined G r a /\ defined G r b /\
      (op = Divide -> ev G r b <> 0) /\ (op = LogicalShiftRight -> ev G r b < 64)
  | ECond c a b => defined G r c /\ defined G r a /\ defined G r b
  | EConcat a b => defined G r a /\ defined G r b
  | _ => True
  end.

(* statements the simulator supports, over such expressions, assigning whole variables; case
   values and selectors of at most 32 bits *)
Definition good_expr (G : tenv) (e : expr) : Prop :=
  wt G e /\ sim_ok G e /\ forall r, defined G r e.
Inductive good_stmt (G : tenv) : stmt -> Prop :=
| good_assign : forall k x e, good_expr G e -> ewidth G e = d_width (G x) ->
    good_stmt G (SAssign k (LVar x) e)
| good_if : forall c t f, good_expr G c -> Forall (good_stmt G) t -> Forall (good_stmt G) f ->
    good_stmt G (SIf c t f)
| good_switch : forall e cs d, good_expr G e -> ewidth G e <= 32 ->
    Forall (fun cb => 0 <= fst cb < 2 ^ ewidth G e /\ Forall (good_stmt G) (snd cb)) cs ->
    (forall b, d = Some b -> Forall (good_stmt G) b) ->
    good_stmt G (SSwitch e cs d)
| good_block : forall b, Forall (good_stmt G) b -> good_stmt G (SBlock b).
(* every variable holds a value of its width *)
Definition in_range (G : tenv) (r : venv) : Prop := forall x, 0 <= r x < 2 ^ d_width (G x).
