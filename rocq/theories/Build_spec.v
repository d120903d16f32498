(* SystemVerilog's rules for widths and signs in expressions: IEEE 1800-2017 11.6.1 (table 11-21), 11.6.2, 11.8.1, 11.8.2.
   An operand that is context-determined takes the width and the sign of the whole expression it is in. *)
From Verif Require Import Base SV_spec IR IRSem_spec.
Local Open Scope Z_scope.

(* width of an expression on its own *)
Fixpoint cwidth (G : tenv) (e : expr) : Z :=
  match e with
  | EVar x => d_width (G x)
  | EConst _ w _ => w
  | EUn op a => if is_red op then 1 else cwidth G a
  | EBin op a b => if is_rel op then 1 else if is_shift op then cwidth G a else match op with Power => cwidth G a | _ => Z.max (cwidth G a) (cwidth G b) end
  | ECond _ a b => Z.max (cwidth G a) (cwidth G b)
  | ESlice _ hi lo => hi - lo + 1
  | EConcat a b => cwidth G a + cwidth G b
  | EExtend _ w => w
  end.
(* a value of w bits in a context of W bits that is signed or not *)
Definition widen (S : bool) (W w v : Z) : Z := enc W (num S w v).
(* the value of e in such a context *)
Fixpoint cev (G : tenv) (r : venv) (W : Z) (S : bool) (e : expr) : Z :=
  match e with
  | EVar x => widen S W (d_width (G x)) (enc (d_width (G x)) (r x))
  | EConst v w _ => widen S W w (enc w v)
  | EUn op a =>
      if is_red op then widen S W 1 (sv_un op (cwidth G a) (cev G r (cwidth G a) (esigned G a) a))
      else sv_un op W (cev G r W S a)
  | EBin op a b =>
      match op with
      | LAnd | LOr => widen S W 1 (sv_bin op false 1 (cev G r (cwidth G a) (esigned G a) a) (cev G r (cwidth G b) (esigned G b) b))
      | LessThan | LessEqThan | GreaterThan | GreaterEqThan | Eq | Neq =>
          let w := Z.max (cwidth G a) (cwidth G b) in
          let s := esigned G a && esigned G b in
          widen S W 1 (sv_bin op s w (cev G r w s a) (cev G r w s b))
      | ShiftLeft | LogicalShiftRight | SignedShiftRight => sv_bin op S W (cev G r W S a) (cev G r (cwidth G b) (esigned G b) b)
      | Power => enc W (num S W (cev G r W S a) ^ num (esigned G b) (cwidth G b) (cev G r (cwidth G b) (esigned G b) b))
      | _ => sv_bin op S W (cev G r W S a) (cev G r W S b)
      end
  | ECond c a b => if cev G r (cwidth G c) (esigned G c) c =? 0 then cev G r W S b else cev G r W S a
  | ESlice a hi lo => widen S W (hi - lo + 1) ((cev G r (cwidth G a) (esigned G a) a / 2 ^ lo) mod 2 ^ (hi - lo + 1))
  | EConcat a b => widen S W (cwidth G a + cwidth G b) (cev G r (cwidth G a) (esigned G a) a * 2 ^ cwidth G b + cev G r (cwidth G b) (esigned G b) b)
  | EExtend a w => widen S W w (enc w (num (esigned G a) (cwidth G a) (cev G r (cwidth G a) (esigned G a) a)))
  end.
(* what an assignment of e to a variable of w bits stores: 11.6.2, 10.7 *)
Definition stored (G : tenv) (r : venv) (w : Z) (e : expr) : Z := enc w (cev G r (Z.max w (cwidth G e)) (esigned G e) e).

(* the signs of the operands of divisions and arithmetic shifts are those of the expression around them; no powers *)
Fixpoint one_sign (G : tenv) (S : bool) (e : expr) : Prop :=
  match e with
  | EVar _ | EConst _ _ _ => True
  | EUn op a => if is_red op then one_sign G (esigned G a) a else one_sign G S a
  | EBin op a b =>
      match op with
      | LAnd | LOr => one_sign G (esigned G a) a /\ one_sign G (esigned G b) b
      | LessThan | LessEqThan | GreaterThan | GreaterEqThan | Eq | Neq => let s := esigned G a && esigned G b in one_sign G s a /\ one_sign G s b
      | ShiftLeft | LogicalShiftRight => one_sign G S a /\ one_sign G (esigned G b) b
      | SignedShiftRight => one_sign G S a /\ one_sign G (esigned G b) b /\ esigned G a = S
      | Divide | Mod => one_sign G S a /\ one_sign G S b /\ esigned G a && esigned G b = S
      | Power => False
      | _ => one_sign G S a /\ one_sign G S b
      end
  | ECond c a b => one_sign G (esigned G c) c /\ one_sign G S a /\ one_sign G S b
  | ESlice a _ _ | EExtend a _ => one_sign G (esigned G a) a
  | EConcat a b => one_sign G (esigned G a) a /\ one_sign G (esigned G b) b
  end.
(* operators that are written in expressions *)
Fixpoint no_sign_op (e : expr) : Prop :=
  match e with
  | EVar _ | EConst _ _ _ => True
  | EUn _ a | ESlice a _ _ | EExtend a _ => no_sign_op a
  | EBin op a b => match op with Divide | Mod | SignedShiftRight | Power => False | _ => no_sign_op a /\ no_sign_op b end
  | ECond c a b => no_sign_op c /\ no_sign_op a /\ no_sign_op b
  | EConcat a b => no_sign_op a /\ no_sign_op b
  end.
Fixpoint no_power (e : expr) : Prop :=
  match e with
  | EVar _ | EConst _ _ _ => True
  | EUn _ a | ESlice a _ _ | EExtend a _ => no_power a
  | EBin op a b => op <> Power /\ no_power a /\ no_power b
  | ECond c a b => no_power c /\ no_power a /\ no_power b
  | EConcat a b => no_power a /\ no_power b
  end.
Fixpoint unsigned_leaves (G : tenv) (e : expr) : Prop :=
  match e with
  | EVar x => d_signed (G x) = false
  | EConst _ _ s => s = false
  | EUn _ a | ESlice a _ _ | EExtend a _ => unsigned_leaves G a
  | EBin _ a b | EConcat a b => unsigned_leaves G a /\ unsigned_leaves G b
  | ECond c a b => unsigned_leaves G c /\ unsigned_leaves G a /\ unsigned_leaves G b
  end.
(* e with a variable t written out as s *)
Fixpoint written_out (t : var) (s e : expr) : expr :=
  match e with
  | EVar x => if Nat.eqb x t then s else e
  | EConst _ _ _ => e
  | EUn op a => EUn op (written_out t s a)
  | EBin op a b => EBin op (written_out t s a) (written_out t s b)
  | ECond c a b => ECond (written_out t s c) (written_out t s a) (written_out t s b)
  | ESlice a hi lo => ESlice (written_out t s a) hi lo
  | EConcat a b => EConcat (written_out t s a) (written_out t s b)
  | EExtend a w => EExtend (written_out t s a) w
  end.
(* the number an expression stands for *)
Definition number (G : tenv) (r : venv) (e : expr) : Z := num (esigned G e) (ewidth G e) (ev G r e).
(* a variable or a part of one; a constant *)
Fixpoint signal (e : expr) : bool := match e with EVar _ => true | ESlice a _ _ => signal a | _ => false end.
Definition constant (e : expr) : bool := match e with EConst _ _ _ => true | _ => false end.
