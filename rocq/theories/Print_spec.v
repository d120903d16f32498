(* Reading a SystemVerilog expression back: operator symbols, precedence and left
   associativity as in IEEE 1800-2017 table 11-2, by precedence climbing. *)
From Verif Require Import Base SV_spec IR IRSem_spec.

Inductive sym : Type :=
| YInv | YNot | YMinus | YPlus | YDiv | YMul | YMod | YShr | YAshr | YShl | YOr | YAnd | YXor
| YLt | YGt | YLe | YGe | YEq | YNe | YPow | YLAnd | YLOr.
(* atoms are operands whose text needs no operator: names, literals, slices, { } *)
Inductive tok : Type :=
| TAtom (e : expr) | TSym (s : sym) | TLP | TRP | TQ | TColon.

(* prefix meaning of a symbol *)
Definition prefix (s : sym) : option expr_op :=
  match s with
  | YInv => Some UInvert | YNot => Some UNot | YMinus => Some UMinus | YPlus => Some UPlus
  | YOr => Some UOr | YAnd => Some UAnd | YXor => Some UXor
  | _ => None
  end.
(* infix meaning of a symbol and its precedence (higher binds tighter) *)
Definition infix (s : sym) : option (nat * expr_op) :=
  match s with
  | YPow => Some (10, Power)
  | YMul => Some (9, Multiply) | YDiv => Some (9, Divide) | YMod => Some (9, Mod)
  | YPlus => Some (8, Add) | YMinus => Some (8, Minus)
  | YShl => Some (7, ShiftLeft) | YShr => Some (7, LogicalShiftRight)
  | YAshr => Some (7, SignedShiftRight)
  | YLt => Some (6, LessThan) | YLe => Some (6, LessEqThan)
  | YGt => Some (6, GreaterThan) | YGe => Some (6, GreaterEqThan)
  | YEq => Some (5, Eq) | YNe => Some (5, Neq)
  | YAnd => Some (4, And) | YXor => Some (3, Xor) | YOr => Some (2, Or)
  | YLAnd => Some (1, LAnd) | YLOr => Some (0, LOr)
  | YInv | YNot => None
  end%nat.

Inductive mode : Type :=
| MTop                          (* a whole expression, ?: included *)
| MBin (p : nat)                (* operators of precedence at least p *)
| MLoop (p : nat) (a : expr)    (* after a left operand *)
| MUn.                          (* an operand *)

(* the fuel is only there to make the recursion structural; see [reads] *)
Fixpoint parse (n : nat) (m : mode) (ts : list tok) : option (expr * list tok) :=
  match n with
  | O => None
  | S n =>
      match m with
      | MTop =>
          match parse n (MBin 0) ts with
          | Some (c, TQ :: r) =>
              match parse n MTop r with
              | Some (a, TColon :: r') =>
                  match parse n MTop r' with
                  | Some (b, r'') => Some (ECond c a b, r'')
                  | None => None
                  end
              | _ => None
              end
          | x => x
          end
      | MBin p =>
          match parse n MUn ts with
          | Some (a, r) => parse n (MLoop p a) r
          | None => None
          end
      | MLoop p a =>
          match ts with
          | TSym s :: r =>
              match infix s with
              | Some (q, op) =>
                  if Nat.leb p q then
                    match parse n (MBin (S q)) r with
                    | Some (b, r') => parse n (MLoop p (EBin op a b)) r'
                    | None => None
                    end
                  else Some (a, ts)
              | None => Some (a, ts)
              end
          | _ => Some (a, ts)
          end
      | MUn =>
          match ts with
          | TAtom e :: r => Some (e, r)
          | TLP :: r =>
              match parse n MTop r with
              | Some (e, TRP :: r') => Some (e, r')
              | _ => None
              end
          | TSym s :: r =>
              match prefix s with
              | Some op =>
                  match parse n MUn r with
                  | Some (a, r') => Some (EUn op a, r')
                  | None => None
                  end
              | None => None
              end
          | _ => None
          end
      end
  end.
(* the text ts is the expression e *)
Definition reads (ts : list tok) (e : expr) : Prop := exists n, parse n MTop ts = Some (e, []).

(* same value in every state, same width and signedness *)
Definition same_value (G : tenv) (a b : expr) : Prop :=
  (forall r, ev G r a = ev G r b) /\ ewidth G a = ewidth G b /\ esigned G a = esigned G b.

Definition associative (op : expr_op) : bool :=
  match op with Add | Multiply | And | Or | Xor | LAnd | LOr => true | _ => false end.
Definition unary_op (op : expr_op) : bool :=
  match op with
  | UInvert | UNot | UMinus | Minus | UPlus | UOr | UAnd | UXor => true
  | _ => false
  end.
Definition binary_op (op : expr_op) : bool :=
  match op with
  | Add | Minus | Divide | Multiply | Mod | LogicalShiftRight | SignedShiftRight
  | ShiftLeft | Or | And | Xor | Power | LAnd | LOr
  | LessThan | GreaterThan | LessEqThan | GreaterEqThan | Eq | Neq => true
  | _ => false
  end.
(* expressions with operators in operator position, in which the right operand of an
   operator is not an application of the same operator unless it is associative, and a
   minus sign is not put in front of a subtraction *)
Fixpoint plain (e : expr) : Prop :=
  match e with
  | EUn op a =>
      unary_op op = true /\ plain a /\
      match a with EBin op' _ _ => op' <> op | _ => True end
  | EBin op a b =>
      binary_op op = true /\ plain a /\ plain b /\
      match b with EBin op' _ _ => op' = op -> associative op = true | _ => True end
  | ECond c a b => plain c /\ plain a /\ plain b
  | _ => True
  end.
