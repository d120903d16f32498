(* Model of expression printing, src/expr.cc:1426-1466, 1804-1809 and src/util.cc:34-92, as a
   list of tokens: white space, which never separates two operator symbols of different
   operators, is not modelled here. *)
From Verif Require Import Base IR Print_spec Lex_spec.

(* src/util.cc:34-92  ExprOpStr *)
Definition op_sym (op : expr_op) : option sym :=
  match op with
  | UInvert => Some YInv | UNot => Some YNot
  | UMinus | Minus => Some YMinus
  | UPlus | Add => Some YPlus
  | Divide => Some YDiv | Multiply => Some YMul | Mod => Some YMod
  | LogicalShiftRight => Some YShr | SignedShiftRight => Some YAshr | ShiftLeft => Some YShl
  | UOr | Or => Some YOr | UAnd | And => Some YAnd | UXor | Xor => Some YXor
  | LessThan => Some YLt | GreaterThan => Some YGt
  | LessEqThan => Some YLe | GreaterEqThan => Some YGe
  | Eq => Some YEq | Neq => Some YNe
  | Power => Some YPow | LAnd => Some YLAnd | LOr => Some YLOr
  | Conditional | Concat | Extend | Duplicate => None
  end.
Definition sym_tok (op : expr_op) : list tok :=
  match op_sym op with Some s => [TSym s] | None => [] end.
(* the operator tag of a child expression; atoms have none *)
Definition same_op (op : expr_op) (a : expr) : bool :=
  match a with
  | EUn op' _ => expr_op_eqb op op'
  | EBin op' _ _ => expr_op_eqb op op'
  | _ => false
  end.
Definition is_expr (c : expr) : bool :=
  match c with
  | EUn _ _ | EBin _ _ _ | ECond _ _ _ | EConcat _ _ | EExtend _ _ => true
  | _ => false
  end.
Definition paren (ts : list tok) : list tok := TLP :: ts ++ [TRP].
(* src/expr.cc:1426-1466  expr_to_string(expr, is_top, ...), with
   src/expr.cc:1804-1809  ConditionalExpr::to_string *)
Fixpoint expr_to_string (top : bool) (e : expr) : list tok :=
  let wrap ts := if top then ts else paren ts in
  match e with
  | EUn op a => wrap (sym_tok op ++ expr_to_string (same_op op a) a)
  | EBin op a b =>
      wrap (expr_to_string (same_op op a) a ++ sym_tok op ++ expr_to_string (same_op op b) b)
  | ECond c a b =>
      wrap ((if is_expr c then paren (expr_to_string true c) else expr_to_string true c)
            ++ [TQ] ++ expr_to_string true a ++ [TColon] ++ expr_to_string true b)
  | _ => [TAtom e]
  end.
(* src/expr.cc:1468  Expr::to_string *)
Definition to_string (e : expr) : list tok := expr_to_string true e.

(* The same functions with their actual text, for expressions whose operands are names;
   spaces as in the format strings of src/expr.cc:1452-1465 and 1808. *)
Local Open Scope string_scope.
Definition sym_text (s : sym) : string :=
  match s with
  | YInv => "~" | YNot => "!" | YMinus => "-" | YPlus => "+" | YDiv => "/" | YMul => "*"
  | YMod => "%" | YShr => ">>" | YAshr => ">>>" | YShl => "<<" | YOr => "|" | YAnd => "&"
  | YXor => "^" | YLt => "<" | YGt => ">" | YLe => "<=" | YGe => ">=" | YEq => "==" | YNe => "!="
  | YPow => "**" | YLAnd => "&&" | YLOr => "||"
  end.
Definition op_text (op : expr_op) : string :=
  match op_sym op with Some s => sym_text s | None => "" end.
Definition parens (t : string) : string := "(" ++ t ++ ")".
Fixpoint expr_text (nm : var -> string) (top : bool) (e : expr) : string :=
  let wrap t := if top then t else parens t in
  match e with
  | EVar x => nm x
  | EUn op a => wrap (op_text op ++ expr_text nm (same_op op a) a)
  | EBin op a b =>
      wrap (expr_text nm (same_op op a) a ++ " " ++ op_text op ++ " "
            ++ expr_text nm (same_op op b) b)
  | ECond c a b =>
      wrap ((if is_expr c then parens (expr_text nm true c) else expr_text nm true c)
            ++ " ? " ++ expr_text nm true a ++ ": " ++ expr_text nm true b)
  | _ => ""
  end.
Definition lexeme_of (nm : var -> string) (t : tok) : lexeme :=
  match t with
  | TAtom (EVar x) => LId (nm x)
  | TAtom _ => LOp ""
  | TSym s => LOp (sym_text s)
  | TLP => LOp "(" | TRP => LOp ")" | TQ => LOp "?" | TColon => LOp ":"
  end.
