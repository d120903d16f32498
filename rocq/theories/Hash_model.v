(* src/hash.cc:36-360: structural hash of a module *)
From Verif Require Import Base IR IRSem_spec Hash_spec.
From Coq Require Import Ascii.
Local Open Scope Z_scope.

(* src/hash.cc:200-213 hash_64_fnv1a *)
Fixpoint fnv_from (h : Z) (s : string) : Z :=
  match s with
  | EmptyString => h
  | String c r => fnv_from (u64 (Z.lxor h (Z.of_nat (nat_of_ascii c)) * 1099511628211)) r
  end.
Definition fnv (s : string) : Z := fnv_from 14695981039346656037 s.
(* src/hash.cc:176-179, 215-217, 346-348; 0 < n < 64 *)
Definition rotl (v n : Z) : Z := Z.lor (u64 (Z.shiftl v n)) (Z.shiftr v (64 - n)).
Definition magic : Z := 11400714819323198486.
(* src/hash.cc:219-239 hash_var; a null operand counts 0.  text is Var::to_string, width is
   Var::width; parametrized widths are left out. *)
Definition op_code (op : expr_op) : Z :=
  match op with
  | UInvert => 0 | UMinus => 1 | UPlus => 2 | UOr => 3 | UNot => 4 | UAnd => 5 | UXor => 6
  | Add => 7 | Minus => 8 | Divide => 9 | Multiply => 10 | Mod => 11 | LogicalShiftRight => 12
  | SignedShiftRight => 13 | ShiftLeft => 14 | Or => 15 | And => 16 | Xor => 17 | Power => 18
  | LAnd => 19 | LOr => 20 | LessThan => 21 | GreaterThan => 22 | LessEqThan => 23
  | GreaterEqThan => 24 | Eq => 25 | Neq => 26 | Conditional => 27 | Concat => 28 | Extend => 29
  | Duplicate => 30
  end.
Record printer := { p_text : expr -> string; p_ltext : lhs -> string; p_lwidth : lhs -> Z; p_width : expr -> Z }.
Fixpoint hash_var (P : printer) (e : expr) : Z :=
  match e with
  | EConst v _ _ => u64 v
  | EUn op a => Z.lxor (hash_var P a) (op_code op)
  | EBin op a b => Z.lxor (Z.lxor (hash_var P a) (hash_var P b)) (op_code op)
  | ECond _ a b => Z.lxor (Z.lxor (hash_var P a) (hash_var P b)) (op_code Conditional)
  | EConcat a b => Z.lxor (Z.lxor (hash_var P a) (hash_var P b)) (op_code Concat)
  | EExtend a _ => Z.lxor (hash_var P a) (op_code Extend)
  | EVar _ | ESlice _ _ _ => Z.lxor (fnv (p_text P e)) (p_width P e)
  end.
Definition hash_lhs (P : printer) (l : lhs) : Z := Z.lxor (fnv (p_ltext P l)) (p_lwidth P l).

(* a shift of a uint64_t by 64 or more is undefined *)
Definition at_level (L : Z) (h : list Z) : outcome (list Z) := if 64 <=? L then UB else Ok h.
Definition shl (v L : Z) : Z := u64 (Z.shiftl v L).
(* src/hash.cc:266-271 *)
Definition hash_assign (P : printer) (L : Z) (l : lhs) (e : expr) : outcome (list Z) :=
  at_level L [rotl (Z.lxor (hash_lhs P l) (rotl (hash_var P e) 1)) L].
(* src/hash.cc:266-289 with the traversal of src/ir.cc:24-40: the bodies of if, switch and for
   are nodes of their own, so their statements are two levels down *)
Section visit.
  Variable P : printer.
  Fixpoint hash_stmt (L : Z) (s : stmt) {struct s} : outcome (list Z) :=
    let fix all (L : Z) (l : list stmt) {struct l} : outcome (list Z) :=
      match l with [] => Ok [] | s :: r => olet a := hash_stmt L s in olet b := all L r in Ok (a ++ b) end in
    match s with
    | SAssign _ l e => hash_assign P L l e
    | SIf c t f =>
        olet h := at_level L [Z.lxor (rotl magic 1) (shl (fnv (p_text P c)) L)] in
        olet a := all (L + 2) t in olet b := all (L + 2) f in Ok (h ++ a ++ b)
    | SSwitch e cs d =>
        olet h := at_level L [Z.lxor (rotl magic 2) (shl (fnv (p_text P e)) L)] in
        olet a := (fix cases (l : list (Z * list stmt)) : outcome (list Z) :=
                     match l with [] => Ok [] | c :: r => olet a := all (L + 2) (snd c) in olet b := cases r in Ok (a ++ b) end) cs in
        olet b := match d with Some b => all (L + 2) b | None => Ok [] end in Ok (h ++ a ++ b)
    | SFor _ _ _ _ body => all (L + 2) body
    | SBlock body => all (L + 1) body
    | SReturn _ | SBreak | SOther _ => Ok []
    end.
  Fixpoint hash_stmts (L : Z) (l : list stmt) : outcome (list Z) :=
    match l with [] => Ok [] | s :: r => olet a := hash_stmt L s in olet b := hash_stmts L r in Ok (a ++ b) end.
  Fixpoint hash_cases (L : Z) (l : list (Z * list stmt)) : outcome (list Z) :=
    match l with [] => Ok [] | c :: r => olet a := hash_stmts (L + 2) (snd c) in olet b := hash_cases L r in Ok (a ++ b) end.
  (* src/hash.cc:291-323 *)
  Fixpoint event_text (evs : list event) : string :=
    match evs with
    | [] => ""
    | (p, x) :: r => ((if p then "1" else "0") ++ p_text P (EVar x) ++ event_text r)%string
    end.
  Definition hash_top (L : Z) (t : top) : outcome (list Z) :=
    match t with
    | TAssign _ l e => hash_assign P L l e
    | TComb b => olet h := at_level L [shl (rotl magic 3) L] in olet r := hash_stmts (L + 1) b in Ok (h ++ r)
    | TSeq evs b => olet h := at_level L [Z.lxor (shl (fnv (event_text evs)) L) (rotl magic 3)] in
                    olet r := hash_stmts (L + 1) b in Ok (h ++ r)
    | TInit b => hash_stmts (L + 1) b
    | TInst h => Ok [Z.lxor h (rotl magic 4)]
    end.
  Fixpoint hash_tops (L : Z) (l : list top) : outcome (list Z) :=
    match l with [] => Ok [] | s :: r => olet a := hash_top L s in olet b := hash_tops L r in Ok (a ++ b) end.
  (* src/ir.cc:24-40 from a module: its statements, then its child modules one level down;
     src/generator.cc:388-402 *)
  Fixpoint hash_gen (L : Z) (g : gen) : outcome (list Z) :=
    match g with
    | Gen _ _ body kids =>
        olet a := hash_tops (L + 1) body in
        olet b := (fix all (l : list gen) : outcome (list Z) :=
                     match l with [] => Ok [] | g :: r => olet a := hash_gen (L + 1) g in olet b := all r in Ok (a ++ b) end) kids in
        Ok (a ++ b)
    end.
End visit.

(* src/hash.cc:36-195 XXHash64 over a list of 64-bit words *)
Definition prime1 := 11400714785074694791.
Definition prime2 := 14029467366897019727.
Definition prime3 := 1609587929392839161.
Definition prime4 := 9650029242287828579.
Definition prime5 := 2870177450012600261.
Definition single (prev input : Z) : Z := u64 (rotl (u64 (prev + u64 (input * prime2))) 31 * prime1).
Definition state := (Z * Z * Z * Z)%type.
Fixpoint blocks (st : state) (l : list Z) : state * list Z :=
  match l with
  | a :: b :: c :: d :: r =>
      let '(s0, s1, s2, s3) := st in blocks (single s0 a, single s1 b, single s2 c, single s3 d) r
  | _ => (st, l)
  end.
Definition mix (r s : Z) : Z := u64 (u64 (Z.lxor r (single 0 s) * prime1) + prime4).
Definition word (r x : Z) : Z := u64 (u64 (rotl (Z.lxor r (single 0 x)) 27 * prime1) + prime4).
Definition finish (r : Z) : Z :=
  let r := u64 (Z.lxor r (Z.shiftr r 33) * prime2) in
  let r := u64 (Z.lxor r (Z.shiftr r 29) * prime3) in
  Z.lxor r (Z.shiftr r 32).
Definition xxh (words : list Z) (seed : Z) : Z :=
  let st := (u64 (seed + prime1 + prime2), u64 (seed + prime2), seed, u64 (seed - prime1)) in
  let total := 8 * Z.of_nat (length words) in
  let '((s0, s1, s2, s3), rest) := blocks st words in
  let r := if 32 <=? total
           then mix (mix (mix (mix (u64 (rotl s0 1 + rotl s1 7 + rotl s2 12 + rotl s3 18)) s0) s1) s2) s3
           else u64 (s2 + prime5) in
  finish (fold_left word rest (u64 (r + total))).
(* src/hash.cc:242-264, 351-360 *)
Definition seed (g : gen) : Z :=
  match g with Gen name vars _ _ => fold_left (fun h v => Z.lxor h (fnv v)) vars (shl (fnv name) 32) end.
Definition hash_generator (P : printer) (g : gen) : outcome Z :=
  olet w := hash_gen P 0 g in Ok (xxh w (seed g)).
