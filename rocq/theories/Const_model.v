(* Model of constants, src/expr.cc:936-973, 1094-1128, 1405-1419. *)
From Verif Require Import Base Num_model.
Local Open Scope Z_scope.

(* memcpy of a uint64_t into an int64_t and back *)
Definition to_i64 (u : Z) : Z := if u <? 2 ^ 63 then u else u - 2 ^ 64.
Definition of_i64 (v : Z) : Z := u64 v.
Inductive legality := Legal | Small | Big.

(* src/expr.cc:956-973  Const::is_legal; a shift by >= 64 is undefined behaviour.  width - 1
   is a uint32_t, so width 0 shifts by 2^32-1. *)
Definition is_legal (v w : Z) (signed : bool) : outcome legality :=
  if signed then
    if u32 (w - 1) <? 64 then
      let mn := to_i64 (u64 (Z.shiftl (2 ^ 64 - 1) (u32 (w - 1)))) in
      if v <? mn then Ok Small
      else
        let mx := to_i64 (u64 (u64 (Z.shiftl 1 (u32 (w - 1))) - 1)) in
        if v >? mx then Ok Big else Ok Legal
    else UB
  else
    olet mx := if w =? 64 then Ok (2 ^ 64 - 1)
               else if w <? 64 then Ok (u64 (Z.shiftl 1 w - 1)) else UB in
    if of_i64 v >? mx then Ok Big else Ok Legal.

Record const := { c_value : Z; c_width : Z; c_signed : bool }.

(* src/expr.cc:936-954  Const::Const; width 0 is refused by the Var constructor, :874 *)
Definition make_const (v w : Z) (signed : bool) : outcome const :=
  if w =? 0 then Throw else
  olet k := is_legal v w signed in
  match k with
  | Small => Throw
  | Big => if w <=? 64 then Throw else Ok {| c_value := v; c_width := w; c_signed := signed |}
  | Legal => Ok {| c_value := v; c_width := w; c_signed := signed |}
  end.
(* src/expr.cc:1094-1100  Const::set_value(int64_t) *)
Definition set_value (c : const) (v : Z) : outcome const :=
  olet k := is_legal v (c_width c) (c_signed c) in
  match k with
  | Legal => Ok {| c_value := v; c_width := c_width c; c_signed := c_signed c |}
  | _ => Throw
  end.
(* src/expr.cc:1123-1129  Const::set_width *)
Definition set_width (c : const) (w : Z) : outcome const :=
  olet k := is_legal (c_value c) w (c_signed c) in
  match k with
  | Legal => Ok {| c_value := c_value c; c_width := w; c_signed := c_signed c |}
  | _ => Throw
  end.
(* src/expr.cc:1102-1112  convert_string_to_int: char is signed on the usual targets; the
   last character is the least significant byte *)
Definition char_i64 (c : ascii) : Z :=
  let n := Z.of_nat (nat_of_ascii c) in if n <? 128 then n else n - 256.
Fixpoint convert_from (idx : Z) (l : list ascii) : Z :=
  match l with
  | [] => 0
  | c :: r => Z.lor (Z.shiftl (char_i64 c) idx) (convert_from (idx + 8) r)
  end.
Definition convert_string_to_int (s : string) : Z :=
  to_i64 (u64 (convert_from 0 (rev (list_ascii_of_string s)))).
(* src/expr.cc:1114-1121  Const::set_value(const std::string &): the size in bits is
   compared with sizeof(uint64_t), which is 8 *)
Definition set_value_string (c : const) (s : string) : outcome const :=
  if 8 * Z.of_nat (String.length s) >? 8 then Throw else set_value c (convert_string_to_int s).

(* a caller that catches the exceptions *)
Inductive const_op := OpValue (v : Z) | OpWidth (w : Z) | OpString (s : string).
Definition const_step (c : outcome const) (o : const_op) : outcome const :=
  olet c0 := c in
  match (match o with
         | OpValue v => set_value c0 v
         | OpWidth w => set_width c0 w
         | OpString s => set_value_string c0 s
         end) with
  | Ok c1 => Ok c1 | Throw => Ok c0 | UB => UB
  end.

(* src/expr.cc:1405-1419  Const::to_string for ordinary (not big-number) constants; negating
   INT64_MIN overflows *)
Definition const_to_string (c : const) : outcome string :=
  if c_signed c && (c_value c <? 0) then
    if c_value c =? - 2 ^ 63 then UB
    else Ok ("-" ++ dec (c_width c) ++ "'h" ++ fmt_hex (- c_value c))%string
  else Ok (dec (c_width c) ++ "'h" ++ fmt_hex (c_value c))%string.
