(* Constants made from Python: python/kratos_expr.cc:542-573, and what they call: src/expr.cc:991-1009, 1405-1412, 2104-2113. *)
From Coq Require Import Ascii String.
From Verif Require Import Base Num_model Const_model.
Local Open Scope Z_scope.

(* _PyLong_NumBits: of the magnitude *)
Definition num_bits (v : Z) : Z := if v =? 0 then 0 else Z.log2 (Z.abs v) + 1.
(* _PyLong_Format(v, 16) is in lower case; without the sign and 0x (560-567) *)
Definition low (c : ascii) : ascii :=
  let n := nat_of_ascii c in if (Nat.leb 65 n && Nat.leb n 70)%bool then ascii_of_nat (n + 32) else c.
Fixpoint lowcase (s : string) : string := match s with EmptyString => EmptyString | String c s => String (low c) (lowcase s) end.
Definition py_hex (v : Z) : string := lowcase (hex (Z.abs v)).

(* src/expr.hh:455-468: hex_value_, negative_ and the width of a big number *)
Record big := { b_hex : string; b_neg : bool; b_width : Z; b_signed : bool }.
Inductive made := Word (c : const) | BigNum (b : big).

(* python/kratos_expr.cc:543-570.  mk is the constructor of a constant, make_const where it is defined.  PyLong_AsLongLong of a value
   that does not fit gives an OverflowError, which turns up when the function returns (552).  That the text of a
   number has hexadecimal digits only (src/expr.cc:994) is so and not checked here.  The value of a big number is all ones, -1
   as a signed word (src/expr.cc:993) *)
Definition py_constant (mk : Z -> Z -> bool -> outcome const) (v w : Z) (signed : bool) : outcome made :=
  if num_bits v >? w then Throw
  else if num_bits v <=? 64 then
    if (- 2 ^ 63 <=? v) && (v <? 2 ^ 63) then olet c := mk v w signed in Ok (Word c) else Throw
  else if (v <? 0) && negb signed then Throw
  else olet _ := mk (-1) w signed in Ok (BigNum {| b_hex := py_hex v; b_neg := v <? 0; b_width := w; b_signed := signed |}).

(* src/expr.cc:1406-1412 *)
Definition big_text (b : big) : string :=
  ((if b_neg b then "-" else "") ++ dec (b_width b) ++ "'h" ++ b_hex b)%string.

(* src/expr.cc:2104-2113 StringConst.  A shift by 64 or more (1108) is undefined, and so it is for more than eight characters *)
Definition string_constant (s : string) (w : Z) : outcome (const * string) :=
  if (8 <? Z.of_nat (String.length s)) then UB
  else
    olet c := make_const (convert_string_to_int s) w false in
    if 8 * Z.of_nat (String.length s) >? w then Throw else Ok (c, s).
(* kratos/util.py:189-194 const of a str *)
Definition py_string (s : string) : outcome (const * string) := string_constant s (8 * Z.of_nat (String.length s)).
(* src/expr.cc:2115 *)
Definition string_text (s : string) : list ascii := (ascii_of_nat 34 :: list_ascii_of_string s ++ [ascii_of_nat 34])%list.
