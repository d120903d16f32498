(* Independent specification: what SystemVerilog (two-state) operators mean.
   Nothing here refers to the model of the C++ code. *)
From Verif Require Import Base.
Local Open Scope Z_scope.

(* a bit pattern of width w, read as an unsigned number *)
Definition fits (w v : Z) : Prop := 0 <= v < 2 ^ w.

(* the number a w-bit pattern stands for when read as two's complement *)
Definition sval (w v : Z) : Z := if v <? 2 ^ (w - 1) then v else v - 2 ^ w.

(* the number a pattern stands for *)
Definition num (signed : bool) (w v : Z) : Z := if signed then sval w v else v.

(* the w-bit pattern that stands for the integer z (both readings) *)
Definition enc (w z : Z) : Z := z mod 2 ^ w.

(* the exact integer result of the arithmetic operators, before encoding *)
Inductive arith_spec : expr_op -> Z -> Z -> Z -> Prop :=
| spec_add a b : arith_spec Add a b (a + b)
| spec_sub a b : arith_spec Minus a b (a - b)
| spec_mul a b : arith_spec Multiply a b (a * b)
  (* SystemVerilog division truncates towards zero; no value for divisor 0 *)
| spec_div a b : b <> 0 -> arith_spec Divide a b (Z.quot a b).

(* bit i of the result of a bitwise operator *)
Definition bit_spec (op : expr_op) : option (bool -> bool -> bool) :=
  match op with
  | And => Some andb | Or => Some orb | Xor => Some xorb | _ => None
  end.

(* relational operators on numbers *)
Definition rel_spec (op : expr_op) (a b : Z) : option Prop :=
  match op with
  | LessThan => Some (a < b)
  | LessEqThan => Some (a <= b)
  | GreaterThan => Some (a > b)
  | GreaterEqThan => Some (a >= b)
  | Eq => Some (a = b)
  | _ => None
  end.

(* the parity of the bits 0 .. n-1 *)
Fixpoint parity (n : nat) (v : Z) : bool :=
  match n with
  | O => false
  | S m => xorb (Z.testbit v (Z.of_nat m)) (parity m v)
  end.
