(* Numbers as text: {:X} and {} of the fmt library for non-negative integers. *)
From Verif Require Import Base.
Local Open Scope Z_scope.

(* upper-case digit character *)
Definition digit_char (d : Z) : ascii :=
  if d <? 10 then ascii_of_nat (Z.to_nat (48 + d)) else ascii_of_nat (Z.to_nat (55 + d)).
Fixpoint digits (fuel : nat) (base n : Z) (acc : string) : string :=
  match fuel with
  | O => acc
  | S f => let acc' := String (digit_char (n mod base)) acc in
           if n / base =? 0 then acc' else digits f base (n / base) acc'
  end.
(* digits needed never exceed the number of bits *)
Definition print_num (base n : Z) : string := digits (S (Z.to_nat (Z.log2 n))) base n EmptyString.
Definition dec (n : Z) : string := print_num 10 n.
Definition hex (n : Z) : string := print_num 16 n.
(* fmt prints a signed integer in hexadecimal as its magnitude with a minus sign *)
Definition fmt_hex (v : Z) : string :=
  if v <? 0 then String "-" (hex (- v)) else hex v.
