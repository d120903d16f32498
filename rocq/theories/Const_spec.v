(* What a constant of a given width and signedness can hold, and what a sized literal means. *)
From Verif Require Import Base SV_spec Num_spec Const_model.
Local Open Scope Z_scope.

Definition int64 (v : Z) : Prop := - 2 ^ 63 <= v < 2 ^ 63.
Definition representable (v w : Z) (signed : bool) : Prop :=
  if signed then - 2 ^ (w - 1) <= v < 2 ^ (w - 1) else 0 <= v < 2 ^ w.

(* IEEE 1800 sized hexadecimal literal, optionally negated: width ' h digits; its value is
   the w-bit pattern *)
Definition read_literal (s : string) : option (Z * Z) :=
  let '(neg, s) := match s with
                   | String "-" r => (true, r)
                   | _ => (false, s)
                   end in
  match read_num 10 s with
  | Some (w, String "'" (String "h" r)) =>
      match read_num 16 r with
      | Some (v, EmptyString) => Some (w, enc w (if neg : bool then - v else v))
      | _ => None
      end
  | _ => None
  end.
(* big-endian value of a character string *)
Fixpoint string_value (acc : Z) (s : string) : Z :=
  match s with
  | EmptyString => acc
  | String c r => string_value (acc * 256 + Z.of_nat (nat_of_ascii c)) r
  end.

(* value the constant stands for: unsigned constants use the word's unsigned reading *)
Definition meant (v : Z) (signed : bool) : Z := if signed then v else v mod 2 ^ 64.

(* a well-formed constant, and arguments that fit the C++ parameter types *)
Definition rep (c : const) : Prop := representable (meant (c_value c) (c_signed c)) (c_width c) (c_signed c).

Definition good (c : const) : Prop := int64 (c_value c) /\ 1 <= c_width c <= 64 /\ rep c.

Definition op_ok (o : const_op) : Prop :=
  match o with OpValue v => int64 v | OpWidth w => 1 <= w <= 64 | OpString _ => True end.

