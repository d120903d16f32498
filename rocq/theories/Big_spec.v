(* Reading literals: hexadecimal digits in either case, and strings. *)
From Coq Require Import Ascii String.
From Verif Require Import Base Num_spec Const_spec.
Local Open Scope Z_scope.

(* a..f as A..F, everything else as it is *)
Definition up (c : ascii) : ascii :=
  let n := nat_of_ascii c in if (Nat.leb 97 n && Nat.leb n 102)%bool then ascii_of_nat (n - 32) else c.
Fixpoint upcase (s : string) : string := match s with EmptyString => EmptyString | String c s => String (up c) (upcase s) end.
(* IEEE 1800 sized literal whose digits are in either case *)
Definition read_sized (s : string) : option (Z * Z) := read_literal (upcase s).

(* IEEE 1800 string literal: on one line, ended by the first quote that no backslash precedes *)
Definition quote : ascii := ascii_of_nat 34.
Definition backslash : ascii := ascii_of_nat 92.
Definition newline : ascii := ascii_of_nat 10.
Definition escaped (c : ascii) : ascii :=
  if Nat.eqb (nat_of_ascii c) 110 then newline else if Nat.eqb (nat_of_ascii c) 116 then ascii_of_nat 9 else c.
Fixpoint read_chars (l : list ascii) : option (list ascii) :=
  match l with
  | [] => None
  | c :: r =>
      if Ascii.eqb c quote then match r with [] => Some [] | _ => None end
      else if Ascii.eqb c backslash then match r with [] => None | d :: r' => option_map (cons (escaped d)) (read_chars r') end
      else if Ascii.eqb c newline then None
      else option_map (cons c) (read_chars r)
  end.
Definition read_string (l : list ascii) : option (list ascii) :=
  match l with c :: r => if Ascii.eqb c quote then read_chars r else None | [] => None end.
Definition plain_char (c : ascii) : Prop := c <> quote /\ c <> backslash /\ c <> newline.
