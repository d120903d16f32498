(* Reading numbers: independent of how they are printed. *)
From Verif Require Import Base.
Local Open Scope Z_scope.

Definition char_digit (c : ascii) : option Z :=
  let n := Z.of_nat (nat_of_ascii c) in
  if (48 <=? n) && (n <=? 57) then Some (n - 48)
  else if (65 <=? n) && (n <=? 70) then Some (n - 55)
  else None.
(* reads the longest run of digits of the base *)
Fixpoint read_digits (base acc : Z) (s : string) : Z * string :=
  match s with
  | EmptyString => (acc, s)
  | String c r =>
      match char_digit c with
      | Some d => if d <? base then read_digits base (acc * base + d) r else (acc, s)
      | None => (acc, s)
      end
  end.
(* at least one digit *)
Definition read_num (base : Z) (s : string) : option (Z * string) :=
  match s with
  | String c _ =>
      match char_digit c with
      | Some d => if d <? base then Some (read_digits base 0 s) else None
      | None => None
      end
  | EmptyString => None
  end.
