(* Source files and their common directory. *)
From Verif Require Import Base Covparse_spec.
From Coq Require Import String Ascii.

Definition slash : ascii := "/".
Definition zero : ascii := ascii_of_nat 0.
Definition absolute (s : text) : Prop := exists r, s = slash :: r.
(* sorted, without duplicates, as the keys of a map: a is the smallest of them *)
Definition code (c : ascii) : nat := nat_of_ascii c.
Inductive less : text -> text -> Prop :=
| ls_nil c r : less [] (c :: r)
| ls_lt a b r s : (code a < code b)%nat -> less (a :: r) (b :: s)
| ls_eq a r s : less r s -> less (a :: r) (a :: s).
(* d is a directory that contains s *)
Definition inside_dir (d s : text) : Prop := exists r, s = d ++ slash :: r.
