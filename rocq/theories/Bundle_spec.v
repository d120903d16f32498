(* Port bundles: named groups of ports. *)
From Verif Require Import Base Wire_spec.
From Coq Require Import String.
Local Open Scope string_scope.

(* width, size, signedness, direction and kind of a field *)
Record field := { f_width : Z; f_size : Z; f_signed : bool; f_dir : dir; f_kind : nat }.
Definition other_dir (d : dir) : dir := match d with DIn => DOut | DOut => DIn | DInOut => DInOut end.
Definition reversed (f : field) : field :=
  {| f_width := f_width f; f_size := f_size f; f_signed := f_signed f; f_dir := other_dir (f_dir f); f_kind := f_kind f |}.
(* what the field calls mean: the first definition of a name counts *)
Fixpoint first_def (l : list (string * field)) (n : string) : option field :=
  match l with [] => None | (k, f) :: r => if String.eqb n k then Some f else first_def r n end.
