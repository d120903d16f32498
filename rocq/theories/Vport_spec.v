(* Port declarations of a Verilog module, as text. *)
From Coq Require Import Ascii String.
From Verif Require Import Base.
Local Open Scope Z_scope.

Definition chars (s : string) : list ascii := list_ascii_of_string s.
Definition code (c : ascii) : Z := Z.of_nat (nat_of_ascii c).
Definition is_digit (c : ascii) : Prop := 48 <= code c <= 57.
(* a character of an identifier *)
Definition is_word (c : ascii) : Prop :=
  is_digit c \/ 65 <= code c <= 90 \/ 97 <= code c <= 122 \/ code c = 95 \/ code c = 36.
Definition ident (s : list ascii) : Prop :=
  s <> [] /\ Forall is_word s /\ s <> chars "input" /\ s <> chars "output" /\ s <> chars "inout".

(* the number a string of digits stands for *)
Definition dec (s : list ascii) : Z := fold_left (fun a c => 10 * a + (code c - 48)) s 0.
Definition number (s : list ascii) : Prop := s <> [] /\ Forall is_digit s /\ dec s < 2 ^ 31.

Inductive dir := DIn | DOut | DInOut.

(* input [hi:lo] a, b; *)
Record decl := mkD { d_out : bool; d_range : option (list ascii * list ascii); d_names : list (list ascii) }.
Definition decl_dir (d : decl) : dir := if d_out d then DOut else DIn.
Definition kw (o : bool) : list ascii := chars (if o then "output" else "input").
Definition range_text (r : option (list ascii * list ascii)) : list ascii :=
  match r with None => [] | Some (h, l) => chars "[" ++ h ++ chars ":" ++ l ++ chars "] " end.
Fixpoint commas (l : list (list ascii)) : list ascii :=
  match l with [] => [] | [x] => x | x :: l => x ++ chars ", " ++ commas l end.
Definition decl_text (d : decl) : list ascii := kw (d_out d) ++ chars " " ++ range_text (d_range d) ++ commas (d_names d).
Definition decl_width (d : decl) : Z := match d_range d with None => 1 | Some (h, l) => dec h - dec l + 1 end.
Definition decl_ok (d : decl) : Prop :=
  d_names d <> [] /\ Forall ident (d_names d)
  /\ match d_range d with None => True | Some (h, l) => number h /\ number l /\ dec l <= dec h end.
(* the ports it declares *)
Definition decl_ports (d : decl) : list (list ascii * (dir * Z)) := map (fun n => (n, (decl_dir d, decl_width d))) (d_names d).

(* x occurs in s *)
Definition occurs (x s : list ascii) : Prop := exists a b, s = a ++ x ++ b.

(* Text that declares nothing and ends between two words. *)
Definition quiet (s : list ascii) : Prop := exists x c, s = x ++ [c] /\ ~ is_word c /\ forall o, ~ occurs (kw o) x.
(* What follows a declaration: a semicolon or a closing parenthesis, and then nothing that declares anything. *)
Definition gap (s : list ascii) : Prop := quiet s /\ match s with c :: _ => c = ";"%char \/ c = ")"%char | [] => False end.
Definition dir_of (o : bool) : dir := if o then DOut else DIn.
(* A range as it is written. *)
Definition bracket (h l : list ascii) : list ascii := chars "[" ++ h ++ chars ":" ++ l ++ chars "]".
