(* Comments and raw text: src/stmt.cc:968-1013. *)
From Coq Require Import Ascii.
From Verif Require Import Base Util_spec Util_model.
Local Open Scope Z_scope.

Definition carriage : ascii := ascii_of_nat 13.
Definition crlf : list ascii := [carriage; newline].

(* src/stmt.cc:968-975  the loop that erases every '\n' of a comment *)
Fixpoint erase_newlines (s : list ascii) : list ascii :=
  match s with
  | [] => []
  | c :: s => if Ascii.eqb c newline then erase_newlines s else c :: erase_newlines s
  end.

(* operator>> on a stream of the text: words between the white space of the C locale *)
Definition white : list ascii := map ascii_of_nat [32; 9; 10; 11; 12; 13]%nat.
Definition words (s : list ascii) : list (list ascii) := get_tokens s white.

(* src/stmt.cc:968-976  CommentStmt *)
Definition comment (s : list ascii) (width : Z) : list (list ascii) := line_wrap (words (erase_newlines s)) width.

(* src/stmt.cc:985-993  RawStringStmt of a text *)
Definition raw_text (s : list ascii) : list (list ascii) :=
  filter (fun l => match l with [] => false | _ => true end) (get_tokens s crlf).

(* src/stmt.cc:995-1006  RawStringStmt of several texts *)
Definition raw_texts (l : list (list ascii)) : list (list ascii) := flat_map raw_text l.

(* src/stmt.cc:1008-1012  clone of one with these lines *)
Definition raw_clone (lines : list (list ascii)) : list (list ascii) := raw_texts lines.
