(* Coverage files of simulators. *)
From Verif Require Import Base Num_model.
From Coq Require Import String Ascii.
Local Open Scope Z_scope.

Definition text := list ascii.
Definition chr (s : string) : text := list_ascii_of_string s.
Definition soh : ascii := ascii_of_nat 1.
Definition stx : ascii := ascii_of_nat 2.
Definition quote : ascii := "'".
Definition number (n : Z) : text := chr (dec n).
(* a line of verilator's coverage data: C '^Akey^Bvalue^Akey^Bvalue' count *)
Definition vpair (p : text * text) : text := soh :: fst p ++ stx :: snd p.
Definition vline (pairs : list (text * text)) (count : Z) : text :=
  chr "C '" ++ flat_map vpair pairs ++ chr "' " ++ number count.
Definition good_pair (p : text * text) : Prop :=
  fst p <> [] /\ ~ In stx (fst p) /\ ~ In soh (snd p) /\ ~ In quote (snd p).
(* a hit: file, line, count *)
Definition hit : Type := text * Z * Z.

(* the part of a path after the last slash *)
Definition base_of (path base : text) : Prop :=
  (~ In "/"%char path /\ base = path) \/ (exists d, path = d ++ "/"%char :: base /\ ~ In "/"%char base).

(* ---- block coverage text reports ---- *)
(* white space characters *)
Definition ws (c : ascii) : Prop := c = " "%char \/ (9 <= nat_of_ascii c <= 13)%nat.
(* text that neither starts nor ends with white space *)
Definition tight (s : text) : Prop := s <> [] /\ (forall c r, s = c :: r -> ~ ws c) /\ (forall c r, s = r ++ [c] -> ~ ws c).
(* a column: no two blanks in a row *)
Definition column (s : text) : Prop := tight s /\ forall a b, s <> a ++ " "%char :: " "%char :: b.
Definition gap (n : nat) : text := repeat " "%char (S (S n)).
(* columns with at least two blanks between them *)
Fixpoint row (first : text) (rest : list (nat * text)) : text :=
  match rest with [] => first | (n, c) :: r => first ++ gap n ++ row c r end.
(* a row of the report: count, block, line, kind, origin, source and possibly more *)
Record brow := { b_count : Z; b_block : text; b_line : Z; b_kind : text; b_origin : text; b_source : text; b_gaps : nat }.
Definition brow_text (r : brow) : text :=
  row (number (b_count r)) [(b_gaps r, b_block r); (b_gaps r, number (b_line r)); (b_gaps r, b_kind r); (b_gaps r, b_origin r); (b_gaps r, b_source r)].
Definition good_row (r : brow) : Prop :=
  0 <= b_count r < 2 ^ 31 /\ 0 <= b_line r < 2 ^ 31 /\ column (b_block r) /\ column (b_kind r) /\ column (b_origin r) /\ column (b_source r).
Definition file_text (f : text * list brow) : list text :=
  [chr "File name:" ++ chr "  " ++ fst f; []; chr "Count  Block  Line  Kind  Origin  Source Code"; repeat "-"%char 40]
  ++ map brow_text (snd f) ++ [[]].
Definition branch_kind (k : text) : Prop := k = chr "true part of" \/ k = chr "false part of" \/ k = chr "a case item of".
(* a block of the design: identity, file its module was written to (empty if none), line *)
Definition block : Type := nat * text * Z.
Definition bfile (b : block) : text := snd (fst b).
