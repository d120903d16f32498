(* What the small helpers should compute. *)
From Coq Require Export Ascii.
From Verif Require Import Base.
Local Open Scope Z_scope.

(* ---- arrays ---- *)
(* a valid index tuple of an array with these dimensions *)
Definition valid_index (dims idx : list Z) : Prop := Forall2 (fun d i => 0 <= i < d) dims idx.
(* row-major order: compare the first index that differs *)
Fixpoint lex_lt (a b : list Z) : Prop :=
  match a, b with
  | x :: a', y :: b' => x < y \/ (x = y /\ lex_lt a' b')
  | _, _ => False
  end.

(* ---- tokens ---- *)
Section tokens.
  Variable delim : ascii -> Prop.
  (* s splits into maximal runs ts of non-delimiters *)
  Inductive splits : list ascii -> list (list ascii) -> Prop :=
  | split_end : forall s, Forall delim s -> splits s []
  | split_tok : forall d t rest ts,
      Forall delim d -> t <> [] -> Forall (fun c => ~ delim c) t ->
      (match rest with [] => True | c :: _ => delim c end) ->
      splits rest ts -> splits (d ++ t ++ rest) (t :: ts).
End tokens.

(* ---- lines ---- *)
(* words joined by single spaces, as a list of characters *)
Fixpoint join (ws : list (list ascii)) : list ascii :=
  match ws with
  | [] => []
  | [w] => w
  | w :: r => w ++ " "%char :: join r
  end.
Definition zlen {A} (l : list A) : Z := Z.of_nat (length l).
Definition newline : ascii := ascii_of_nat 10.
