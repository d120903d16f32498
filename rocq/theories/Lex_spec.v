(* Splitting SystemVerilog expression text into tokens by maximal munch (IEEE 1800 5.5,
   annex A), for names and operators. *)
From Verif Require Import Base.

Inductive lexeme : Type := LId (s : string) | LOp (s : string).

Definition between (a b : nat) (c : ascii) : bool :=
  Nat.leb a (nat_of_ascii c) && Nat.leb (nat_of_ascii c) b.
(* letters, digits, underscore, dollar *)
Definition id_char (c : ascii) : bool :=
  between 65 90 c || between 97 122 c || between 48 57 c
  || Ascii.eqb c "_" || Ascii.eqb c "$".
Local Open Scope string_scope.
(* the operator and punctuation tokens, longest first *)
Definition operators : list string :=
  ["<<<="; ">>>=";
   "<<<"; ">>>"; "==="; "!=="; "==?"; "!=?"; "<<="; ">>="; "<->"; "&&&"; "->>"; "|->"; "|=>";
   "**"; "&&"; "||"; "=="; "!="; "<="; ">="; "<<"; ">>"; "++"; "--"; "~&"; "~|"; "~^"; "^~";
   "->"; "+="; "-="; "*="; "/="; "%="; "&="; "|="; "^="; "::"; ":="; ":/"; "+:"; "-:"; "=>"; "##";
   "+"; "-"; "*"; "/"; "%"; "&"; "|"; "^"; "~"; "!"; "<"; ">"; "="; "?"; ":"; "("; ")"; "["; "]";
   "{"; "}"; ","; "."; ";"; "@"; "#"].
(* what follows the prefix t of s *)
Fixpoint after (t s : string) : option string :=
  match t, s with
  | EmptyString, _ => Some s
  | String c t, String d s => if Ascii.eqb c d then after t s else None
  | String _ _, EmptyString => None
  end.
Fixpoint longest (l : list string) (s : string) : option (string * string) :=
  match l with
  | [] => None
  | t :: r => match after t s with Some b => Some (t, b) | None => longest r s end
  end.
(* the longest run of name characters and the rest *)
Fixpoint name_run (s : string) : string * string :=
  match s with
  | EmptyString => (EmptyString, EmptyString)
  | String c r => if id_char c then let '(a, b) := name_run r in (String c a, b) else (EmptyString, s)
  end.
Fixpoint lex (n : nat) (s : string) : option (list lexeme) :=
  match n with
  | O => None
  | S n =>
      match s with
      | EmptyString => Some []
      | String c r =>
          if Ascii.eqb c " " then lex n r
          else if id_char c then
            let '(a, b) := name_run s in
            match lex n b with Some l => Some (LId a :: l) | None => None end
          else
            match longest operators s with
            | Some (t, b) => match lex n b with Some l => Some (LOp t :: l) | None => None end
            | None => None
            end
      end
  end.
Definition lexes (s : string) (l : list lexeme) : Prop := exists n, lex n s = Some l.
(* a non-empty run of name characters *)
Definition is_name (s : string) : Prop :=
  s <> "" /\ forallb id_char (list_ascii_of_string s) = true.

(* operands are names, and - + & | are not applied twice in a row *)
From Verif Require Import IR Print_spec.
Fixpoint spaced (e : expr) : Prop :=
  match e with
  | EVar _ => True
  | EUn op a =>
      spaced a /\
      match a with
      | EUn op' _ => op' = op -> match op with UInvert | UNot | UXor => True | _ => False end
      | _ => True
      end
  | EBin _ a b => spaced a /\ spaced b
  | ECond c a b => spaced c /\ spaced a /\ spaced b
  | _ => False
  end.
