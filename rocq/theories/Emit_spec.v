(* Lines of a text: the text is a list of events; some end lines. *)
From Verif Require Import Base.

(* what a line can be asked for: statements, clocked blocks, the k-th connection of an instance, case statements,
   declarations of ports, variables and enum labels, the module itself *)
Inductive node := NStmt (i : nat) | NFf (i : nat) | NConn (i k : nat) | NCase (i : nat) | NDecl (i : nat) | NModule.
(* Key x: the first word of x; Nl: a line ends and the printer counts it; Std_nl: a line ends and the printer does not count it;
   Note x: the printer notes its count as the line of x *)
Inductive ev := Key (x : node) | Text | Nl | Std_nl | Note (x : node).
Definition ends_line (e : ev) : bool := match e with Nl | Std_nl => true | _ => false end.
Definition newlines (l : list ev) : nat := List.length (filter ends_line l).
Definition counted (l : list ev) : nat := List.length (filter (fun e => match e with Nl => true | _ => false end) l).
(* x is on line n of the text *)
Definition on_line (es : list ev) (x : node) (n : nat) : Prop := exists a b, es = a ++ Key x :: b /\ n = S (newlines a).
(* the printer gave x the line n *)
Definition noted (es : list ev) (x : node) (n : nat) : Prop := exists a b, es = a ++ Note x :: b /\ n = S (counted a).
