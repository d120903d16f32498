(* Indentation of printed lines. *)
From Verif Require Import Base.
From Coq Require Import Ascii.
Local Open Scope list_scope.

(* what the printer does: it goes a level deeper or back, leaves the indentation of the next line out, or begins a line at its level or at the level around it *)
Inductive act := Enter | Leave | Omit | Line | Closing.
(* the level after some acts *)
Definition level (h : list act) : nat := fold_left (fun n a => match a with Enter => S n | Leave => pred n | _ => n end) h 0%nat.
(* no more is left than was entered *)
Definition balanced (h : list act) : Prop := forall h1 h2, h = h1 ++ Leave :: h2 -> (0 < level h1)%nat.
(* the indentation of the next line is left out: Omit came, and no Line after it *)
Definition omitted (h : list act) : Prop := exists h1 h2, h = h1 ++ Omit :: h2 /\ ~ In Line h2.
Definition spaces (n : nat) : list ascii := repeat " "%char n.
