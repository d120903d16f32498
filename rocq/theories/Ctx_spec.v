(* What is done with a context. *)
From Verif Require Import Base.
Local Open Scope string_scope.

(* Generators are numbered as they are made.  A new one with a name; one without; a clone; another name; into the context and out of it;
   external or not and marked as a clone or not; an empty context *)
Inductive act := New (n : string) | Unnamed | Clone (g : nat) | Rename (g : nat) (n : string) | Put (g : nat) | Drop (g : nat) | Mark (g : nat) (ext cl : bool) | Clear.
(* everything has a name *)
Definition all_named (h : list act) : Prop := forall a, In a h -> a <> New "" /\ a <> Unnamed /\ forall g, a <> Rename g "".
(* nothing is taken out *)
Definition kept (h : list act) : Prop := forall a, In a h -> a <> Clear /\ forall g, a <> Drop g.
