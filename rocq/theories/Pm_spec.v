(* Pass managers. *)
From Verif Require Import Base.
Local Open Scope list_scope.

(* a pass is registered under a name, or the pass of a name is added to those to be run; passes are numbered *)
Inductive call := Register (n : string) (f : nat) | Add (n : string).
(* the pass of a name is the first one registered under it *)
Definition registered (h : list call) (n : string) (f : nat) : Prop := exists h1 h2, h = h1 ++ Register n f :: h2 /\ forall g, ~ In (Register n g) h1.
(* the passes that were added, in order; names without a pass are refused *)
Inductive added : list call -> list nat -> Prop :=
| A_none : added [] []
| A_register h l n f : added h l -> added (h ++ [Register n f]) l
| A_add h l n f : added h l -> registered h n f -> added (h ++ [Add n]) (l ++ [f])
| A_unknown h l n : added h l -> (forall f, ~ registered h n f) -> added (h ++ [Add n]) l.
(* the passes one after the other, until one ends with an exception *)
Section E.
  Variable G : Type.
  Variable pass : nat -> G -> G * outcome unit.
  Inductive runs : list nat -> G -> G -> outcome unit -> Prop :=
  | R_nil x : runs [] x x (Ok tt)
  | R_ok f l x y z o : pass f x = (y, Ok tt) -> runs l y z o -> runs (f :: l) x z o
  | R_end f l x y o : pass f x = (y, o) -> o <> Ok tt -> runs (f :: l) x y o.
End E.
