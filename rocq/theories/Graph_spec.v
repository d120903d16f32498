(* Instance hierarchies: what sorting and levelling them means. *)
From Verif Require Import Base.
Local Open Scope nat_scope.

(* An instance with the instances below it.  An object used in two places appears twice. *)
Inductive tree : Type := Node (id : nat) (kids : list tree).
Definition root_id (t : tree) : nat := match t with Node i _ => i end.
Definition kids (t : tree) : list tree := match t with Node _ k => k end.
Fixpoint ids (t : tree) : list nat := match t with Node i k => i :: flat_map ids k end.
(* p contains c directly *)
Inductive edge : tree -> nat -> nat -> Prop :=
| edge_here i k c : In c k -> edge (Node i k) i (root_id c)
| edge_below i k s p c : In s k -> edge s p c -> edge (Node i k) p c.
(* the instance i is d levels below the top *)
Inductive depth : tree -> nat -> nat -> Prop :=
| depth_top i k : depth (Node i k) i 0
| depth_below i k s j d : In s k -> depth s j d -> depth (Node i k) j (S d).
Definition before {A} (l : list A) (a b : A) : Prop := exists x y z, l = x ++ a :: y ++ b :: z.
