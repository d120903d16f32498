(* IRVisitor::visit_root and visit_root_s: src/ir.cc:24-54, the loop over the children of one node; what is visited below a child belongs to the effect
   of its visit.  visited_ holds the children that were visited: nodes that were reached from elsewhere are left out. *)
From Verif Require Import Base Walk_spec.
Local Open Scope list_scope.

Definition mem (c : nat) (l : list nat) : bool := existsb (Nat.eqb c) l.
(* src/ir.cc:29-38, 46-51: [twice] is visit_root_s, which does not remember what it visited; tr the visits so far, l the children, i is count; None
   after as many rounds as the fuel *)
Fixpoint walk (twice : bool) (e : effect) (fuel : nat) (tr l : list nat) (i : nat) : option (list nat * list nat) :=
  match fuel with
  | O => None
  | S f =>
      match nth_error l i with
      | None => Some (tr, l)
      | Some c =>
          let skip := negb twice && mem c tr in
          let tr' := if skip then tr else tr ++ [c] in
          let l' := if skip then l else e tr c l in
          walk twice e f tr' l' (match nth_error l' i with Some d => if Nat.eqb d c then S i else i | None => i end)
      end
  end.
Definition visit_root (e : effect) (fuel : nat) (l : list nat) := walk false e fuel [] l 0.
Definition visit_root_s (e : effect) (fuel : nat) (l : list nat) := walk true e fuel [] l 0.
