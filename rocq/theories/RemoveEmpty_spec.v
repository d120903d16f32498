(* Vocabulary for the empty-block removal property. *)
From Verif Require Import Base SV_spec IR IRSem_spec.
Local Open Scope Z_scope.

(* statements that are not just structure *)
Definition leaf (s : stmt) : bool :=
  match s with SIf _ _ _ | SSwitch _ _ _ | SBlock _ => false | _ => true end.
(* a block that contains some statement that is not an if, a switch or a nested block *)
Definition solid (b : list stmt) : Prop := exists x, inside x b /\ leaf x = true.

(* the labels of a switch select different values *)
Definition labels_distinct (w : Z) (cs : list (Z * list stmt)) : Prop :=
  NoDup (map (fun cb => enc w (fst cb)) cs).

(* the shapes on which the pass is sound *)
Definition reb_ready (G : tenv) (s : stmt) : Prop :=
  match s with
  | SIf c t f => (wt G c /\ ewidth G c = 1) \/ solid t     (* one-bit predicate, if it is inverted *)
  | SSwitch e cs d =>
      labels_distinct (ewidth G e) cs /\
      (d <> None -> forall k b, In (k, b) cs -> solid b)    (* no empty case next to a default *)
  | _ => True
  end.

(* no empty branch, arm or block is left (loop bodies are not looked into) *)
Inductive tidy : stmt -> Prop :=
| tidy_if c t f : t <> [] -> Forall tidy t -> Forall tidy f -> tidy (SIf c t f)
| tidy_switch e cs d :
    (cs <> [] \/ d <> None) ->
    (forall k b, In (k, b) cs -> b <> [] /\ Forall tidy b) ->
    (forall b, d = Some b -> b <> [] /\ Forall tidy b) ->
    tidy (SSwitch e cs d)
| tidy_block b : b <> [] -> Forall tidy b -> tidy (SBlock b)
| tidy_leaf s : leaf s = true -> tidy s.
