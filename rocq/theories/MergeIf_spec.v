(* The blocks on which merging is sound. *)
From Verif Require Import Base SV_spec IR IRSem_spec.
Local Open Scope Z_scope.

(* an if comparing g with a constant *)
Definition tests (g : expr) (s : stmt) : Prop :=
  exists k w b t f, s = SIf (EBin Eq g (EConst k w b)) t f.

Record mergeable (G : tenv) (g : expr) (grp : list stmt) : Prop := {
  (* constants have the width of g, and different constants are different bit patterns *)
  mg_width : forall k w b t f,
      In (SIf (EBin Eq g (EConst k w b)) t f) grp -> w = ewidth G g;
  mg_const : forall k w b t f k' w' b' t' f',
      In (SIf (EBin Eq g (EConst k w b)) t f) grp ->
      In (SIf (EBin Eq g (EConst k' w' b')) t' f') grp -> enc w k = enc w' k' -> k = k';
  (* only the first may have an else branch *)
  mg_else : forall c t f, In (SIf c t f) (tl grp) -> f = [];
  (* the ifs do not change what they test *)
  mg_frame : forall s x, In s grp -> In x (evars g) -> ~ changes_now x [s]
}.
(* the ifs that test g stand next to each other in the block *)
Definition merge_ready (G : tenv) (g : expr) (l : list stmt) : Prop :=
  exists pre grp post, l = pre ++ grp ++ post /\
    (forall s, In s grp -> tests g s) /\
    (forall s, In s pre \/ In s post -> ~ tests g s) /\ mergeable G g grp.
