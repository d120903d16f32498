(* When a top-level statement of a module drives a bit of a variable. *)
From Verif Require Import Base IR IRSem_spec.
Local Open Scope Z_scope.

(* s occurs in a block, not below a loop *)
Inductive placed (s : stmt) : list stmt -> Prop :=
| pl_here l : In s l -> placed s l
| pl_then l c t f : In (SIf c t f) l -> placed s t -> placed s l
| pl_else l c t f : In (SIf c t f) l -> placed s f -> placed s l
| pl_case l e cs d k b : In (SSwitch e cs d) l -> In (k, b) cs -> placed s b -> placed s l
| pl_default l e cs b : In (SSwitch e cs (Some b)) l -> placed s b -> placed s l
| pl_block l body : In (SBlock body) l -> placed s body -> placed s l.
(* an assignment to the target l changes bit b of x (constant targets) *)
Definition covers (G : tenv) (l : lhs) (x : var) (b : Z) : Prop :=
  match l with
  | LVar y => y = x /\ 0 <= b < d_width (G x)
  | LSlice y hi lo => y = x /\ lo <= b <= hi
  | LDyn _ _ _ => False
  end.
Definition drives (G : tenv) (x : var) (b : Z) (body : list stmt) : Prop :=
  exists k l e, placed (SAssign k l e) body /\ covers G l x b.
(* B is one of the blocks of the body, not below a loop *)
Inductive scope : list stmt -> list stmt -> Prop :=
| sc_self B : scope B B
| sc_then B l c t f : In (SIf c t f) l -> scope B t -> scope B l
| sc_else B l c t f : In (SIf c t f) l -> scope B f -> scope B l
| sc_case B l e cs d k b : In (SSwitch e cs d) l -> In (k, b) cs -> scope B b -> scope B l
| sc_default B l e cs b : In (SSwitch e cs (Some b)) l -> scope B b -> scope B l
| sc_block B l body : In (SBlock body) l -> scope B body -> scope B l.
