(* What the properties of the debug database refer to. *)
From Verif Require Import Base.
Local Open Scope string_scope.
Local Open Scope list_scope.

(* an assignment after the SSA transformation: the new variable, the name it stands for in the source, the scope it is in, and the
   names it has in its context with whether each is a variable and what it stands for *)
Record assign := { a_left : string; a_front : string; a_scope : option nat; a_ctx : list (string * (bool * string)) }.
(* the last of the assignments before that is to a source variable *)
Fixpoint last_of (before : list assign) (name : string) : option string :=
  match before with
  | [] => None
  | a :: r => match last_of r name with Some x => Some x | None => if String.eqb (a_front a) name then Some (a_left a) else None end
  end.
(* scope s is inside scope t or is t *)
Inductive within (parent : nat -> option nat) (t : nat) : nat -> Prop :=
  | within_self : within parent t t
  | within_up s p : parent s = Some p -> within parent t p -> within parent t s.

(* statements; Inits are initial and final blocks, Leafs are statements without others in them that have no scope of their own *)
Inductive kind := Assignment | If | Switch | Scoped | Comb | Seq | Latch | Inits | Loop | Call | Leafs.
(* a statement, whether it is marked debug-ignore, and the statements directly inside *)
Inductive tree := T (k : kind) (ignored : bool) (inside : list tree).
(* the statements that get an entry in the database *)
Definition recorded (t : tree) : bool :=
  match t with T k i _ => negb i && match k with Latch | Inits | Loop | Leafs => false | _ => true end end.
Definition contains (t : tree) : list tree := match t with T _ _ l => l end.
Definition kind_of (t : tree) : kind := match t with T k _ _ => k end.
Inductive part_of (t : tree) : tree -> Prop :=
  | part_self : part_of t t
  | part_in x y : In y (contains x) -> part_of t y -> part_of t x.

(* a node with a line in the generated code and where it is in the source (nothing if not known) *)
Record located := { l_line : nat; l_source : list (string * nat) }.
