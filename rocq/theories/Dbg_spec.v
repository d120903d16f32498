(* What the properties of the debug information refer to: statements with the variables in their scope, and what a statement should see. *)
From Verif Require Import Base.
Local Open Scope string_scope.
Local Open Scope list_scope.

Inductive skind := KIf | KSwitch | KBlock | KLoop | KOther.
(* a statement: its kind, the variables of its scope (name and value) and the statements it contains.  An if contains its two
   blocks, a switch the blocks of its cases, a loop its body *)
Inductive stmt := Node (k : skind) (ctx : list (string * string)) (inside : list stmt).
Definition value_of (ctx : list (string * string)) (n : string) : option string := option_map snd (find (fun x => String.eqb (fst x) n) ctx).
(* the statement reached by going down a path *)
Fixpoint at_path (t : stmt) (p : list nat) : option stmt :=
  match p with [] => Some t | i :: r => match t with Node _ _ l => match nth_error l i with Some c => at_path c r | None => None end end end.
Definition scope (t : stmt) : list (string * string) := match t with Node _ c _ => c end.
Definition first (a b : option string) : option string := match a with Some _ => a | None => b end.
Definition conditional (k : skind) : bool := match k with KIf | KSwitch => true | _ => false end.
(* what the statement at a path is given for a name: its own value; otherwise that of the outermost if or switch around it that has
   one, as far as no loop is in between *)
Fixpoint outer_value (e : option string) (t : stmt) (p : list nat) (n : string) : option string :=
  match t with
  | Node k c l =>
      match p with
      | [] => first (value_of c n) e
      | i :: r =>
          match nth_error l i with
          | Some x => outer_value (match k with KIf | KSwitch => first e (value_of c n) | KLoop => None | _ => e end) x r n
          | None => None
          end
      end
  end.
(* lexical scoping: the value of the innermost statement around it, or its own *)
Fixpoint inner_value (e : option string) (t : stmt) (p : list nat) (n : string) : option string :=
  match t with
  | Node k c l =>
      let own := first (value_of c n) e in
      match p with
      | [] => own
      | i :: r => match nth_error l i with Some x => inner_value (if conditional k then own else e) x r n | None => None end
      end
  end.

(* the right side of an assignment *)
Inductive rexp := RBase (x : nat) | RPort (x : nat) | RConst | RSlice (e : rexp) | ROp (l : list rexp).
(* variable x, a port or not, is used in the expression *)
Inductive uses (x : nat) : rexp -> Prop :=
  | uses_base : uses x (RBase x)
  | uses_port : uses x (RPort x)
  | uses_slice e : uses x e -> uses x (RSlice e)
  | uses_op l e : In e l -> uses x e -> uses x (ROp l).

(* src/generator.hh, src/context.cc:14-18, 94-102: the generators; those of a name in the order of the set *)
Record world := { w_count : nat; w_inst : nat -> string; w_parent : nat -> option nat; w_kids : nat -> list string; w_named : string -> list nat }.
(* the instance names from the top down to a generator *)
Inductive path_to (w : world) : nat -> list string -> Prop :=
  | path_root g : w_parent w g = None -> path_to w g [w_inst w g]
  | path_step g p l : w_parent w g = Some p -> path_to w p l -> path_to w g (l ++ [w_inst w g]).
