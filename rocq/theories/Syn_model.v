(* Visiting the IR and the check for what cannot be synthesised: src/ir.cc:24-40, src/analysis.cc:224-276, 845-886. *)
From Verif Require Import Base.
Local Open Scope string_scope.
Local Open Scope list_scope.

(* src/stmt.hh:350-440: functions.  builtin is the name without the dollar sign *)
Record func := { f_dpi : bool; f_task : bool; f_builtin : option string }.
(* the kinds of IR nodes that matter here; Other is everything else *)
Inductive kind :=
  | Module (external : bool) | Assignment (delay : bool) | Initial | Final | Comb (general : bool) | Aux
  | CallVar (f : func) | CallStmt (f : func) | Ret | Cast | Index | Other.
(* a node and what it is made of: the statements of a block, the operands of an expression, the arguments of a call ... *)
Record node := { n_kind : kind; n_parts : list nat }.
Definition graph := nat -> node.
(* child_count, get_child: src/generator.hh:176-178, src/generator.cc:388-403; statements without an override have no children
   (src/stmt.hh:55: returns, calls), and those of a variable are its slices (src/expr.cc:278-288: calls, casts, VarVarSlice) *)
Definition children (g : graph) (n : nat) : list nat :=
  match n_kind (g n) with
  | Module true | CallVar _ | CallStmt _ | Ret | Cast | Index => []
  | _ => n_parts (g n)
  end.
Definition seen (n : nat) (l : list nat) : bool := existsb (Nat.eqb n) l.
(* src/ir.cc:24-40 visit_root, of a visitor that does not change the IR: the nodes in visited_ and those accepted, in order;
   the fuel bounds the depth *)
Fixpoint visit (fuel : nat) (g : graph) (n : nat) (vo : list nat * list nat) : list nat * list nat :=
  match fuel with
  | O => vo
  | S f => fold_left (fun vo c => if seen c (fst vo) then vo else visit f g c (c :: fst vo, snd vo)) (children g n) (fst vo, snd vo ++ [n])
  end.
Definition visit_root (fuel : nat) (g : graph) (n : nat) : list nat := snd (visit fuel g n ([], [])).

(* src/syntax.cc:273-286: the built-in functions and whether they can be synthesised *)
Definition builtins : list (string * bool) :=
  [("clog2", true); ("countones", true); ("onehot", true); ("onehot0", true); ("isunknown", true); ("display", false); ("hgdb_assert_fail", false);
   ("finish", false); ("fopen", false); ("fclose", false); ("fscanf", false); ("urandom", false); ("random", false)].
Definition info (n : string) : option bool := option_map snd (find (fun x => String.eqb (fst x) n) builtins).
(* src/stmt.hh:391, 455, src/stmt.cc:812-815: is_task; all built-in functions are *)
Definition is_task (f : func) : bool := match f_builtin f with Some _ => true | None => f_task f end.
(* src/analysis.cc:224-260 *)
Definition bad (k : kind) : bool :=
  match k with
  | Assignment d => d
  | CallVar f => f_dpi f || is_task f
  | CallStmt f => if f_dpi f then true else match f_builtin f with Some b => match info b with Some s => negb s | None => false end | None => false end
  | Aux | Initial => true
  | Comb p => p
  | _ => false
  end.
(* src/analysis.cc:265-276; Throw if anything was found *)
Definition check (fuel : nat) (g : graph) (top : nat) : outcome unit :=
  match filter (fun n => bad (n_kind (g n))) (visit_root fuel g top) with [] => Ok tt | _ => Throw end.

(* src/analysis.cc:860-881: for the statements of a block that is clocked, whether each is an if *)
Definition check_ff (ifs : list bool) : outcome unit := if existsb (fun b => b) ifs && Nat.ltb 1 (List.length ifs) then Throw else Ok tt.
