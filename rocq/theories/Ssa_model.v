(* The debug database: src/debug.cc:349-372, 375-403, 443-474 (scopes), 605-687 (SSA), 690-762 (lines). *)
From Verif Require Import Base Ssa_spec.
Local Open Scope string_scope.
Local Open Scope list_scope.

(* SymbolMapping; operator[] replaces *)
Definition lookup (m : list (string * string)) (n : string) : option string := option_map snd (find (fun x => String.eqb (fst x) n) m).
Definition put (m : list (string * string)) (n v : string) : list (string * string) := (n, v) :: m.
(* symbol_mappings and current_scope *)
Record st := { s_maps : nat -> list (string * string); s_current : nat }.
Definition upd {A} (f : nat -> A) (x : nat) (v : A) : nat -> A := fun y => if Nat.eqb y x then v else f y.
(* src/debug.cc:641-655: the mapping of the current scope is copied to the new one *)
Definition enter (s : st) (o : option nat) : st :=
  match o with
  | Some i => if Nat.eqb (s_current s) i then s else {| s_maps := upd (s_maps s) i (s_maps s (s_current s)); s_current := i |}
  | None => s
  end.
(* src/debug.cc:663-673 *)
Definition new_ctx (m : list (string * string)) (c : list (string * (bool * string))) : list (string * (bool * string)) :=
  map (fun x : string * (bool * string) => match lookup m (fst x) with Some v => if fst (snd x) then (fst x, (true, v)) else x | None => x end) c.
(* src/debug.cc:634-684 for a statement with an SSA attribute (Dbg_model.target); without one the code throws *)
Definition fix_one (s : st) (a : assign) : st * assign :=
  let s1 := enter s (a_scope a) in
  let m := s_maps s1 (s_current s1) in
  ({| s_maps := upd (s_maps s1) (s_current s1) (put m (a_front a) (a_left a)); s_current := s_current s1 |},
   {| a_left := a_left a; a_front := a_front a; a_scope := a_scope a; a_ctx := new_ctx m (a_ctx a) |}).
Fixpoint fix_all (s : st) (l : list assign) : list assign :=
  match l with [] => [] | a :: r => let '(s1, b) := fix_one s a in b :: fix_all s1 r end.
Definition ssa_fix (l : list assign) : list assign := fix_all {| s_maps := fun _ => []; s_current := 1 |} l.

(* src/debug.cc:326-336: the visit functions there are.  LatchStmtBlock has one, but is never accepted as such (src/stmt.hh:357-362
   has no accept) *)
Definition visited (k : kind) : bool := match k with Assignment | If | Switch | Scoped | Comb | Seq | Call => true | Latch | Inits | Loop | Leafs => false end.
(* where a statement is: in the module, or in a statement that is or is not in stmt_scope_mapping_ *)
Inductive place := InModule | InStmt (mapped : bool).
(* src/debug.cc:340-403, 443-474: whether the statement is in stmt_scope_mapping_ afterwards *)
Definition handle (p : place) (k : kind) (ignored : bool) : outcome bool :=
  if negb (visited k) || ignored then Ok false
  else match p with
       | InModule => Ok true
       | InStmt false => Throw
       | InStmt true => Ok (match k with Assignment => false | _ => true end)
       end.
(* with src/ir.cc:24-40; the statements form a tree whose parents are set *)
Fixpoint scopes (p : place) (t : tree) : outcome unit :=
  match t with
  | T k i l => olet m := handle p k i in (fix all (l : list tree) := match l with [] => Ok tt | x :: r => olet _ := scopes (InStmt m) x in all r end) l
  end.

(* src/debug.cc:722-736: std::map::emplace; one function for statements and for variables, which have a second test to the same effect *)
Definition add_info (m : list (nat * list (string * nat))) (x : located) : list (nat * list (string * nat)) :=
  if negb (match l_source x with [] => true | _ => false end) && negb (Nat.eqb (l_line x) 0) && negb (existsb (fun y => Nat.eqb (fst y) (l_line x)) m)
  then m ++ [(l_line x, l_source x)] else m.
(* src/debug.cc:740-750: a generator that itself is located; the nodes in the order they are visited in *)
Definition gen_info (own : list (string * nat)) (nodes : list located) : option (list (nat * list (string * nat))) :=
  match own with [] => None | _ => Some (fold_left add_info nodes [(1%nat, own)]) end.
Definition at_line (m : list (nat * list (string * nat))) (n : nat) : option (list (string * nat)) := option_map snd (find (fun y => Nat.eqb (fst y) n) m).
