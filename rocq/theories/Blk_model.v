(* Statements in blocks and their parents: src/stmt.cc:19-101, 252-323, 364-408, 417-500. *)
From Verif Require Import Base.
Local Open Scope string_scope.
Local Open Scope list_scope.

Inductive akind := Undefined | Blocking | NonBlocking.
Inductive btype := Comb | Seq | OtherBlock.
(* statements.  Leaf: one without statements inside, and what clone() gives: AssignStmt has its own, most others give themselves *)
Inductive body := Assign (a : akind) | Leaf | If (t e : nat) | For (b : nat) | Block (bt : btype) (l : list nat).
Inductive owner := InStmt (n : nat) | InGen (g : nat).
Record heap := { h_body : nat -> body; h_parent : nat -> option owner }.
Definition upd {A} (f : nat -> A) (k : nat) (v : A) : nat -> A := fun x => if Nat.eqb x k then v else f x.
Definition with_parent (h : heap) (s : nat) (p : owner) : heap := {| h_body := h_body h; h_parent := upd (h_parent h) s (Some p) |}.
Definition with_body (h : heap) (b : nat) (x : body) : heap := {| h_body := upd (h_body h) b x; h_parent := h_parent h |}.
Definition stmts (h : heap) (b : nat) : list nat := match h_body h b with Block _ l => l | _ => [] end.
Definition type_of (h : heap) (b : nat) : btype := match h_body h b with Block t _ => t | _ => OtherBlock end.
(* set_parent: src/stmt.hh:48, src/stmt.cc:208-217, 306-311, 364-391, 457-462; the fuel bounds the depth.  Loops that are not over
   a genvar cannot be in a generator; the statements in a loop get the loop as their parent, not its block *)
Fixpoint set_parent (fuel : nat) (h : heap) (s : nat) (p : owner) : outcome heap :=
  match fuel with
  | O => Ok h
  | S f =>
      let all := fix all (h : heap) (l : list nat) := match l with [] => Ok h | x :: r => olet h1 := set_parent f h x (InStmt s) in all h1 r end in
      match h_body h s with
      | Assign _ | Leaf => Ok (with_parent h s p)
      | If t e => all (with_parent h s p) [t; e]
      | For b => match p with InGen _ => Throw | InStmt _ => all (with_parent h s p) (stmts h b) end
      | Block _ l => all (with_parent h s p) l
      end
  end.
Definition is_in (s : nat) (l : list nat) : bool := existsb (Nat.eqb s) l.
(* src/stmt.cc:420-447 StmtBlock::add_stmt *)
Definition add_stmt (fuel : nat) (h : heap) (b s : nat) : outcome heap :=
  let wrong := match h_body h s, type_of h b with
               | Block _ _, _ => true
               | Assign NonBlocking, Comb => true
               | Assign Blocking, Seq => true
               | _, _ => false
               end in
  if wrong || is_in s (stmts h b) then Throw
  else olet h1 := set_parent fuel h s (InStmt b) in Ok (with_body h1 b (Block (type_of h1 b) (stmts h1 b ++ [s]))).
(* src/stmt.cc:463-467: the first one *)
Fixpoint erase (s : nat) (l : list nat) : list nat := match l with [] => [] | x :: r => if Nat.eqb x s then r else x :: erase s r end.
Definition erase_in (h : heap) (b s : nat) : heap := match h_body h b with Block t l => with_body h b (Block t (erase s l)) | _ => h end.
(* remove_stmt: src/stmt.hh:72 nothing for most statements, src/stmt.cc:463-467, 274-287 *)
Definition remove_stmt (h : heap) (p s : nat) : heap :=
  match h_body h p with
  | Block _ _ => erase_in h p s
  | If t e => if is_in s (stmts h t) then erase_in h t s else if is_in s (stmts h e) then erase_in h e s else h
  | _ => h
  end.
(* src/stmt.cc:82-95 remove_from_parent of a statement that is in a statement *)
Definition remove_from_parent (h : heap) (s : nat) : heap := match h_parent h s with Some (InStmt p) => remove_stmt h p s | _ => h end.
(* src/stmt.cc:59-69 pre_stmt; src/ir.cc:10-17 index_of *)
Fixpoint index_of (s : nat) (l : list nat) : nat := match l with [] => 0 | x :: r => if Nat.eqb x s then 0 else S (index_of s r) end.
Definition pre_stmt (h : heap) (s : nat) : option nat :=
  match h_parent h s with
  | Some (InStmt p) =>
      match h_body h p with
      | Block _ l => let i := index_of s l in if negb (Nat.eqb i 0) && Nat.ltb i (List.length l) then nth_error l (i - 1) else None
      | _ => None
      end
  | _ => None
  end.
(* src/stmt.cc:469-474 *)
Definition set_child (fuel : nat) (h : heap) (b i s : nat) : outcome heap :=
  if Nat.ltb i (List.length (stmts h b)) then set_parent fuel (with_body h b (Block (type_of h b) (firstn i (stmts h b) ++ s :: skipn (S i) (stmts h b)))) s (InStmt b) else Ok h.
(* src/stmt.cc:75-80 add_scope_variable: emplace does not change an entry *)
Definition emplace (c : list (string * string)) (n v : string) : list (string * string) := if existsb (fun x => String.eqb (fst x) n) c then c else c ++ [(n, v)].
Definition add_scope_variable (c : list (string * string)) (n v : string) (override : bool) : list (string * string) :=
  if override || negb (existsb (fun x => String.eqb (fst x) n) c) then emplace c n v else c.
Definition value_of (c : list (string * string)) (n : string) : option string := option_map snd (find (fun x => String.eqb (fst x) n) c).
(* src/stmt.cc:486-499, 97-99, 218-223: the clone of a block that is not nested; new statements are next, next + 1, ... *)
Fixpoint clone_stmts (fuel : nat) (h : heap) (next b : nat) (l : list nat) : outcome (heap * nat) :=
  match l with
  | [] => Ok (h, next)
  | s :: r =>
      match h_body h s with
      | Assign a => olet h1 := add_stmt fuel (with_body h next (Assign a)) b next in clone_stmts fuel h1 (S next) b r
      | Leaf => olet h1 := add_stmt fuel h b s in clone_stmts fuel h1 next b r
      | _ => UB (* not modelled *)
      end
  end.
Definition clone_block (fuel : nat) (h : heap) (next b : nat) : outcome (heap * nat) := clone_stmts fuel (with_body h next (Block OtherBlock [])) (S next) next (stmts h b).
