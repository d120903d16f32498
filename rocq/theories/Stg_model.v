(* The graph of the statements of a generator and line numbers: src/graph.cc:156-187, src/codegen.cc:1334-1351. *)
From Verif Require Import Base.
Local Open Scope nat_scope.

(* the children of a statement that are statements, in order *)
Definition stmts := nat -> list nat.
Definition known (s : nat) (l : list nat) : bool := existsb (Nat.eqb s) l.
(* src/graph.cc:161-180 add_stmt_child: nodes_, in the order of insertion; the fuel bounds the depth *)
Fixpoint add_stmt_child (fuel : nat) (g : stmts) (s : nat) (nodes : list nat) : outcome (list nat) :=
  match fuel with
  | O => Ok nodes
  | S f =>
      (fix each (l : list nat) (nodes : list nat) : outcome (list nat) :=
         match l with
         | [] => Ok nodes
         | c :: r => if known c nodes then Throw else olet n1 := add_stmt_child f g c (nodes ++ [c]) in each r n1
         end) (g s) nodes
  end.
(* src/graph.cc:182-185 *)
Fixpoint build_graph (fuel : nat) (g : stmts) (tops : list nat) (nodes : list nat) : outcome (list nat) :=
  match tops with [] => Ok nodes | t :: r => olet n1 := add_stmt_child fuel g t nodes in build_graph fuel g r n1 end.
(* src/codegen.cc:1334-1351: the line numbers of the statements (those of the variables are all moved); uint32_t *)
Definition fix_verilog_ln (fuel : nat) (g : stmts) (tops : list nat) (debug : bool) (lines : nat -> Z) (offset : Z) : outcome (nat -> Z) :=
  if negb debug then Ok lines
  else olet nodes := build_graph fuel g tops [] in Ok (fun s => if known s nodes then u32 (lines s + offset) else lines s).
