(* Model of the searches for a signal in the condition of an if statement, src/analysis.cc:613-638, and for a loop variable
   in an expression, src/expr.cc:2204-2215. *)
From Verif Require Import Base Conn_spec.

(* src/expr.cc:594-608 VarSlice::get_var_root_parent; a slice by a signal is a slice as well (src/expr.hh:400) *)
Fixpoint root (s : sig) : sig := match s with SSlice s | SIndex s _ => root s | _ => s end.

(* src/analysis.cc:625-637 IfVisitor::has_var.  left and right of an expression: the operands of an operator, the extended
   signal (src/expr.cc:1329-1330), the two alternatives of a conditional expression; those of a concatenation
   are the concatenation before it and its last part (1292-1313), so that all parts are searched.  Casts and calls
   are not expressions (src/expr.hh VarType) *)
Fixpoint has_var (t : nat) (s : sig) : bool :=
  match s with
  | SPort p => Nat.eqb p t
  | SSlice _ | SIndex _ _ => match root s with SPort p => Nat.eqb p t | _ => false end
  | SUn s | SExtend s => has_var t s
  | SBin a b | SCond _ a b => has_var t a || has_var t b
  | SConcat l => existsb (has_var t) l
  | _ => false
  end.

(* src/analysis.cc:598-602 with 613-619: the if statements, by their conditions, that are checked for the signals of the
   sensitivity list that are not clocks *)
Definition checked_ifs (signals : list nat) (clock : nat -> bool) (ifs : list sig) : list sig :=
  flat_map (fun t => if clock t then [] else filter (has_var t) ifs) signals.

(* src/expr.cc:2204-2215 IterVar::has_iter_var *)
Fixpoint has_iter (iter : nat -> bool) (s : sig) : bool :=
  match s with
  | SPort p => iter p
  | SSlice s | SIndex s _ | SUn s | SExtend s => has_iter iter s
  | SBin a b | SCond _ a b => has_iter iter a || has_iter iter b
  | SConcat l => existsb (has_iter iter) l
  | _ => false
  end.
