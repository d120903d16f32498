(* Model of pipeline insertion, src/optimize.cc:531-611, on the variables of one module; ports: its
   outputs, stage p i: the variable that the code creates for stage i of port p (a fresh variable of the
   same width and sign).  Attributes and the choice of the clock are not modelled. *)
From Verif Require Import Base IR IRSem_spec Pipe_spec.
Local Open Scope Z_scope.

Section Pipe.
  Variables (ports : list var) (stage : var -> nat -> var) (n : nat).
  Definition is_port (x : var) : bool := existsb (Nat.eqb x) ports.
  (* src/expr.cc:1615-1645 Var::move_src_to, 1583-1613 stmt_set_left: the port is replaced by its first
     stage on the left of the assignments of this module; the sinks of the port stay *)
  Definition first (x : var) : var := if is_port x then stage x 0 else x.
  Definition first_lhs (l : lhs) : lhs :=
    match l with
    | LVar x => LVar (first x)
    | LSlice x h lo => LSlice (first x) h lo
    | LDyn x i w => LDyn (first x) i w
    end.
  Fixpoint move_src (s : stmt) : stmt :=
    match s with
    | SAssign k l e => SAssign k (first_lhs l) e
    | SIf c t f => SIf c (map move_src t) (map move_src f)
    | SSwitch e cs d => SSwitch e (map (fun cb => (fst cb, map move_src (snd cb))) cs)
                                  (match d with None => None | Some b => Some (map move_src b) end)
    | SFor i a b st body => SFor i a b st (map move_src body)
    | SBlock body => SBlock (map move_src body)
    | other => other
    end.
  (* src/optimize.cc:596-606: block i has one assignment per port, to the next stage or, in the last
     block, to the port *)
  Definition block (i : nat) : list stmt :=
    map (fun p => SAssign NonBlocking (LVar (if Nat.eqb i (n - 1) then p else stage p (S i))) (EVar (stage p i))) ports.
  Definition pipeline (m : module) : module :=
    {| m_wires := map (map move_src) (m_wires m);
       m_procs := map (map move_src) (m_procs m) ++ map block (seq 0 n) |}.
End Pipe.
