(* The sources and sinks every signal keeps: src/expr.hh:150-164 and the overrides of each kind of expression. *)
From Verif Require Import Base IR Net_spec.
Local Open Scope nat_scope.

(* statements are objects: they have names, and what they assign does not change here *)
Record net := { placed : list nat; parented : nat -> bool; sk : var -> nat -> bool; sr : var -> nat -> bool }.
Definition put (f : var -> nat -> bool) (x : var) (i : nat) (b : bool) : var -> nat -> bool :=
  fun y j => if Nat.eqb y x && Nat.eqb j i then b else f y j.
Definition with_sk (s : net) (f : var -> nat -> bool) : net := {| placed := placed s; parented := parented s; sk := f; sr := sr s |}.
Definition with_sr (s : net) (f : var -> nat -> bool) : net := {| placed := placed s; parented := parented s; sk := sk s; sr := f |}.
Definition with_placed (s : net) (l : list nat) : net := {| placed := l; parented := parented s; sk := sk s; sr := sr s |}.
Definition with_parent (s : net) (i : nat) (b : bool) : net :=
  {| placed := placed s; parented := fun j => if Nat.eqb j i then b else parented s j; sk := sk s; sr := sr s |}.
(* add_sink: src/expr.hh:163, src/expr.cc:703 VarVarSlice, 1073 VarCasted, 1136 Const (its own set is left out), 1253 VarConcat,
   1351 VarExtend, 1384 VarDuplicated, 1742 Expr, 1752 VarSlice, 1792 ConditionalExpr.  Calls of functions are left out. *)
Fixpoint add_sink (i : nat) (e : nexp) (s : net) : net :=
  match e with
  | NVar x => with_sk s (put (sk s) x i true)
  | NConst => s
  | NSlice e => add_sink i e s
  | NIndex e k => add_sink i k (add_sink i e s)
  | NOp a b | NCat a b => add_sink i b (add_sink i a s)
  | NUn a | NExt a | NDup a | NCast a => add_sink i a s
  | NCond c a b => add_sink i b (add_sink i a (add_sink i c s))
  end.
(* add_source: src/expr.hh:164, src/expr.cc:708, 1074, 1131, 1241, 1345, 1386, 1757; the other expressions have a set of their own,
   which is left out *)
Fixpoint add_source (i : nat) (e : nexp) (s : net) : outcome net :=
  match e with
  | NVar x => Ok (with_sr s (put (sr s) x i true))
  | NConst | NExt _ | NDup _ => Throw
  | NSlice e | NCast e => add_source i e s
  | NIndex e k => olet s := add_source i e s in Ok (add_sink i k s)
  | NCat a b => olet s := add_source i a s in add_source i b s
  | NOp _ _ | NUn _ | NCond _ _ _ => Ok s
  end.
(* remove_source: src/expr.hh:157, 315, src/expr.cc:718, 1247, 1390, 1762 *)
Fixpoint remove_source (i : nat) (e : nexp) (s : net) : net :=
  match e with
  | NVar x => with_sr s (put (sr s) x i false)
  | NSlice e | NCast e | NDup e => remove_source i e s
  | NIndex e k => remove_source i k (remove_source i e s)
  | NCat a b => remove_source i b (remove_source i a s)
  | NConst | NExt _ | NOp _ _ | NUn _ | NCond _ _ _ => s
  end.
(* remove_sink: src/expr.hh:151, 307, src/expr.cc:713, 1259, 1353, 1747, 1767-1770 VarSlice, 1798 *)
Fixpoint remove_sink (i : nat) (e : nexp) (s : net) : net :=
  match e with
  | NVar x => with_sk s (put (sk s) x i false)
  | NConst => s
  | NSlice e => remove_source i e s
  | NIndex e k => remove_sink i k (remove_source i e s)
  | NOp a b | NCat a b => remove_sink i b (remove_sink i a s)
  | NUn a | NExt a | NDup a | NCast a => remove_sink i a s
  | NCond c a b => remove_sink i b (remove_sink i a (remove_sink i c s))
  end.
Fixpoint erase (i : nat) (l : list nat) : list nat := match l with [] => [] | j :: r => if Nat.eqb j i then r else j :: erase i r end.

Section Net.
  Variable T : nat -> asg.
  (* two expressions are the same object *)
  Variable same : nexp -> nexp -> bool.
  (* src/generator.cc:545-548 add_stmt, src/stmt.cc:206-216 AssignStmt::set_parent *)
  Definition net_add (i : nat) (s : net) : outcome net :=
    olet s := (if parented s i then Ok s else
               olet s := add_source i (fst (T i)) (add_sink i (snd (T i)) s) in Ok (with_parent s i true)) in
    Ok (with_placed s (placed s ++ [i])).
  (* src/generator.cc:625-634 *)
  Definition net_remove (i : nat) (s : net) : net := with_placed s (erase i (placed s)).
  (* src/generator.cc:1000-1019 *)
  Definition net_unwire (a b : nexp) (s : net) : net :=
    match find (fun i => (same (fst (T i)) a && same (snd (T i)) b) || (same (snd (T i)) a && same (fst (T i)) b)) (placed s) with
    | Some i => net_remove i (remove_sink i (snd (T i)) (remove_source i (fst (T i)) s))
    | None => s
    end.
  (* src/expr.cc:926-933, called on the left side *)
  Definition net_unassign (i : nat) (s : net) : net :=
    let s := match snd (T i) with NVar x => with_sk s (put (sk s) x i false) | _ => s end in
    let s := match fst (T i) with NVar x => with_sr s (put (sr s) x i false) | _ => s end in
    net_remove i s.
  (* src/stmt.cc:449-455 StmtBlock::clear, 224-229 AssignStmt::clear *)
  Definition asg_clear (s : net) (i : nat) : net := with_parent (remove_sink i (snd (T i)) (remove_source i (fst (T i)) s)) i false.
  Definition net_clear (s : net) : net := with_placed (fold_left asg_clear (placed s) s) [].
  Inductive nop : Type := OAdd (i : nat) | OUnwire (a b : nexp) | ORemove (i : nat) | OUnassign (i : nat) | OClear.
  Definition net_op (s : net) (o : nop) : outcome net :=
    match o with
    | OAdd i => net_add i s | OUnwire a b => Ok (net_unwire a b s) | ORemove i => Ok (net_remove i s)
    | OUnassign i => Ok (net_unassign i s) | OClear => Ok (net_clear s)
    end.
  Fixpoint net_run (os : list nop) (s : net) : outcome net :=
    match os with [] => Ok s | o :: r => olet s := net_op s o in net_run r s end.
  Definition net_start : net := {| placed := []; parented := fun _ => false; sk := fun _ _ => false; sr := fun _ _ => false |}.
End Net.
