(* src/transform.cc:703-763 PortLegalityFixVisitor: reads of an input port by the statements of the parent generator read
   the port's source instead; on flat designs (Dce_model.v). *)
From Verif Require Import Base SV_spec IR IRSem_spec Design_spec Dce_spec Dce_model Fan_model Move_spec Move_model.
Local Open Scope Z_scope.

Section Fix.
  Variables a b : var.
  (* 722-749: change_var_expr for operators; anything else is replaced by the source as a whole *)
  Definition fix_expr (e : expr) : expr := match e with EVar _ | EConst _ _ _ | ESlice _ _ _ => EVar b | _ => fst (change a b e) end.
  Definition fix_test (e : expr) : expr := if mem a (evars e) then fix_expr e else e.
  (* every statement in sinks_ (Dce_model.stmt_sinks): also if the port is an index on its left.  Statements return in functions only, which are left out *)
  Fixpoint fix_stmt (s : stmt) : stmt :=
    match s with
    | SAssign k l e => SAssign k l (if mem a (lhs_reads l ++ evars e) then fix_expr e else e)
    | SIf c t f => SIf (fix_test c) (map fix_stmt t) (map fix_stmt f)
    | SSwitch e cs d => SSwitch (fix_test e) (map (fun c => (fst c, map fix_stmt (snd c))) cs) (match d with Some l => Some (map fix_stmt l) | None => None end)
    | SFor i u v st l => SFor i u v st (map fix_stmt l)
    | SBlock l => SBlock (map fix_stmt l)
    | s => s
    end.
  Definition fix_proc (p : proc) : proc :=
    match p with
    | PWire l e => PWire l (if mem a (lhs_reads l ++ evars e) then fix_expr e else e)
    | PComb l => PComb (map fix_stmt l)
    | PFf evs l => PFf evs (map fix_stmt l)
    end.
  Definition fix_item (g : nat) (it : item) : item :=
    if Nat.eqb (i_gen it) g then {| i_id := i_id it; i_gen := i_gen it; i_proc := fix_proc (i_proc it) |} else it.
End Fix.
(* src/expr.cc: sources_ of the port, here in the order of the design (an unordered set in the code): what is assigned to it *)
Definition source_of (a : var) (s : stmt) : list expr := match s with SAssign _ l e => if Nat.eqb (lhs_var l) a then [e] else [] | _ => [] end.
Definition sources (a : var) (d : design) : list expr := flat_map (fun it => collect_body (source_of a) (body_of (i_proc it))) d.
Definition sunk (a : var) (g : nat) (d : design) : bool := existsb (fun it => Nat.eqb (i_gen it) g && existsb (uses a) (collect_body (fun s => [s]) (body_of (i_proc it)))) d.
(* 705-720 of an input port a of a generator in g, own giving the generator of a signal.  A constant is of no generator
   (src/expr.cc:974-983).  None: the source is an expression or a slice, which is left out *)
Definition legal_fix (own : var -> nat) (a : var) (g : nat) (d : design) : option (outcome design) :=
  if sunk a g d then
    match sources a d with
    | [] => Some (Ok d)
    | EVar b :: _ => if Nat.eqb (own b) g then Some (Ok (map (fix_item a b g) d)) else Some Throw
    | EConst _ _ _ :: _ => Some Throw
    | _ => None
    end
  else Some (Ok d).
