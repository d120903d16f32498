(* src/expr.cc:1487-1676 change_var_expr, set_slice_var_parent, stmt_set_right, Var::move_sink_to, on flat designs
   (Dce_model.v).  Casts, duplications, indices on the right side, links and debug information are left out. *)
From Verif Require Import Base SV_spec IR IRSem_spec Design_spec Dce_spec Dce_model Fan_model Move_spec.
Local Open Scope Z_scope.

Section Move.
  Variables a b : var.
  Definition rooted (e : expr) : bool := match root e with Some x => Nat.eqb x a | None => false end.
  (* 1487-1511 set_slice_var_parent without the check: only slices of a itself are rebuilt *)
  Definition slice_to (e : expr) : expr := if rooted e then in_place a b e else e.
  (* 1513-1557 change_var_expr on operators, and its callers on operands.  An extension prints parent_ (1361-1363), which is
     not updated, so that only an operand that is an expression, changed in place, changes.  A concatenation prints
     vars_ (1265-1272); of them 1322-1327 replaces the first that is a; the members that are expressions are changed in place
     and slices are not.  vars_ of a concatenation that starts with a concatenation is its members (1292-1302).
     A condition that is a slice is rebuilt in a
     local variable only (1547-1554).  The second component: a member has been replaced. *)
  Fixpoint change (e : expr) : expr * bool :=
    match e with
    | EVar x => if Nat.eqb x a then (EVar b, true) else (e, false)
    | EConst _ _ _ => (e, false)
    | EUn op x => (EUn op (fst (change x)), false)
    | EBin op x y => (EBin op (fst (change x)) (fst (change y)), false)
    | ECond c x y => (ECond (match c with ESlice _ _ _ => c | _ => fst (change c) end) (fst (change x)) (fst (change y)), false)
    | ESlice _ _ _ => (slice_to e, false)
    | EExtend x w => match x with EVar _ | ESlice _ _ _ => (e, false) | _ => (EExtend (fst (change x)) w, false) end
    | EConcat x y =>
        let (x', f) := match x with ESlice _ _ _ => (x, false) | _ => change x end in
        let (y', f') := match y with
                        | EVar v => if Nat.eqb v a && negb f then (EVar b, true) else (y, f)
                        | ESlice _ _ _ => (y, f)
                        | _ => (fst (change y), f)
                        end in
        (EConcat x' y', f')
    end.
  (* 1581-1599 stmt_set_right *)
  Definition set_right (e : expr) : outcome expr :=
    match e with
    | EVar x => if Nat.eqb x a then Ok (EVar b) else Throw
    | EConst _ _ _ => Throw
    | ESlice _ _ _ => if rooted e then Ok (slice_to e) else Throw
    | _ => Ok (fst (change e))
    end.
  (* the statements in sinks_ (Dce_model.stmt_sinks); tests and returns have a statement of their own, so that the test
     (src/stmt.cc:231-251, 520-538, 818-838) only changes if it is an expression changed in place *)
  Definition right (e : expr) : expr := match set_right e with Ok e' => e' | _ => e end.
  Definition test (e : expr) : expr := match e with EVar _ | ESlice _ _ _ => e | _ => right e end.
  Definition uses (s : stmt) : bool := mem a (stmt_sinks s).
  Definition right_of (s : stmt) : option expr :=
    match s with SAssign _ _ e => Some e | SIf c _ _ => Some c | SSwitch e _ _ => Some e | SReturn e => Some e | _ => None end.
  Definition fails (s : stmt) : bool :=
    uses s && match right_of s with Some e => match set_right e with Throw => true | _ => false end | None => false end.
  Fixpoint move_stmt (s : stmt) : stmt :=
    match s with
    | SAssign k l e => if uses (SAssign k l e) then SAssign k l (right e) else SAssign k l e
    | SIf c t f => SIf (if mem a (evars c) then test c else c) (map move_stmt t) (map move_stmt f)
    | SSwitch e cs d => SSwitch (if mem a (evars e) then test e else e) (map (fun c => (fst c, map move_stmt (snd c))) cs)
                          (match d with Some l => Some (map move_stmt l) | None => None end)
    | SFor i u v st l => SFor i u v st (map move_stmt l)
    | SBlock l => SBlock (map move_stmt l)
    | SReturn e => SReturn (if mem a (evars e) then test e else e)
    | s => s
    end.
  Definition move_proc (p : proc) : proc :=
    match p with
    | PWire l e => if uses (SAssign Blocking l e) then PWire l (right e) else p
    | PComb l => PComb (map move_stmt l)
    | PFf evs l => PFf evs (map move_stmt l)
    end.
  Definition move_item (g : nat) (it : item) : item :=
    if Nat.eqb (i_gen it) g then {| i_id := i_id it; i_gen := i_gen it; i_proc := move_proc (i_proc it) |} else it.
  (* 1646-1676 move_sink_to *)
  Definition move_sinks (g : nat) (keep : bool) (d : design) : outcome design :=
    if existsb (fun it => Nat.eqb (i_gen it) g && existsb fails (collect_body (fun s => [s]) (body_of (i_proc it)))) d then Throw
    else let d1 := map (move_item g) d in
         Ok (if keep then d1 ++ [{| i_id := fresh d; i_gen := g; i_proc := PWire (LVar b) (EVar a) |}] else d1).
End Move.
