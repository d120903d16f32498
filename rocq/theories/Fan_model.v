(* src/optimize.cc:204-275 remove_fanout_one_wires on flat designs (Dce_model.v).  The sinks of a variable are
   the statements of the design that read it; unassign and move_src_to keep them so, except for wires between
   two ports of one instance, whose statement stays in the enclosing generator.  Interfaces, debug
   information and parametrized widths are left out. *)
From Verif Require Import Base SV_spec IR IRSem_spec Design_spec Dce_spec Dce_model Fan_spec.
Local Open Scope Z_scope.

(* src/expr.cc:1598-1644 stmt_set_left, move_src_to: assignments to a become assignments to b *)
Definition to_lhs (a b : var) (l : lhs) : lhs :=
  match l with
  | LVar x => LVar (if Nat.eqb x a then b else x)
  | LSlice x hi lo => LSlice (if Nat.eqb x a then b else x) hi lo
  | LDyn x i w => LDyn (if Nat.eqb x a then b else x) i w
  end.
Fixpoint to_stmt (a b : var) (s : stmt) : stmt :=
  match s with
  | SAssign k l e => SAssign k (to_lhs a b l) e
  | SIf c t f => SIf c (map (to_stmt a b) t) (map (to_stmt a b) f)
  | SSwitch e cs d => SSwitch e (map (fun c => (fst c, map (to_stmt a b) (snd c))) cs)
                        (match d with Some l => Some (map (to_stmt a b) l) | None => None end)
  | SFor i u v st l => SFor i u v st (map (to_stmt a b) l)
  | SBlock l => SBlock (map (to_stmt a b) l)
  | s => s
  end.
Definition to_proc (a b : var) (p : proc) : proc :=
  match p with
  | PWire l e => PWire (to_lhs a b l) e
  | PComb l => PComb (map (to_stmt a b) l)
  | PFf evs l => PFf evs (map (to_stmt a b) l)
  end.
Definition to_item (a b : var) (it : item) : item := {| i_id := i_id it; i_gen := i_gen it; i_proc := to_proc a b (i_proc it) |}.

(* Var::sinks() *)
Definition readers (d : design) (x : var) : list item :=
  flat_map (fun it => map (fun _ => it) (filter (fun s => mem x (stmt_sinks s)) (collect_body (fun s => [s]) (body_of (i_proc it))))) d.
Section Fan.
  Variable M : modules.
  (* src/optimize.cc:243-269 compute_assign_chain: the variables with the statement that reads each.  A slice
     as target is not followed here.  Without fuel: the recursion does not end. *)
  Fixpoint chain (d : design) (fuel : nat) (x : var) : outcome (list (var * option item)) :=
    match fuel with
    | O => UB
    | S n =>
        match readers d x with
        | [it] =>
            match i_proc it with
            | PWire (LVar y) (EVar _) =>
                if Nat.eqb (m_owner M y) (m_owner M x) then olet l := chain d n y in Ok ((x, Some it) :: l) else Ok []
            | _ => Ok []
            end
        | _ => Ok [(x, None)]
        end
    end.
  (* src/optimize.cc:214-226 *)
  Definition links (c : list (var * option item)) : list nat :=
    flat_map (fun p => match snd p with Some it => [i_id it] | None => [] end) (removelast c).
  Definition fresh (d : design) : nat := S (fold_right Nat.max O (map i_id d)).
  Definition is_port (x : var) : bool := match m_kind M x with KVar => false | _ => true end.
  (* src/optimize.cc:207-240, one variable *)
  Definition fan_var (g : nat) (d : design) (x : var) : outcome design :=
    olet c := chain d (S (length d)) x in
    if (length c <=? 2)%nat then Ok d else
    let dst := fst (last c (x, None)) in
    let d1 := filter (fun it => negb (Nat.eqb (i_gen it) g && mem (i_id it) (links c))) d in
    let d2 := map (fun it => if Nat.eqb (i_gen it) g then to_item x dst it else it) d1 in
    Ok (if is_port x && is_port dst then d2 ++ [{| i_id := fresh d; i_gen := g; i_proc := PWire (LVar dst) (EVar x) |}] else d2).
  Fixpoint fan_vars (g : nat) (l : list var) (d : design) : outcome design :=
    match l with [] => Ok d | x :: r => olet d := fan_var g d x in fan_vars g r d end.
  (* src/optimize.cc:272-275; the generators one after the other *)
  Fixpoint fan_gens (gs : list nat) (d : design) : outcome design :=
    match gs with [] => Ok d | g :: r => olet d := fan_vars g (m_names M g) d in fan_gens r d end.
End Fan.
Definition remove_fanout (M : modules) (d : design) : outcome design := fan_gens M (m_gens M) d.
