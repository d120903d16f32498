(* src/optimize.cc:277-364 remove_pass_through_modules on flat designs (Dce_model.v).  Clones, instances inside
   of an instance that is removed, parameters and debug information are left out. *)
From Verif Require Import Base SV_spec IR IRSem_spec Design_spec Dce_spec Dce_model Fan_model Tie_model Move_model.
Local Open Scope Z_scope.

Section Pass.
  Variable H : hierarchy.
  (* 302-305: the variable made for an input port, src/generator.cc get_unique_variable_name *)
  Variable new : var -> var.
  Definition is_in (x : var) : bool := match h_kind H x with KIn => true | _ => false end.
  (* 325-358 is_pass_through *)
  Definition port_ok (d : design) (p : var) : bool :=
    if is_in p then Nat.eqb (List.length (sinks_of d p)) 1
    else match sources_of d p with
         | [(_, SAssign _ _ (EVar x))] => match h_kind H x with KVar => false | _ => true end
         | _ => false
         end.
  Definition is_pass (d : design) (c : nat) : bool :=
    match h_vars H c with [] => true | _ => false end &&
    Nat.eqb (Nat.modulo (List.length (h_ports H c)) 2) 0 &&
    Nat.eqb (List.length (filter (fun it => Nat.eqb (i_gen it) c) d)) (Nat.div (List.length (h_ports H c)) 2) &&
    forallb (port_ok d) (h_ports H c).
  (* 301: the left side of the statement.  A test has a statement of its own whose left side is the test (src/stmt.cc:231-251);
     the sinks of a slice are empty (src/expr.cc:1752-1755); expressions throw (src/expr.cc:1647-1649) *)
  Definition test_left (e : expr) : outcome (option var) :=
    match e with EVar x => Ok (Some x) | ESlice _ _ _ => Ok None | _ => Throw end.
  Definition left_of (s : stmt) : outcome (option var) :=
    match s with
    | SAssign _ (LVar x) _ => Ok (Some x)
    | SAssign _ _ _ => Ok None
    | SIf c _ _ => test_left c
    | SSwitch e _ _ => test_left e
    | SReturn e => test_left e
    | _ => Ok None
    end.
  (* 297-317, one input *)
  Definition pass_input (g : nat) (d : design) (i : var) : outcome design :=
    match sinks_of d i with
    | [] => UB
    | (_, s) :: _ =>
        olet o := left_of s in
        let d1 := map (fun it => if Nat.eqb (i_gen it) g then to_item i (new i) it else it) d in
        match o with Some x => move_sinks x (new i) g false d1 | None => Ok d1 end
    end.
  Fixpoint pass_inputs (g : nat) (is : list var) (d : design) : outcome design :=
    match is with [] => Ok d | i :: r => olet d := pass_input g d i in pass_inputs g r d end.
  (* 291-320, one instance *)
  Definition pass_child (g : nat) (d : design) (c : nat) : outcome design :=
    olet d := pass_inputs g (filter is_in (h_ports H c)) d in
    Ok (filter (fun it => negb (Nat.eqb (i_gen it) c)) d).
  Fixpoint pass_children (g : nat) (cs : list nat) (d : design) : outcome design :=
    match cs with [] => Ok d | c :: r => olet d := pass_child g d c in pass_children g r d end.
  Definition children (g : nat) : list nat := filter (fun c => match h_parent H c with Some q => Nat.eqb q g | None => false end) (h_gens H).
  (* 279-322 visit *)
  Definition pass_visit (g : nat) (d : design) : outcome design := pass_children g (filter (is_pass d) (children g)) d.
  Fixpoint pass_visits (gs : list nat) (d : design) : outcome design :=
    match gs with [] => Ok d | g :: r => olet d := pass_visit g d in pass_visits r d end.
  (* 364-367; src/ir.cc:92-100: a generator before its instances *)
  Definition remove_pass_through (d : design) : outcome design := pass_visits (rev (h_gens H)) d.
End Pass.
