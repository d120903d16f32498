(* Checks of a design, src/analysis.cc.  Designs are flat as in Design_spec.v; the order of the list is the order
   modules and statements are visited in. *)
From Verif Require Import Base SV_spec IR IRSem_spec Design_spec Zero_spec Zero_model Dce_model Check_spec.
Local Open Scope Z_scope.

Fixpoint ofold {A B : Type} (f : A -> B -> outcome A) (l : list B) (a : A) : outcome A :=
  match l with [] => Ok a | b :: r => olet a' := f a b in ofold f r a' end.
(* src/analysis.cc:277-394 ActiveVisitor *)
Section Reset.
  Variable kind : var -> sigkind.
  Variable active : var -> option bool.
  Definition rmap := list (var * bool).
  Definition rfind (m : rmap) (x : var) : option bool := option_map snd (find (fun p => Nat.eqb (fst p) x) m).
  (* 337-374 one entry of a sensitivity list.  The second emplace of line 365 finds the key and does nothing. *)
  Definition reset_event (m : rmap) (e : bool * var) : outcome rmap :=
    let '(high, x) := e in
    match kind x with
    | Port TAsyncReset =>
        if match active x with Some a => negb (Bool.eqb high a) | None => false end then Throw
        else match rfind m x with
             | Some h => if negb (Bool.eqb h high) then Throw else Ok m
             | None => Ok (m ++ [(x, high)])
             end
    | Port TReset => Throw
    | _ => Ok m
    end.
  (* 284-335 one if statement *)
  Definition reset_if (m : rmap) (c : expr) : bool :=
    match c with
    | EVar x =>
        match kind x with
        | Port TAsyncReset => match rfind m x with None => false | Some h => h end
        | Port TReset => match rfind m x with None => true | Some _ => false end
        | _ => true
        end
    | EUn op (EVar x) =>
        match op with
        | UNot | UInvert =>
            match kind x with
            | Port TAsyncReset => match rfind m x with None => false | Some h => negb h end
            | Port TReset => match rfind m x with None => true | Some _ => false end
            | _ => true
            end
        | _ => true
        end
    | _ => true
    end.
  Definition conditions (body : list stmt) : list expr := collect_body (fun s => match s with SIf c _ _ => [c] | _ => [] end) body.
  Definition reset_item (m : rmap) (it : item) : outcome rmap :=
    olet m' := ofold reset_event (events_of (i_proc it)) m in
    if forallb (reset_if m') (conditions (body_of (i_proc it))) then Ok m' else Throw.
  (* src/analysis.cc:391-394 check_active_high, src/ir.cc:43-54 *)
  Definition check_active_high (d : design) : outcome unit := olet _ := ofold reset_item d [] in Ok tt.

  (* src/analysis.cc:1461-1501 check_always_sensitivity *)
  Definition sensitive (x : var) : bool := match kind x with Port TClock | Port TAsyncReset | Cast TClock | Cast TAsyncReset => true | _ => false end.
  Definition check_sensitivity (d : design) : outcome unit :=
    if forallb (fun it => forallb (fun e => sensitive (snd e)) (events_of (i_proc it))) d then Ok tt else Throw.
End Reset.

(* src/analysis.cc:828-836 has_var *)
Fixpoint has_var (e : expr) (x : var) : bool :=
  match e with
  | EVar y => Nat.eqb y x
  | EConst _ _ _ => false
  | EUn _ a => has_var a x
  | EBin _ a b => has_var a x || has_var b x
  | ECond _ a b => has_var a x || has_var b x
  | ESlice _ _ _ => false
  | EConcat a b => has_var a x || has_var b x
  | EExtend a _ => has_var a x
  end.
(* src/analysis.cc:799-843 CombinationalLoopVisitor: the sources of every signal.  Continuous assignments are blocking. *)
Definition check_loop (d : design) : outcome unit :=
  if existsb (fun it => match i_proc it with PWire l e => has_var e (lhs_var l) | _ => false end) d then Throw else Ok tt.

(* the assignments to a signal: src/expr.hh:150-164, see Net_props.v *)
Definition sources (d : design) (x : var) : list (akind * lhs * bool) :=
  flat_map (fun it => collect_body (fun s => match s with SAssign k l _ => if Nat.eqb (lhs_var l) x then [(k, l, match i_proc it with PWire _ _ => true | _ => false end)] else [] | _ => [] end) (body_of (i_proc it))) d.
Definition drive_of (s : akind * lhs * bool) : drive :=
  match snd (fst s) with LVar _ => Whole | LSlice _ hi lo => Bits lo hi | LDyn _ _ _ => Indexed end.
(* src/analysis.cc:1546-1594 GeneratorConnectivityVisitor *)
Section Connect.
  Variable G : tenv.
  Variable d : design.
  Definition port_ok (top : bool) (p : gport) : bool :=
    match gp_dir p, top with
    | DIn, true => true
    | _, _ =>
        let w := d_width (G (gp_var p)) in
        let '(c, bits) := connected w (map drive_of (sources d (gp_var p))) in
        (c && (Z.of_nat (length (nodup Z.eq_dec bits)) =? w)) || forallb (fun i => existsb (Z.eqb i) bits) (range 0 (w - 1))
    end.
  Fixpoint check_gens (top : bool) (gs : list gen) : outcome unit :=
    match gs with
    | [] => Ok tt
    | g :: r => if g_opaque g then check_gens top r else if forallb (port_ok top) (g_ports g) then check_gens false r else Throw
    end.
  (* src/analysis.cc:1596-1599 verify_generator_connectivity *)
  Definition check_connectivity (gs : list gen) : outcome unit := check_gens true gs.
End Connect.

(* src/analysis.cc:148-168 checkout_assignment without the part below *)
Definition kinds_ok (d : design) (x : var) : bool :=
  match sources d x with
  | [] => true
  | s :: r => forallb (fun t => if akind_eq_dec (fst (fst t)) (fst (fst s)) then true else false) r
  end.
Definition check_kinds (d : design) (xs : list var) : outcome unit := if forallb (kinds_ok d) xs then Ok tt else Throw.
(* src/analysis.cc:61-92 check_var *)
Definition wires_ok (d : design) (x : var) : bool := negb (existsb snd (sources d x)) || forallb snd (sources d x).
Definition check_wires (d : design) (xs : list var) : outcome unit := if forallb (wires_ok d) xs then Ok tt else Throw.
(* src/analysis.cc:1410-1453 extract_register_names, after the kinds of assignments are fixed; [pick] is the first element
   of the set of sources *)
Definition registers (pick : list (akind * lhs * bool) -> option (akind * lhs * bool)) (d : design) (xs : list var) : list var :=
  filter (fun x => match pick (sources d x) with Some (NonBlocking, _, _) => true | _ => false end) xs.

(* src/analysis.cc:170-215 check_var_parent and has_non_port *)
Section Names.
  Variable N : names.
  Definition eq_gen (a b : option nat) : bool := match a, b with Some x, Some y => Nat.eqb x y | None, None => true | _, _ => false end.
  Definition is_port (e : expr) : bool := match e with EVar x => match n_port N x with Some _ => true | None => false end | _ => false end.
  (* src/expr.cc:821-845 set_parent; None: the generator of constants *)
  Definition join (a b : expr) (ga gb : option nat) : option nat :=
    match ga, gb with
    | None, _ => gb
    | _, None => ga
    | Some l, Some r =>
        if Nat.eqb l r then Some l
        else if eq_gen (Some l) (n_parent N r) && is_port b then Some l
        else if eq_gen (n_parent N l) (n_parent N r) && is_port a && is_port b then n_parent N l
        else Some r
    end.
  (* the generator of a signal, of a constant, of a slice (491-493), of operators.  ConditionalExpr and VarConcat have two
     operands here (796-804). *)
  Fixpoint gen_of (e : expr) : option nat :=
    match e with
    | EVar x => Some (n_owner N x)
    | EConst _ _ _ => None
    | EUn _ a => gen_of a
    | EBin _ a b => join a b (gen_of a) (gen_of b)
    | ECond _ a b => join a b (gen_of a) (gen_of b)
    | ESlice a _ _ => gen_of a
    | EConcat a b => join a b (gen_of a) (gen_of b)
    | EExtend a _ => gen_of a
    end.
  Fixpoint has_non_port (ctx : nat) (e : expr) : bool :=
    match e with
    | EVar x => negb (Nat.eqb (n_owner N x) ctx) && negb (is_port e)
    | EConst _ _ _ => false
    | EUn _ a => has_non_port ctx a
    | EBin _ a b => has_non_port ctx a || has_non_port ctx b
    | ECond _ a b => has_non_port ctx a || has_non_port ctx b
    | ESlice a _ _ => has_non_port ctx a
    | EConcat a b => has_non_port ctx a || has_non_port ctx b
    | EExtend a _ => has_non_port ctx a
    end.
  (* the assignment of e to (a part of) x *)
  Definition check_parent (x : var) (e : expr) : outcome unit :=
    let g := n_owner N x in
    match gen_of e with
    | None => Ok tt
    | Some h =>
        if Nat.eqb g h then Ok tt
        else match n_port N x with
             | Some DIn => if eq_gen (Some h) (n_parent N g) || eq_gen (n_parent N h) (n_parent N g) then Ok tt else Throw
             | _ => if (negb (eq_gen (n_parent N h) (Some g)) && negb (eq_gen (n_parent N h) (n_parent N g))) || has_non_port g e then Throw else Ok tt
             end
    end.
End Names.
