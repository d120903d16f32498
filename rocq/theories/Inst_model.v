(* src/transform.cc:231-292 create_module_instantiation, 317-480 decouple_generator_ports, src/stmt.cc:681-705, 888-958 on flat designs
   (Dce_model.v).  The variable made for port p is new p; h_kind and h_owner give what it is from the start.  Interfaces, structs, arrays,
   inout ports, casts and debug information are left out.  Between the passes connections that need no variable are off the
   list of statements of their generator (transform.cc:366, 430) but still in sources_ and sinks_, which is what the second pass looks at;
   here they stay in the design until then. *)
From Verif Require Import Base SV_spec IR IRSem_spec Design_spec Dce_spec Dce_model Fan_model Tie_model Move_spec Move_model Inline_model Inst_spec.
Local Open Scope Z_scope.

Record pstate2 := { p_design : design; p_moved : list var (* the outputs whose sinks_ have been cleared, src/expr.cc:1664-1666 *) }.
Section Inst.
  Variables (H : hierarchy) (new : var -> var).
  (* src/expr.cc:820-844 Expr::set_parent, 1136-1148: None for constants, which go where they are used *)
  Definition is_port_var (e : expr) : bool := match e with EVar x => match h_kind H x with KVar => false | _ => true end | _ => false end.
  Definition eq_gen (x y : option nat) : bool := match x, y with Some a, Some b => Nat.eqb a b | None, None => true | _, _ => false end.
  Definition up (x : option nat) : option nat := match x with Some a => h_parent H a | None => None end.
  Definition join (l r : option nat) (lp rp : bool) : option nat :=
    match l, r with
    | None, _ => r
    | _, None => l
    | _, _ => if eq_gen l r then l else if eq_gen l (up r) && rp then l else if eq_gen (up l) (up r) && lp && rp then up l else r
    end.
  Fixpoint gen_of (e : expr) : option nat :=
    match e with
    | EVar x => Some (h_owner H x)
    | EConst _ _ _ => None
    | EUn _ x | EExtend x _ | ESlice x _ _ => gen_of x
    | EBin _ x y | EConcat x y => join (gen_of x) (gen_of y) (is_port_var x) (is_port_var y)
    | ECond c _ _ => gen_of c
    end.
  Definition in_gen (g : nat) (e : expr) : bool := match gen_of e with Some a => Nat.eqb a g | None => true end.
  (* transform.cc:341-349 correct_src_type, 361-364 *)
  Definition plain (g : nat) (e : expr) : bool :=
    match e with
    | EVar x => match h_kind H x with KVar => true | _ => Nat.eqb (h_owner H x) g end
    | EConst _ _ _ => true
    | ESlice _ _ _ => in_gen g e
    | _ => false
    end.
  (* src/expr.cc:1601-1644 move_src_to *)
  Definition move_src (p v : var) (g : nat) (d : design) : design :=
    map (to_in g p v) d ++ [{| i_id := fresh d; i_gen := g; i_proc := PWire (LVar p) (EVar v) |}].
  (* transform.cc:351-404 *)
  Definition decouple_in (g : nat) (p : var) (st : pstate2) : outcome pstate2 :=
    let divert := {| p_design := move_src p (new p) g (p_design st); p_moved := p_moved st |} in
    match sources_of (p_design st) p with
    | [(it, SAssign _ (LVar _) e)] => Ok (if is_wire it && plain g e then st else divert)
    | _ => Ok divert
    end.
  (* transform.cc:405-462 *)
  Definition decouple_out (g : nat) (p : var) (st : pstate2) : outcome pstate2 :=
    let divert := olet d := move_sinks p (new p) g true (p_design st) in Ok {| p_design := d; p_moved := p :: p_moved st |} in
    match filter (fun k => Nat.eqb (i_gen (fst k)) g) (sinks_of (p_design st) p) with
    | [] => Ok st
    | [(it, SAssign _ (LVar x) (EVar y))] =>
        if is_wire it && Nat.eqb (h_owner H x) g && Nat.eqb y p then Ok st else divert
    | _ => divert
    end.
  Definition decouple_port (c : nat) (p : var) (st : pstate2) : outcome pstate2 :=
    match h_parent H c with
    | None => Ok st
    | Some g => match h_kind H p with KIn => decouple_in g p st | KOut => decouple_out g p st | KVar => Throw end
    end.
  Fixpoint decouple_all (ps : list (nat * var)) (st : pstate2) : outcome pstate2 :=
    match ps with [] => Ok st | (c, p) :: r => olet st' := decouple_port c p st in decouple_all r st' end.
  Definition ports_in (cs : list nat) : list (nat * var) := flat_map (fun c => map (pair c) (h_ports H c)) cs.
  (* transform.cc:318-338, 469-480; the generators come in the order of cs *)
  Definition decouple (cs : list nat) (d : design) : outcome pstate2 := decouple_all (ports_in cs) {| p_design := d; p_moved := [] |}.

  (* src/stmt.cc:888-943 process_port; the result says which statement the connection is *)
  Definition attach_in (g : nat) (p : var) (st : pstate2) : outcome (option (nat * link)) :=
    let ks := filter (fun k => match snd k with SAssign _ _ e => in_gen g e | _ => false end) (sources_of (p_design st) p) in
    if existsb (fun k => match snd k with SAssign _ (LVar _) _ => false | _ => true end) ks then Throw
    else match ks with
         | [(it, SAssign _ _ e)] => Ok (Some (i_id it, LinkIn p e))
         | _ => Throw
         end.
  Definition recorded (p : var) (st : pstate2) (k : item * stmt) : bool :=
    if mem p (p_moved st) then match i_proc (fst k) with PWire (LVar x) (EVar y) => Nat.eqb x (new p) && Nat.eqb y p | _ => false end else true.
  (* 921-938: the slices are looked for among those that are assigned, so that none is found *)
  Definition attach_out (g : nat) (p : var) (st : pstate2) : outcome (option (nat * link)) :=
    match filter (fun k => match snd k with SAssign _ l _ => Nat.eqb (h_owner H (lhs_var l)) g | _ => false end) (filter (recorded p st) (sinks_of (p_design st) p)) with
    | [] => Ok None
    | [(it, SAssign _ l _)] => Ok (Some (i_id it, LinkOut p l))
    | _ => Throw
    end.
  Definition attach (g : nat) (p : var) (st : pstate2) : outcome (option (nat * link)) :=
    match h_kind H p with KIn => attach_in g p st | KOut => attach_out g p st | KVar => Throw end.
  Fixpoint attach_all (g : nat) (ps : list var) (st : pstate2) : outcome (list (nat * link)) :=
    match ps with
    | [] => Ok []
    | p :: r => olet k := attach g p st in olet ks := attach_all g r st in Ok (match k with Some k => k :: ks | None => ks end)
    end.
  (* transform.cc:231-292, stmt.cc:946-956 *)
  Fixpoint instantiate_all (cs : list nat) (st : pstate2) : outcome (list nat * list instance) :=
    match cs with
    | [] => Ok ([], [])
    | c :: r => match h_parent H c with
                | None => instantiate_all r st
                | Some g => olet ks := attach_all g (h_ports H c) st in olet t := instantiate_all r st in
                            Ok (map fst ks ++ fst t, {| in_child := c; in_parent := g; in_links := map snd ks |} :: snd t)
                end
    end.
  Definition instantiate (cs : list nat) (st : pstate2) : outcome (design * list instance) :=
    olet t := instantiate_all cs st in Ok (filter (fun it => negb (mem (i_id it) (fst t))) (p_design st), snd t).
  Definition connect (cs : list nat) (d : design) : outcome (design * list instance) := olet st := decouple cs d in instantiate cs st.
End Inst.
