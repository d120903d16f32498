(* src/optimize.cc:1240-1422 inline_instance on flat designs (Dce_model.v): a state gives the design, the generator each signal
   is in, the generators and the signals that are gone.  A signal keeps its number when the instance it is in is inlined:
   src/generator.cc:694-736 transfer_content gives the new variable the uses of the port (the names are modelled in name_of below).
   Connections to slices, constants or expressions, cloned and external generators and assertions are not modelled: UB stands for
   what the model does not follow. *)
From Verif Require Import Base SV_spec IR IRSem_spec Design_spec Dce_spec Dce_model Fan_model Tie_model Move_spec Move_model Inline_spec.
Local Open Scope Z_scope.

Record nstate := { n_design : design; n_owner : var -> nat; n_removed : list nat; n_gone : list var }.
Section Inline.
  Variables (H : hierarchy) (inl : nat -> bool).
  Definition kids (removed : list nat) (g : nat) : list nat :=
    filter (fun c => match h_parent H c with Some p => Nat.eqb p g | None => false end && negb (mem c removed)) (h_gens H).
  (* 1325-1358 get_port_assignment *)
  Definition hook (p : var) (it : item) : bool :=
    match h_kind H p, i_proc it with
    | KIn, PWire (LVar x) _ => Nat.eqb x p
    | KIn, _ => false
    | _, PWire _ (EVar x) => Nat.eqb x p
    | _, _ => false
    end.
  Definition port_wire (g : nat) (d : design) (p : var) : list (bool * nat) :=
    match filter (fun it => Nat.eqb (i_gen it) g && hook p it) d with
    | [it] => [(inward H p, i_id it)]
    | _ => []
    end.
  (* src/generator.cc:694-736 *)
  Definition transfer (c g : nat) (it : item) : item := {| i_id := i_id it; i_gen := if Nat.eqb (i_gen it) c then g else i_gen it; i_proc := i_proc it |}.
  (* src/generator.cc:713-719: the uses of each port go to the variable in its place, which keeps the number here; what is left is that
     move_sink_to may throw *)
  Fixpoint replace_ports (g : nat) (ps : list var) (d : design) : outcome design :=
    match ps with [] => Ok d | p :: r => match move_sinks p p g false d with Throw => Throw | _ => replace_ports g r d end end.
  (* 1261-1282 *)
  Fixpoint take_in (g : nat) (cs : list nat) (d : design) : outcome (design * list (bool * nat)) :=
    match cs with
    | [] => Ok (d, [])
    | c :: r => olet d' := replace_ports g (h_ports H c) (map (transfer c g) d) in
                olet t := take_in g r d' in
                Ok (fst t, flat_map (port_wire g d) (h_ports H c) ++ snd t)
    end.

  (* 1288-1322 RenameLinkedVar *)
  Section Rename.
    Variable m : list (var * var).
    Definition look (x : var) : var := match find (fun p => Nat.eqb (fst p) x) m with Some p => snd p | None => x end.
    Definition rn_test (e : expr) : expr := match e with EVar x => EVar (look x) | e => e end.
    Fixpoint rn_stmt (s : stmt) : stmt :=
      match s with
      | SIf c t f => SIf (rn_test c) (map rn_stmt t) (map rn_stmt f)
      | SSwitch e cs d => SSwitch (rn_test e) (map (fun c => (fst c, map rn_stmt (snd c))) cs) (match d with Some l => Some (map rn_stmt l) | None => None end)
      | SFor i u v st l => SFor i u v st (map rn_stmt l)
      | SBlock l => SBlock (map rn_stmt l)
      | s => s
      end.
    Definition rn_proc (p : proc) : proc :=
      match p with
      | PWire l e => PWire l e
      | PComb l => PComb (map rn_stmt l)
      | PFf evs l => PFf (map (fun e => (fst e, look (snd e))) evs) (map rn_stmt l)
      end.
    Definition rn_item (g : nat) (it : item) : item :=
      if Nat.eqb (i_gen it) g then {| i_id := i_id it; i_gen := i_gen it; i_proc := rn_proc (i_proc it) |} else it.
  End Rename.
  Definition to_in (g : nat) (a b : var) (it : item) : item := if Nat.eqb (i_gen it) g then to_item a b it else it.

  (* 1366-1383: one connection.  o_map: var_mapping; o_sigs: vars; o_old: the left sides of statements that are taken from the
     design by clear_sinks and stay in sources_ (src/expr.cc:1732-1740) *)
  Record ostate := { o_design : design; o_map : list (var * var); o_sigs : list var; o_old : list var }.
  Definition left_of (s : item * stmt) : list var := match snd s with SAssign _ l _ => [lhs_var l] | _ => [] end.
  Definition dissolve (g : nat) (s : ostate) (w : bool * nat) : outcome ostate :=
    match find_item (o_design s) (snd w) with
    | Some it =>
        match i_proc it with
        | PWire (LVar l) (EVar r) =>
            if fst w then
              olet d := move_sinks l r g false (o_design s) in
              Ok {| o_design := drop_design (assigns_to l) d; o_map := o_map s ++ [(l, r)]; o_sigs := o_sigs s ++ [r]; o_old := o_old s |}
            else
              let d := map (to_in g r l) (o_design s) in
              Ok {| o_design := drop_design (assign_reads r) d; o_map := o_map s ++ [(r, l)]; o_sigs := o_sigs s ++ [l];
                    o_old := o_old s ++ flat_map left_of (statements (assign_reads r) d) |}
        | _ => UB
        end
    | None => UB
    end.
  Fixpoint dissolve_all (g : nat) (ws : list (bool * nat)) (s : ostate) : outcome ostate :=
    match ws with [] => Ok s | w :: r => olet s := dissolve g s w in dissolve_all g r s end.
  (* 1396-1413: the signals with one source.  A signal that is gone, or a source whose right side is gone, is not to be looked at *)
  Definition shorten (g : nat) (own : var -> nat) (old : list var) (v : var) (s : design * list var) : outcome (design * list var) :=
    let (d, gone) := s in
    if mem v gone then UB else
    match sources_of d v, filter (Nat.eqb v) old with
    | [(_, SAssign _ (LVar _) (EVar y))], [] =>
        olet d := move_sinks v y g false d in
        if Nat.eqb (own v) g then Ok (drop_design (assigns_to v) d, gone ++ [v]) else Throw     (* src/generator.cc:1270-1273 *)
    | [], [_] => UB
    | _, _ => Ok (d, gone)
    end.
  Fixpoint shorten_all (g : nat) (own : var -> nat) (old vs : list var) (s : design * list var) : outcome (design * list var) :=
    match vs with [] => Ok s | v :: r => olet s := shorten g own old v s in shorten_all g own old r s end.
  (* 1249-1285 visit *)
  Definition inline_gen (g : nat) (s : nstate) : outcome nstate :=
    let cs := kids (n_removed s) g in
    let chosen := filter inl cs in
    if negb (forallb (fun c => match kids (n_removed s) c with [] => true | _ => false end) cs) then Ok s else
    match chosen with
    | [] => Ok s
    | _ =>
        olet t := take_in g chosen (n_design s) in
        let own := fun x => if mem (n_owner s x) chosen then g else n_owner s x in
        olet o := dissolve_all g (snd t) {| o_design := fst t; o_map := []; o_sigs := []; o_old := [] |} in
        olet r := shorten_all g own (o_old o) (o_sigs o) (map (rn_item (o_map o) g) (o_design o), n_gone s ++ map fst (o_map o)) in
        Ok {| n_design := fst r; n_owner := own; n_removed := n_removed s ++ chosen; n_gone := snd r |}
    end.
  (* 1415-1422; src/ir.cc:123-137 visit_generator_root_tp: the generators are visited at the same time.  Here one after the other, in
     any order *)
  Fixpoint inline_all (gs : list nat) (s : nstate) : outcome nstate :=
    match gs with [] => Ok s | g :: r => olet s := inline_gen g s in inline_all r s end.
End Inline.
Definition start (H : hierarchy) (d : design) : nstate := {| n_design := d; n_owner := h_owner H; n_removed := []; n_gone := [] |}.

(* The names of the variables of an inlined instance.  src/generator.cc:550-575 get_unique_variable_name is called on the instance
   (709), so that [has] asks the instance; 705-719.  Without fuel: no end. *)
From Verif Require Import Num_model.
Local Open Scope string_scope.
Definition has_name (n : string) (l : list string) : bool := existsb (String.eqb n) l.
Fixpoint count_up (fuel : nat) (has : string -> bool) (base : string) (i : nat) : option string :=
  match fuel with
  | O => None
  | S k => let n := base ++ "_" ++ dec (Z.of_nat i) in if has n then count_up k has base (S i) else Some n
  end.
Definition unique_name (fuel : nat) (has : string -> bool) (prefix name : string) : option string :=
  let base := prefix ++ "_" ++ name in
  if has base then count_up fuel has base 0 else Some base.
Definition new_name (child parent : list string) (prefix name : string) : option string :=
  if has_name name parent then unique_name (S (List.length child)) (fun n => has_name n child) prefix name else Some name.
(* src/generator.cc:705-719: the names of the variables of the enclosing generator, with the variable each one is.  emplace and var
   keep a variable that has the name already *)
Fixpoint transfer_names (child : list string) (prefix : string) (l : list (string * nat)) (parent : list (string * nat)) : option (list (string * nat)) :=
  match l with
  | [] => Some parent
  | (n, x) :: r =>
      match new_name child (map fst parent) prefix n with
      | None => None
      | Some m => transfer_names child prefix r (if has_name m (map fst parent) then parent else (parent ++ [(m, x)])%list)
      end
  end.
