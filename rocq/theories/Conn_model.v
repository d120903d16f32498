(* The connections of a port, and the wiring of two interfaces. *)
From Verif Require Import Base Conn_spec.

(* src/port.cc:82-86 PortVisitor with src/ir.cc:24-40 visit_root on an expression: a port is collected when it is visited; a
   slice, a cast and a call are visited but their children are the slices made of them (src/expr.cc:278-288), so that
   what they are made of is not; the children of an expression are its operands (src/expr.hh:651, 680, 708, 735).
   An object is visited once, which makes no difference to the set. *)
Fixpoint seen (s : sig) : list nat :=
  match s with
  | SPort p => [p]
  | SVar _ | SConst | SSlice _ | SIndex _ _ | SCast _ | SCall _ => []
  | SUn s | SExtend s => seen s
  | SBin a b => seen a ++ seen b
  | SCond c a b => seen c ++ seen a ++ seen b
  | SConcat l => flat_map seen l
  end.

(* add_sink: src/expr.hh:163, src/expr.cc:703-706, 1073, 1253-1257, 1351, 1384, 1742-1745, 1752-1755, 1792-1796, 2320-2324: the ports
   that get a statement as a sink *)
Fixpoint sink_of (s : sig) : list nat :=
  match s with
  | SPort p => [p]
  | SVar _ | SConst => []
  | SSlice s | SCast s | SUn s | SExtend s => sink_of s
  | SIndex s i => sink_of s ++ sink_of i
  | SBin a b => sink_of a ++ sink_of b
  | SCond c a b => sink_of c ++ sink_of a ++ sink_of b
  | SConcat l | SCall l => flat_map sink_of l
  end.

(* add_source: src/expr.hh:164, src/expr.cc:708-711, 1074-1076, 1241-1245, 1757-1760: the ports that get a statement as a source ... *)
Fixpoint source_of (s : sig) : list nat :=
  match s with
  | SPort p => [p]
  | SSlice s | SCast s | SIndex s _ => source_of s
  | SConcat l => flat_map source_of l
  | _ => []
  end.
(* ... and the ports in an index, which get it as a sink (710) *)
Fixpoint index_of (s : sig) : list nat :=
  match s with
  | SSlice s | SCast s => index_of s
  | SIndex s i => index_of s ++ sink_of i
  | SConcat l => flat_map index_of l
  | _ => []
  end.

Definition mem (p : nat) (l : list nat) : bool := existsb (Nat.eqb p) l.

Section Ports.
  Variable dir : nat -> pdir.
  Variable gen : nat -> nat.
  Variable stmts : list stmt.

  (* sources_ and sinks_ of a port, from the statements of the design *)
  Definition sources (p : nat) : list stmt := filter (fun s => mem p (source_of (fst s))) stmts.
  Definition sinks (p : nat) : list stmt := filter (fun s => mem p (sink_of (snd s) ++ index_of (fst s))) stmts.
  Definition is_dir (d e : pdir) : bool := match d, e with PIn, PIn | POut, POut | PInOut, PInOut => true | _, _ => false end.

  (* src/port.cc:88-102 *)
  Definition connected_from (p : nat) : list nat :=
    if is_dir (dir p) POut then []
    else filter (fun q => is_dir (dir q) POut && negb (Nat.eqb (gen q) (gen p)))
                (flat_map (fun s => seen (snd s)) (sources p)).
  (* src/port.cc:104-110 *)
  Definition connected (p : nat) : bool :=
    if is_dir (dir p) PIn then negb (match sources p with [] => true | _ => false end)
    else negb (match sinks p with [] => true | _ => false end).
  (* src/port.cc:112-126 *)
  Definition connected_to (p : nat) : list nat :=
    if is_dir (dir p) PIn then []
    else filter (fun q => is_dir (dir q) PIn && negb (Nat.eqb (gen q) (gen p)))
                (flat_map (fun s => seen (fst s)) (sinks p)).
End Ports.

(* src/interface.hh:111-156: an interface of a generator, with what its signals are; names are numbered, the maps are lists in the
   order in which they are gone through *)
Record iref := mkI { i_gen : nat; i_ports : list (nat * nat); i_vars : list (nat * sig) }.
Fixpoint assoc {A} (n : nat) (l : list (nat * A)) : option A :=
  match l with [] => None | (m, a) :: l => if Nat.eqb m n then Some a else assoc n l end.

Section Wire.
  Variable dir : nat -> pdir.
  Variable child_of : nat -> nat -> bool.      (* has_child_generator *)

  (* src/generator.cc:976-995: the statements added so far are kept when it throws *)
  Fixpoint wire_ports (parent : iref) (ports : list (nat * nat)) : list stmt * outcome unit :=
    match ports with
    | [] => ([], Ok tt)
    | (n, p) :: ports =>
        match (match assoc n (i_vars parent) with
               | Some v => Some v
               | None => option_map SPort (assoc n (i_ports parent))
               end) with
        | None => ([], Throw)
        | Some v =>
            let s := match dir p with PIn => (SPort p, v) | _ => (v, SPort p) end in
            let (l, o) := wire_ports parent ports in (s :: l, o)
        end
    end.
  (* src/generator.cc:953-995  this->wire_interface(inst1, inst2) *)
  Definition wire_interface (this : nat) (i1 i2 : iref) : list stmt * outcome unit :=
    match (if child_of (i_gen i1) (i_gen i2) then Some (i1, i2)
           else if child_of (i_gen i2) (i_gen i1) then Some (i2, i1) else None) with
    | None => ([], Throw)
    | Some (parent, child) =>
        if Nat.eqb (i_gen parent) this then wire_ports parent (i_ports child) else ([], Throw)
    end.
End Wire.
