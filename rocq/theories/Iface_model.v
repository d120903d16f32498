(* Model of interface definitions, modports, their references and their text. *)
From Verif Require Import Base Decl_spec Decl_model Call_model Iface_spec.
Local Open Scope string_scope.
Local Open Scope Z_scope.
Local Open Scope list_scope.

(* sets of names: src/interface.hh std::set; iteration is in the order of the names *)
Definition mem (n : string) (l : list string) : bool := existsb (String.eqb n) l.
Definition set_add (n : string) (l : list string) : list string := if mem n l then l else l ++ [n].
Definition set_order (l : list string) : list string := ssort str_ltb l.

(* src/interface.hh:29-80, 82-116 *)
Record mdef := { m_in : list string; m_out : list string }.
Record idef := { i_name : string; i_ports : list (string * iport); i_vars : list (string * ivar); i_mods : list (string * mdef) }.
Definition new_idef (n : string) : idef := {| i_name := n; i_ports := []; i_vars := []; i_mods := [] |}.
Definition has {V} (n : string) (l : list (string * V)) : bool := match find n l with Some _ => true | None => false end.
Fixpoint update {V} (n : string) (v : V) (l : list (string * V)) : list (string * V) :=
  match l with [] => [] | (m, w) :: r => if String.eqb n m then (m, v) :: r else (m, w) :: update n v r end.

Inductive iop := DPort (n : string) (p : iport) | DVar (n : string) (v : ivar) | DMod (n : string) | DIn (m n : string) | DOut (m n : string).
Definition is_in (d : dir) : bool := match d with In_ => true | _ => false end.
Definition is_out (d : dir) : bool := match d with Out_ => true | _ => false end.
Definition add_in (m : mdef) (n : string) : mdef := {| m_in := set_add n (m_in m); m_out := m_out m |}.
Definition add_out (m : mdef) (n : string) : mdef := {| m_in := m_in m; m_out := set_add n (m_out m) |}.
(* src/interface.cc:95-109 set_output, 137-151 set_input: a port of the other direction is refused, a variable is taken, any
   other name has no effect *)
Definition set_dir (ok : dir -> bool) (add : mdef -> string -> mdef) (d : idef) (m n : string) : outcome idef :=
  match find m (i_mods d) with
  | None => Throw
  | Some md =>
      let put := Ok {| i_name := i_name d; i_ports := i_ports d; i_vars := i_vars d; i_mods := update m (add md n) (i_mods d) |} in
      match find n (i_ports d) with
      | Some p => if ok (ip_dir p) then put else Throw
      | None => if has n (i_vars d) then put else Ok d
      end
  end.
(* src/interface.cc:10-63 *)
Definition istep (d : idef) (x : iop) : outcome idef :=
  match x with
  | DPort n p => if has n (i_ports d) then Throw else Ok {| i_name := i_name d; i_ports := i_ports d ++ [(n, p)]; i_vars := i_vars d; i_mods := i_mods d |}
  | DVar n v => if has n (i_vars d) then Throw else Ok {| i_name := i_name d; i_ports := i_ports d; i_vars := i_vars d ++ [(n, v)]; i_mods := i_mods d |}
  | DMod n => if has n (i_mods d) then Throw
              else Ok {| i_name := i_name d; i_ports := i_ports d; i_vars := i_vars d; i_mods := i_mods d ++ [(n, {| m_in := []; m_out := [] |})] |}
  | DIn m n => set_dir is_in add_in d m n
  | DOut m n => set_dir is_out add_out d m n
  end.
Fixpoint isteps (d : idef) (l : list iop) : outcome idef :=
  match l with [] => Ok d | x :: r => olet e := istep d x in isteps e r end.

(* src/interface.cc:128-133 ports of a modport *)
Definition mod_names (m : mdef) : list string := fold_left (fun s n => set_add n s) (m_out m) (m_in m).
(* src/interface.cc:173-203  get_modport_ref, on the reference of a definition: the direction of each port of the new reference *)
Definition modport_ref (d : idef) (m : string) : outcome (list (string * dir)) :=
  match find m (i_mods d) with
  | None => Throw
  | Some md =>
      let is_input := mem m (m_in md) in
      Ok (flat_map (fun n => if has n (i_vars d) then [(n, if is_input then In_ else Out_)]
                             else match find n (i_ports d) with Some p => [(n, ip_dir p)] | None => [] end) (set_order (mod_names md)))
  end.
(* src/interface.cc:111-122  InterfaceModPortDefinition::port *)
Definition mod_port (d : idef) (md : mdef) (n : string) : option iport :=
  match find n (i_ports d) with
  | Some p => Some p
  | None => match find n (i_vars d) with
            | Some (w, s) => Some {| ip_width := w; ip_size := s; ip_dir := if mem n (m_in md) then In_ else Out_; ip_type := 0 |}
            | None => None
            end
  end.

(* a use of a definition, or of one of its modports, by a generator; src/interface.cc:153-155 *)
Record use := { u_def : idef; u_mod : option (string * mdef) }.
Definition def_name (u : use) : string := match u_mod u with None => i_name (u_def u) | Some (m, _) => (i_name (u_def u) ++ "." ++ m)%string end.
Definition port_names (u : use) : list string := match u_mod u with None => set_order (map fst (i_ports (u_def u))) | Some (_, md) => set_order (mod_names md) end.
Definition port_of (u : use) (n : string) : option iport := match u_mod u with None => find n (i_ports (u_def u)) | Some (_, md) => mod_port (u_def u) md n end.
Definition var_names (u : use) : list string := match u_mod u with None => set_order (map fst (i_vars (u_def u))) | Some _ => [] end.
Definition var_of (u : use) (n : string) : option ivar := match u_mod u with None => find n (i_vars (u_def u)) | Some _ => None end.
Definition dir_eqb (a b : dir) : bool := match a, b with In_, In_ | Out_, Out_ | Inout_, Inout_ => true | _, _ => false end.
Definition zs_eqb (a b : list Z) : bool := Nat.eqb (List.length a) (List.length b) && forallb (fun p => Z.eqb (fst p) (snd p)) (combine a b).
Definition iport_eqb (a b : iport) : bool :=
  Z.eqb (ip_width a) (ip_width b) && zs_eqb (ip_size a) (ip_size b) && dir_eqb (ip_dir a) (ip_dir b) && Nat.eqb (ip_type a) (ip_type b).
Definition ivar_eqb (a b : ivar) : bool := Z.eqb (fst a) (fst b) && zs_eqb (snd a) (snd b).
Definition opt_eqb {A} (f : A -> A -> bool) (a b : option A) : bool := match a, b with Some a, Some b => f a b | None, None => true | _, _ => false end.
Definition names_eqb (a b : list string) : bool := Nat.eqb (List.length a) (List.length b) && forallb (fun p => String.eqb (fst p) (snd p)) (combine a b).
(* src/analysis.cc:1299-1336  update_interface_definition; the lock and the generators named in errors are not modelled *)
Definition same_interface (r u : use) : bool :=
  names_eqb (port_names r) (port_names u) && forallb (fun n => opt_eqb iport_eqb (port_of u n) (port_of r n)) (port_names u) &&
  names_eqb (var_names r) (var_names u) && forallb (fun n => opt_eqb ivar_eqb (var_of u n) (var_of r n)) (var_names u).
Fixpoint visit (seen : list (string * use)) (l : list use) : outcome (list (string * use)) :=
  match l with
  | [] => Ok seen
  | u :: r => match find (def_name u) seen with
              | None => visit (emplace (def_name u) u seen) r
              | Some v => if same_interface v u then visit seen r else Throw
              end
  end.
(* src/analysis.cc:1338-1405  extract_interface_info *)
Fixpoint commas {A} (count size : nat) (l : list A) : list (ltok A) :=
  match l with [] => [] | a :: r => LItem a :: (if Nat.eqb (S count) size then [] else [LComma]) ++ commas (S count) size r end.
Definition mod_text (m : string * mdef) : outcome (string * list (ltok (dir * string))) :=
  let md := snd m in
  let size := List.length (mod_names md) in
  if Nat.eqb size 0 then Throw
  else Ok (fst m, commas 0 size (map (fun n => (In_, n)) (set_order (m_in md)) ++ map (fun n => (Out_, n)) (set_order (m_out md)))).
Definition text_of (d : idef) : outcome itext :=
  olet ms := omapM mod_text (in_order (i_mods d)) in
  let ports := in_order (i_ports d) in
  Ok {| it_ports := commas 0 (List.length ports) ports; it_vars := in_order (i_vars d); it_mods := ms |}.
Definition extract (l : list use) : outcome (list (string * itext)) :=
  olet seen := visit [] l in
  omapM (fun e => olet t := text_of (u_def (snd e)) in Ok (fst e, t)) (filter (fun e => match u_mod (snd e) with None => true | Some _ => false end) (in_order seen)).

(* names of a generator: src/generator.cc:92-104 var, 738-778 interface; keywords are not modelled *)
Record names := { g_vars : list string; g_ifaces : list string }.
Inductive nop := NVar (n : string) | NIface (n : string) (members : list string).
Definition nstep (g : names) (x : nop) : outcome names :=
  match x with
  | NVar n => Ok {| g_vars := set_add n (g_vars g); g_ifaces := g_ifaces g |}      (* of the same type when it exists *)
  | NIface n ms => if mem n (g_vars g) then Throw else if mem n (g_ifaces g) then Throw
                   else Ok {| g_vars := fold_left (fun s m => set_add (n ++ "." ++ m)%string s) ms (g_vars g); g_ifaces := g_ifaces g ++ [n] |}
  end.
Fixpoint nsteps (g : names) (l : list nop) : outcome names := match l with [] => Ok g | x :: r => olet h := nstep g x in nsteps h r end.

(* connections of an instance: src/codegen.cc:1089-1173 generate_port_interface, after the sorting.
   What is connected: a variable has a name, a constant has its value for a name, slices and expressions have an empty name
   (src/expr.cc:493, 743, 797). *)
Record outer := { x_name : string; x_text : string; x_base : string; x_iface : bool }.   (* x_iface: get_interface(base) exists and is no modport *)
Inductive inner := PPlain (n : string) | PIface (inst : string) (modport : option string).
Definition outer_name (p : inner) (x : outer) : string :=
  match p with
  | PPlain _ => x_text x
  | PIface _ None => x_base x
  | PIface _ (Some m) => if x_iface x then (x_base x ++ "." ++ m)%string else x_base x
  end.
Fixpoint connections (seen : list (string * string)) (l : list (inner * outer)) : outcome (list (string * string)) :=
  match l with
  | [] => Ok []
  | (p, x) :: r =>
      match p with
      | PPlain n => olet cs := connections seen r in Ok ((n, outer_name p x) :: cs)
      | PIface i _ =>
          match find i seen with
          | Some e => if String.eqb e (outer_name p x) then connections seen r else Throw
          | None => olet cs := connections (emplace i (outer_name p x) seen) r in Ok ((i, outer_name p x) :: cs)
          end
      end
  end.
(* the connections of an interface instance *)
Definition iface_connections (l : list (string * outer)) : list (string * string) := map (fun p => (fst p, x_name (snd p))) l.
