(* Port bundles that become packed structs: src/transform.cc:765-905. *)
From Verif Require Import Base Num_model Hash_model.
Local Open Scope string_scope.
Local Open Scope list_scope.

Inductive pdir := PIn | POut | PInOut.
Definition pdir_eqb (a b : pdir) : bool := match a, b with PIn, PIn | POut, POut | PInOut, PInOut => true | _, _ => false end.
(* q_scalar: size() is {1}, so that width() is var_width() *)
Record port := { q_width : Z; q_signed : bool; q_dir : pdir; q_scalar : bool }.
(* a bundle of generator i_gen; i_map is name_mappings(), a std::map from fields to ports *)
Record inst := { i_gen : nat; i_entry : string; i_map : list (string * string) }.
Definition ports := nat -> string -> option port.
Definition port_at (ps : ports) (g : nat) (n : string) : port := match ps g n with Some q => q | None => {| q_width := 0; q_signed := false; q_dir := PInOut; q_scalar := false |} end.

(* src/transform.cc:767-799: the bundles to convert; ports of bundles exist (src/generator.cc:1218-1240) *)
Definition eligible (ps : ports) (i : inst) : bool :=
  match i_map i with
  | [] => false
  | (_, n0) :: _ => let d := q_dir (port_at ps (i_gen i) n0) in
      negb (pdir_eqb d PInOut) && forallb (fun an => pdir_eqb (q_dir (port_at ps (i_gen i) (snd an))) d && q_scalar (port_at ps (i_gen i) (snd an))) (i_map i)
  end.
(* src/transform.cc:817-829; fmt writes a bool as true or false, and the fields are in order already *)
Definition sign_text (b : bool) : string := if b then "true" else "false".
Definition field_text (ps : ports) (g : nat) (an : string * string) : string :=
  let q := port_at ps g (snd an) in (dec (q_width q) ++ dec (q_width q) ++ sign_text (q_signed q) ++ fst an)%string.
Fixpoint texts (ps : ports) (g : nat) (m : list (string * string)) : string := match m with [] => "" | an :: r => (field_text ps g an ++ texts ps g r)%string end.
Definition text (ps : ports) (i : inst) : string := texts ps (i_gen i) (i_map i).
(* src/transform.cc:830-856: first within a generator, then between them: all hashes are the same *)
Definition all_same (ps : ports) (l : list inst) : bool := match l with [] => true | i :: r => forallb (fun j => Z.eqb (fnv (text ps j)) (fnv (text ps i))) r end.

(* statements that assign one signal to another, with the generator they are in.  Member: a field of a packed port *)
Inductive endpoint := PortOf (g : nat) (n : string) | Member (g : nat) (e a : string) | Sig (x : nat).
Record wire := { w_gen : nat; w_left : endpoint; w_right : endpoint }.
Definition is_port (g : nat) (n : string) (e : endpoint) : bool := match e with PortOf h m => Nat.eqb h g && String.eqb m n | _ => false end.
Record state := { c_ports : ports; c_packed : list (nat * string); c_wires : list wire }.
Definition drop (ps : ports) (g : nat) (n : string) : ports := fun h m => if Nat.eqb h g && String.eqb m n then None else ps h m.
(* src/expr.cc:1615-1677 without keep_connection: left sides, or right sides, of the statements in a generator *)
Definition swap (g : nat) (n : string) (new e : endpoint) : endpoint := if is_port g n e then new else e.
Definition move_src (g : nat) (n : string) (new : endpoint) (p : nat) (ws : list wire) : list wire :=
  map (fun w => if Nat.eqb (w_gen w) p then {| w_gen := w_gen w; w_left := swap g n new (w_left w); w_right := w_right w |} else w) ws.
Definition move_sink (g : nat) (n : string) (new : endpoint) (p : nat) (ws : list wire) : list wire :=
  map (fun w => if Nat.eqb (w_gen w) p then {| w_gen := w_gen w; w_left := w_left w; w_right := swap g n new (w_right w) |} else w) ws.
(* src/transform.cc:874-896 for one field; sf is the fields of the struct *)
Definition convert_field (parent : nat -> option nat) (sf : list string) (d : pdir) (i : inst) (an : string * string) (s : state) : outcome state :=
  if negb (existsb (String.eqb (fst an)) sf) then Throw
  else if negb (pdir_eqb (q_dir (port_at (c_ports s) (i_gen i) (snd an))) d) then Throw
  else
    let g := i_gen i in let n := snd an in let new := Member g (i_entry i) (fst an) in
    let ws := match d with
              | PIn => let ws1 := match parent g with Some p => move_src g n new p (c_wires s) | None => c_wires s end in move_sink g n new g ws1
              | _ => let ws1 := move_src g n new g (c_wires s) in match parent g with Some p => move_sink g n new p ws1 | None => ws1 end
              end in
    Ok {| c_ports := drop (c_ports s) g n; c_packed := c_packed s; c_wires := ws |}.
Fixpoint convert_fields (parent : nat -> option nat) (sf : list string) (d : pdir) (i : inst) (m : list (string * string)) (s : state) : outcome state :=
  match m with [] => Ok s | an :: r => olet s1 := convert_field parent sf d i an s in convert_fields parent sf d i r s1 end.
(* src/transform.cc:867-873, 898-900; a port of that name exists already: src/generator.cc:1093-1100 *)
Definition convert (parent : nat -> option nat) (sf : list string) (i : inst) (s : state) : outcome state :=
  let taken := match c_ports s (i_gen i) (i_entry i) with Some _ => true | None => false end || existsb (fun p => Nat.eqb (fst p) (i_gen i) && String.eqb (snd p) (i_entry i)) (c_packed s) in
  if taken then Throw
  else
    let d := match i_map i with [] => PInOut | (_, n) :: _ => q_dir (port_at (c_ports s) (i_gen i) n) end in
    convert_fields parent sf d i (i_map i) {| c_ports := c_ports s; c_packed := (i_gen i, i_entry i) :: c_packed s; c_wires := c_wires s |}.
Fixpoint convert_all (parent : nat -> option nat) (sf : list string) (l : list inst) (s : state) : outcome state :=
  match l with [] => Ok s | i :: r => olet s1 := convert parent sf i s in convert_all parent sf r s1 end.
(* src/transform.cc:857-866: the struct has the fields of the last bundle *)
Definition merge (parent : nat -> option nat) (l : list inst) (s : state) : outcome state :=
  if all_same (c_ports s) l then convert_all parent (map fst (i_map (last l {| i_gen := 0; i_entry := ""; i_map := [] |}))) l s else Throw.
