(* What a port is to its users. *)
From Verif Require Import Base.
Local Open Scope Z_scope.
Local Open Scope list_scope.

Inductive dir := In_ | Out_ | InOut.
Inductive ptype := PData | PClock | PAsyncReset | PClockEnable | PReset.
Definition control (t : ptype) : Prop := t = PClock \/ t = PAsyncReset \/ t = PClockEnable \/ t = PReset.
(* an ordinary port, a port of a packed struct with its members and their widths, a port of an enumeration of that name and width *)
Inductive kind := Plain | Struct (members : list (string * Z)) | Enumerated (enum : string) (w : Z).
(* p_width is the width of one element, p_high whether it is active high, if that was said *)
Record port := { p_dir : dir; p_width : Z; p_size : list Z; p_type : ptype; p_signed : bool; p_packed : bool; p_explicit : bool;
                 p_high : option bool; p_kind : kind }.
Definition total (l : list Z) : Z := fold_right Z.add 0 l.
(* the ports that can be made: declared, then changed through the setters *)
Inductive made : port -> Prop :=
| M_plain d w size t s : 0 < w < 2 ^ 32 -> (control t -> w = 1) ->
    made {| p_dir := d; p_width := w; p_size := size; p_type := t; p_signed := s; p_packed := true; p_explicit := false; p_high := None; p_kind := Plain |}
| M_struct d l size : total (map snd l) < 2 ^ 32 -> Forall (fun m => 0 < snd m) l ->
    made {| p_dir := d; p_width := total (map snd l); p_size := size; p_type := PData; p_signed := false; p_packed := true; p_explicit := false;
            p_high := None; p_kind := Struct l |}
| M_enum d e w : 0 < w < 2 ^ 32 ->
    made {| p_dir := d; p_width := w; p_size := [1]; p_type := PData; p_signed := false; p_packed := true; p_explicit := false; p_high := None;
            p_kind := Enumerated e w |}
| M_type p t : made p -> (forall l, p_kind p <> Struct l) ->
    made {| p_dir := p_dir p; p_width := p_width p; p_size := p_size p; p_type := t; p_signed := p_signed p; p_packed := p_packed p;
            p_explicit := p_explicit p; p_high := p_high p; p_kind := p_kind p |}
| M_packed p b : made p -> (forall l, p_kind p = Struct l -> b = true) ->
    made {| p_dir := p_dir p; p_width := p_width p; p_size := p_size p; p_type := p_type p; p_signed := p_signed p; p_packed := b;
            p_explicit := p_explicit p; p_high := p_high p; p_kind := p_kind p |}
| M_explicit p b : made p ->
    made {| p_dir := p_dir p; p_width := p_width p; p_size := p_size p; p_type := p_type p; p_signed := p_signed p; p_packed := p_packed p;
            p_explicit := b; p_high := p_high p; p_kind := p_kind p |}
| M_high p b : made p -> fold_left Z.mul (p_size p) (p_width p) = 1 ->
    made {| p_dir := p_dir p; p_width := p_width p; p_size := p_size p; p_type := p_type p; p_signed := p_signed p; p_packed := p_packed p;
            p_explicit := p_explicit p; p_high := Some b; p_kind := p_kind p |}.
(* the same declaration: what SystemVerilog text says of a port *)
Definition alike (p q : port) : Prop :=
  p_dir q = p_dir p /\ p_width q = p_width p /\ p_size q = p_size p /\ p_type q = p_type p /\ p_signed q = p_signed p
  /\ p_packed q = p_packed p /\ p_explicit q = p_explicit p.
(* a generator: the names of its ports, and what it has under each name: a port, or a variable *)
Record gen := { g_ports : list string; g_vars : list (string * option port) }.
Definition here (g : gen) (n : string) (p : port) : Prop := In n (g_ports g) /\ exists l r, g_vars g = l ++ (n, Some p) :: r /\ ~ In n (map fst l).
Definition unused (g : gen) (n : string) : Prop := ~ In n (g_ports g) /\ ~ In n (map fst (g_vars g)).
(* nothing that was there is changed *)
Definition kept (g g' : gen) : Prop := (exists l, g_ports g' = g_ports g ++ l) /\ exists l, g_vars g' = g_vars g ++ l.
