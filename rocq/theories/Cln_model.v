(* Clones of generators and wires between variables: src/generator.cc:136-142, 231-236, 998-1075; src/expr.cc:325-350, 1149-1153. *)
From Verif Require Import Base.
Local Open Scope string_scope.
Local Open Scope list_scope.

Inductive dir := In_ | Out_ | InOut.
(* a port.  p_wparam: the name of its width parameter, if that is a parameter and not an expression *)
Record port := { p_name : string; p_dir : dir; p_width : Z; p_size : list Z; p_type : nat; p_signed : bool; p_packed : bool; p_explicit : bool; p_wparam : option string }.
(* a generator: its parameters with their values, and its ports in the order of get_port_names *)
Record gen := { g_params : list (string * Z); g_ports : list port; g_external : bool }.
Definition value_of (g : gen) (n : string) : option Z := option_map snd (find (fun x => String.eqb (fst x) n) (g_params g)).
Definition has_port (g : gen) (n : string) : bool := existsb (fun p => String.eqb (p_name p) n) (g_ports g).
(* src/generator.cc:136-142, 231-236: the name has to be new; packed and not an explicit array at first (src/expr.hh:256, 263) *)
Definition add_port (g : gen) (p : port) : outcome gen :=
  if has_port g (p_name p) then Throw else Ok {| g_params := g_params g; g_ports := g_ports g ++ [p]; g_external := g_external g |}.
(* src/generator.cc:1028-1037, 1062-1073: one port made after another.  A parameter that g does not have is not found: in clone,
   set_width_param gets a null pointer, which changes nothing (src/expr.cc:326-337) *)
Definition port_like (g : gen) (p : port) : port :=
  let q w o := {| p_name := p_name p; p_dir := p_dir p; p_width := w; p_size := p_size p; p_type := p_type p; p_signed := p_signed p;
                  p_packed := p_packed p; p_explicit := false; p_wparam := o |} in
  match p_wparam p with
  | Some n => match value_of g n with Some v => q v (Some n) | None => q (p_width p) None end
  | None => q (p_width p) None
  end.
Fixpoint add_all (g : gen) (l : list port) : outcome gen := match l with [] => Ok g | p :: r => olet g1 := add_port g (port_like g p) in add_all g1 r end.
(* src/generator.cc:1020-1050; a new parameter has the value 1 (src/expr.cc:1149-1153) *)
Definition clone (g : gen) : outcome gen :=
  olet c := add_all {| g_params := map (fun x => (fst x, 1%Z)) (g_params g); g_ports := []; g_external := false |} (g_ports g) in
  Ok {| g_params := g_params c; g_ports := g_ports c; g_external := true |}.
(* src/generator.cc:1058-1075 *)
Fixpoint copy_missing (g : gen) (l : list port) : outcome gen :=
  match l with [] => Ok g | p :: r => if has_port g (p_name p) then copy_missing g r else olet g1 := add_port g (port_like g p) in copy_missing g1 r end.

(* the statements of a generator: assignments, by the variables they are between, and all others *)
Inductive gstmt := Assigns (left right : nat) | Block (inside : list (nat * nat)) | Others (n : nat).
(* src/generator.cc:998 *)
Definition wire (l : list gstmt) (a b : nat) : list gstmt := l ++ [Assigns a b].
(* src/generator.cc:1002-1012 *)
Definition between (a b : nat) (s : gstmt) : bool :=
  match s with Assigns x y => (Nat.eqb x a && Nat.eqb y b) || (Nat.eqb y a && Nat.eqb x b) | _ => false end.
(* src/generator.cc:1000-1017 *)
Fixpoint unwire (l : list gstmt) (a b : nat) : list gstmt := match l with [] => [] | s :: r => if between a b s then r else s :: unwire r a b end.
