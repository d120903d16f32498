(* Modules without contents. *)
From Verif Require Import Base.
Local Open Scope Z_scope.
Local Open Scope list_scope.

Inductive dir := In_ | Out_ | InOut_.
(* a port: width in bits, whether it is an array, packed, of an enumeration, and whether it is read or driven inside the module *)
Record port := { p_name : string; p_dir : dir; p_width : Z; p_signed : bool; p_array : bool; p_packed : bool; p_enum : bool; p_reads : bool; p_driven : bool }.
Inductive stmt := Zero (p : string) (w : Z) | Other (n : nat).
(* a module: marked as a stub or not, its statements, its variables other than ports, its ports in the order of their names *)
Record module := { m_stub : bool; m_stmts : list stmt; m_vars : list string; m_ports : list port }.
(* not used inside *)
Definition untouched (p : port) : Prop := match p_dir p with In_ => p_reads p = false | _ => p_driven p = false end.
(* a vector of up to 64 bits, or a packed array of such size *)
Definition plain (p : port) : Prop := p_signed p = false /\ p_enum p = false /\ (p_array p = true -> p_packed p = true) /\ 1 <= p_width p <= 64.
(* a module without contents whose outputs are plain *)
Definition hollow (m : module) : Prop := m_stmts m = [] /\ m_vars m = [] /\ forall p, In p (m_ports m) -> untouched p /\ (p_dir p <> In_ -> plain p).
