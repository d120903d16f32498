(* Interfaces of SystemVerilog. *)
From Coq Require Import Permutation.
From Verif Require Import Base Decl_spec.
Local Open Scope string_scope.
Local Open Scope Z_scope.

(* what is declared about a port and a variable of an interface; port types: 0 data, 1 clock, ... *)
Record iport := { ip_width : Z; ip_size : list Z; ip_dir : dir; ip_type : nat }.
Definition ivar := (Z * list Z)%type.
(* the text of an interface: its ports, its variables, its modports with their entries *)
Record itext := { it_ports : list (ltok (string * iport)); it_vars : list (string * ivar); it_mods : list (string * list (ltok (dir * string))) }.
(* a list of entries separated by commas, each name once *)
Definition proper {A} (name : A -> string) (l : list (ltok A)) : Prop :=
  exists es, l = comma_list es /\ NoDup (map name es).
