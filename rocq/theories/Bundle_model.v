(* src/port.cc:219-242, 251-277, src/port.hh:115-146 *)
From Verif Require Import Base Wire_spec Wire_model Name_model Bundle_spec.
From Coq Require Import String.
Local Open Scope string_scope.

(* src/port.hh:140-146; the std::maps as association lists *)
Record bundle := { u_name : string; u_defs : list (string * field); u_flipped : list (string * field);
                   u_debug : list (string * (string * Z)) }.
Definition new_bundle (n : string) : bundle := {| u_name := n; u_defs := []; u_flipped := []; u_debug := [] |}.
(* src/port.cc:219-235; the bundle after the call, and whether it returned *)
Definition add_definition (u : bundle) (n : string) (f : field) : bundle * outcome unit :=
  match find_key (u_defs u) n with
  | Some _ => (u, Throw)
  | None =>
      let defs := emplace (u_defs u) n f in
      match f_dir f with
      | DInOut => ({| u_name := u_name u; u_defs := defs; u_flipped := u_flipped u; u_debug := u_debug u |}, Throw)
      | d =>
          ({| u_name := u_name u; u_defs := defs;
              u_flipped := emplace (u_flipped u) n
                {| f_width := f_width f; f_size := f_size f; f_signed := f_signed f;
                   f_dir := match d with DIn => DOut | _ => DIn end; f_kind := f_kind f |};
              u_debug := u_debug u |}, Ok tt)
      end
  end.
(* src/port.hh:132-134 *)
Definition add_debug (u : bundle) (n : string) (i : string * Z) : bundle :=
  {| u_name := u_name u; u_defs := u_defs u; u_flipped := u_flipped u; u_debug := emplace (u_debug u) n i |}.
(* src/port.cc:237-243; the private default constructor leaves the name empty *)
Definition flip (u : bundle) : bundle :=
  {| u_name := ""; u_defs := u_flipped u; u_flipped := u_defs u; u_debug := u_debug u |}.
Definition definition (u : bundle) (n : string) : option field := find_key (u_defs u) n.

(* src/port.cc:251-277  PortBundleRef::assign: the fields of the two references with their ports,
   in the order of the map; the added wires, and whether the call returned *)
Fixpoint assign_fields (h : hier) (top : nat) (self other : list (string * signal)) (ws : list (signal * signal)) : list (signal * signal) * outcome unit :=
  match self with
  | [] => (ws, Ok tt)
  | (n, p) :: r =>
      match find_key other n with
      | None => (ws, Throw)
      | Some q => match wire h top p q with
                  | Ok w => assign_fields h top r other (ws ++ [w])
                  | Throw => (ws, Throw)
                  | UB => (ws, UB)
                  end
      end
  end.
Definition assign_bundle (h : hier) (top : nat) (self other : list (string * signal)) : list (signal * signal) * outcome unit :=
  if Nat.eqb (List.length self) (List.length other) then assign_fields h top self other [] else ([], Throw).
