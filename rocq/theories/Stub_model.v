(* zero_out_stubs: src/transform.cc:76-120; src/port.cc:41-70, 135-139, src/stmt.cc:133-189, src/expr.cc:936-989.  The generators are taken
   one after the other: those of a level are visited in parallel, and each changes itself alone but for the table of constants, in which
   they race (src/expr.cc:987). *)
From Verif Require Import Base Const_model Stub_spec.
Local Open Scope Z_scope.
Local Open Scope list_scope.

(* src/transform.cc:109 assign(constant(0, width)): the constant (src/expr.cc:985-989), an enumeration (src/port.cc:138), the sign
   (src/stmt.cc:139), the widths, which are the same, and packing (src/stmt.cc:172-187); a constant is packed (src/expr.hh:452) *)
Definition assign_zero (p : port) : outcome stmt :=
  olet c := make_const 0 (p_width p) false in
  if p_enum p then Throw
  else if p_signed p then Throw
  else if p_array p && negb (p_packed p) then Throw
  else Ok (Zero (p_name p) (p_width p)).
(* the loop over the ports, src/transform.cc:95-111: the statements there are so far *)
Fixpoint zero_ports (l : list port) (s : list stmt) : list stmt * outcome unit :=
  match l with
  | [] => (s, Ok tt)
  | p :: l =>
      match p_dir p with
      | In_ => if p_reads p then (s, Throw) else zero_ports l s
      | _ =>
          if p_driven p then (s, Throw)
          else match assign_zero p with Ok x => zero_ports l (s ++ [x]) | Throw => (s, Throw) | UB => (s, UB) end
      end
  end.
(* src/transform.cc:78-113 visit *)
Definition zero_out (m : module) : module * outcome unit :=
  if negb (m_stub m) then (m, Ok tt)
  else match m_stmts m with
  | _ :: _ => (m, Throw)
  | [] => match m_vars m with
          | _ :: _ => (m, Throw)
          | [] => match zero_ports (m_ports m) [] with
                  | (s, r) => ({| m_stub := m_stub m; m_stmts := s; m_vars := m_vars m; m_ports := m_ports m |}, r)
                  end
          end
  end.
(* src/transform.cc:116-120; an exception ends it *)
Fixpoint zero_out_stubs (l : list module) : list module * outcome unit :=
  match l with
  | [] => ([], Ok tt)
  | m :: l => match zero_out m with
              | (m', Ok _) => match zero_out_stubs l with (l', r) => (m' :: l', r) end
              | (m', r) => (m' :: l, r)
              end
  end.
