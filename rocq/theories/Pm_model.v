(* PassManager: src/pass.cc:92-136, src/pass.hh.  The time of a pass, which can be printed, is left out. *)
From Verif Require Import Base Pm_spec.
Local Open Scope list_scope.

(* src/pass.hh: passes_ and passes_order_ *)
Record manager := { m_passes : list (string * nat); m_order : list string }.
Definition empty : manager := {| m_passes := []; m_order := [] |}.
(* std::map::find *)
Fixpoint find_pass (l : list (string * nat)) (n : string) : option nat :=
  match l with [] => None | (k, f) :: l => if String.eqb n k then Some f else find_pass l n end.
(* src/pass.hh has_pass *)
Definition has_pass (m : manager) (n : string) : bool := match find_pass (m_passes m) n with Some _ => true | None => false end.
(* src/pass.cc:92-103 *)
Definition register_pass (m : manager) (n : string) (f : nat) : manager * outcome unit :=
  if has_pass m n then (m, Throw) else ({| m_passes := m_passes m ++ [(n, f)]; m_order := m_order m |}, Ok tt).
(* src/pass.cc:105-109 *)
Definition add_pass (m : manager) (n : string) : manager * outcome unit :=
  if negb (has_pass m n) then (m, Throw) else ({| m_passes := m_passes m; m_order := m_order m ++ [n] |}, Ok tt).
(* a caller that goes on after an exception *)
Definition do_call (m : manager) (c : call) : manager * outcome unit := match c with Register n f => register_pass m n f | Add n => add_pass m n end.
Definition after (h : list call) : manager := fold_left (fun m c => fst (do_call m c)) h empty.
Section R.
  Variable G : Type.
  Variable pass : nat -> G -> G * outcome unit.
  (* src/pass.cc:111-136; at() throws if there is no such pass *)
  Fixpoint run_order (m : manager) (l : list string) (x : G) : G * outcome unit :=
    match l with
    | [] => (x, Ok tt)
    | n :: l => match find_pass (m_passes m) n with
                | None => (x, Throw)
                | Some f => match pass f x with (y, Ok _) => run_order m l y | (y, o) => (y, o) end
                end
    end.
  Definition run_passes (m : manager) (x : G) : G * outcome unit := run_order m (m_order m) x.
End R.
