(* FSM::output: src/fsm.cc:443-461; FSMState::output and check_outputs: src/fsm.cc:699-748.  That a variable belongs to the generator is not
   modelled, nor the lines in the debug information. *)
From Verif Require Import Base Fso_spec.
Local Open Scope list_scope.

Definition find_in {A} (l : list (nat * A)) (k : nat) : option A := option_map snd (find (fun e => Nat.eqb (fst e) k) l).
(* FSM::outputs_, FSMState::output_values_ and output_ordering_ *)
Record state := { s_outs : list (nat * option nat); s_vals : list (nat * nat); s_order : list nat }.
Definition start : state := {| s_outs := []; s_vals := []; s_order := [] |}.
(* src/fsm.cc:460: emplace keeps what is there *)
Definition declare (s : state) (v : nat) (d : option nat) : state * outcome unit :=
  match find_in (s_outs s) v with
  | Some _ => (s, Ok tt)
  | None => ({| s_outs := s_outs s ++ [(v, d)]; s_vals := s_vals s; s_order := s_order s |}, Ok tt)
  end.
(* src/fsm.cc:699-709 (the exception is one of the formatting of its message, which lacks its argument) *)
Definition give (s : state) (v x : nat) : state * outcome unit :=
  match find_in (s_vals s) v with
  | Some _ => (s, Throw)
  | None => ({| s_outs := s_outs s; s_vals := s_vals s ++ [(v, x)]; s_order := s_order s ++ [v] |}, Ok tt)
  end.
Definition run (s : state) (a : act) : state * outcome unit := match a with Declare v d => declare s v d | Give v x => give s v x end.
(* a caller that goes on after an exception *)
Definition after (h : list act) : state := fold_left (fun s a => fst (run s a)) h start.
(* src/fsm.cc:730-739; the outputs in the order in which the table is gone through *)
Fixpoint fill (outs : list (nat * option nat)) (s : state) : state * outcome unit :=
  match outs with
  | [] => (s, Ok tt)
  | (v, d) :: outs =>
      match find_in (s_vals s) v with
      | Some _ => fill outs s
      | None => match d with
                | None => (s, Throw)
                | Some x => match give s v x with (s', Ok _) => fill outs s' | (s', o) => (s', o) end
                end
      end
  end.
(* src/fsm.cc:728-748 check_outputs *)
Definition check_outputs (outs : list (nat * option nat)) (s : state) : state * outcome unit :=
  match fill outs s with
  | (s', Ok _) => if forallb (fun e => match find_in outs (fst e) with Some _ => true | None => false end) (s_vals s') then (s', Ok tt) else (s', Throw)
  | r => r
  end.
