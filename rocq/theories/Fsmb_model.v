(* Building and drawing state machines: src/fsm.cc:46-88, 463-485, 500-600, 662-706, 751-762, src/fsm.hh:52-58. *)
From Verif Require Import Base IR Fsm_spec Fsm_model.
Local Open Scope nat_scope.

(* src/fsm.cc:751-762  FSMState::handle_name; the fuel is the number of FSMs, as in up_to *)
Fixpoint handle_from (F : family) (fuel g : nat) (acc : string) : string :=
  match fuel with
  | O => acc
  | S n => match fam_parent F g with None => acc | Some p => handle_from F n p (fam_name F g ++ "_" ++ acc)%string end
  end.
Definition handle (F : family) (s : nat) : string := handle_from F (fam_fsms F) (f_fsm (fam_state F s)) (name_of F s).
(* src/fsm.cc:57-88  get_all_child_states(true): states of other machines are noted and not followed *)
Fixpoint bfsx (F : family) (f : nat) (fuel : nat) (queue visited result : list nat) : list nat :=
  match fuel, queue with
  | S n, s :: q =>
      if mem s visited then bfsx F f n q visited result
      else let nx := map snd (f_next (fam_state F s)) in
           let inside t := up_to F (fam_fsms F) f (f_fsm (fam_state F t)) in
           bfsx F f n (q ++ filter inside nx) (visited ++ [s]) (result ++ s :: filter (fun t => negb (inside t)) nx)
  | _, _ => result
  end.
Definition drawn (F : family) (f : nat) : list nat :=
  bfsx F f (List.length (own F f) + total_next F (seq 0 (fam_n F))) (own F f) [] [].
(* src/fsm.cc:500-558  dot_graph: circles, doubled for the start, and arrows with their conditions; colours are left out *)
Definition nodes (F : family) (f : nat) (start : option nat) : list (bool * string) :=
  match start with
  | None => map (fun s => (false, handle F s)) (drawn F f)
  | Some t => (true, handle F t) :: map (fun s => (false, handle F s)) (filter (fun s => negb (String.eqb (handle F s) (handle F t))) (drawn F f))
  end.
Definition arrow := (string * option expr * string)%type.
Definition arrows_of (F : family) (s : nat) : list arrow := map (fun ct => (handle F s, fst ct, handle F (snd ct))) (f_next (fam_state F s)).
Definition arrows (F : family) (f : nat) : list arrow := flat_map (arrows_of F) (drawn F f).
(* src/fsm.cc:566-592  output_table: outputs in the order of their names, states in the order of theirs; at() throws *)
Fixpoint insert_out (nm : var -> string) (x : var) (l : list var) : list var :=
  match l with [] => [x] | y :: r => if String.leb (nm x) (nm y) then x :: l else y :: insert_out nm x r end.
Definition header (nm : var -> string) (F : family) (f : nat) : list var := fold_right (insert_out nm) [] (map fst (fam_outs F f)).
Fixpoint row (outs : list var) (vals : list (var * option expr)) : outcome (list (option expr)) :=
  match outs with [] => Ok [] | x :: r => match assoc x vals with None => Throw | Some v => olet t := row r vals in Ok (v :: t) end end.
Fixpoint rows (F : family) (outs : list var) (l : list nat) : outcome (list (string * list (option expr))) :=
  match l with
  | [] => Ok []
  | s :: r => olet v := row outs (f_out (fam_state F s)) in olet t := rows F outs r in Ok ((name_of F s, v) :: t)
  end.
Definition output_table (nm : var -> string) (F : family) (f : nat) : outcome (list var * list (string * list (option expr))) :=
  olet t := rows F (header nm F f) (own F f) in Ok (header nm F f, t).

(* machines in machines: parent_fsm_ and child_fsms_ (names of machines are unique, src/generator.cc:277-292) *)
Record nest := { w_parent : nat -> option nat; w_kids : nat -> list nat }.
Definition no_nest : nest := {| w_parent := fun _ => None; w_kids := fun _ => [] |}.
(* src/fsm.cc:46-55  add_child_fsm, of machines of one generator *)
Definition add_child (w : nest) (pc : nat * nat) : nest :=
  let '(p, c) := pc in
  {| w_parent := fun x => if Nat.eqb x c then Some p else w_parent w x;
     w_kids := fun x => if Nat.eqb x p then (if mem c (w_kids w p) then w_kids w p else w_kids w p ++ [c]) else w_kids w x |}.
(* src/fsm.cc:670: walking up with no end is UB; more steps than there are machines have no end *)
Fixpoint root_of (w : nest) (fuel g : nat) : outcome nat :=
  match w_parent w g with
  | None => Ok g
  | Some p => match fuel with O => UB | S n => root_of w n p end
  end.
(* src/fsm.cc:671-674 *)
Fixpoint climb (w : nest) (fuel r g : nat) : outcome bool :=
  if Nat.eqb g r then Ok true
  else match w_parent w g with None => Ok false | Some p => match fuel with O => UB | S n => climb w n r p end end.
(* src/fsm.cc:662-706  FSMState::next: from a state to a state on a condition, which is an object *)
Record call := { k_from : nat; k_to : nat; k_cond : option nat }.
Definition moves := nat -> list (option nat * nat).
Definition cond_eqb (a b : option nat) : bool := match a, b with None, None => true | Some x, Some y => Nat.eqb x y | _, _ => false end.
Definition has (c : option nat) (l : list (option nat * nat)) : bool := existsb (fun m => cond_eqb (fst m) c) l.
Definition next (n : nat) (fsm_of : nat -> nat) (one_bit : nat -> bool) (w : nest) (m : moves) (k : call) : outcome moves :=
  olet r := root_of w n (fsm_of (k_from k)) in
  olet b := climb w n r (fsm_of (k_to k)) in
  let add := fun x => if Nat.eqb x (k_from k) then m x ++ [(k_cond k, k_to k)] else m x in
  if negb b then Throw
  else match k_cond k with
       | None => Ok add
       | Some c => if has None (m (k_from k)) then Throw else if negb (one_bit c) then Throw
                   else if has (Some c) (m (k_from k)) then Throw else Ok add
       end.
Fixpoint nexts (n : nat) (fsm_of : nat -> nat) (one_bit : nat -> bool) (w : nest) (m : moves) (l : list call) : outcome moves :=
  match l with [] => Ok m | k :: r => olet m' := next n fsm_of one_bit w m k in nexts n fsm_of one_bit w m' r end.
(* src/fsm.cc:463-485  add_state, get_state: a state is the number of its add_state *)
Definition add_state (l : list string) (n : string) : outcome (list string) := if existsb (String.eqb n) l then Throw else Ok (l ++ [n]).
Fixpoint add_states (l ns : list string) : outcome (list string) := match ns with [] => Ok l | n :: r => olet l' := add_state l n in add_states l' r end.
Fixpoint get_from (i : nat) (l : list string) (n : string) : outcome nat :=
  match l with [] => Throw | x :: r => if String.eqb x n then Ok i else get_from (S i) r n end.
Definition get_state (l : list string) (n : string) : outcome nat := get_from 0 l n.
