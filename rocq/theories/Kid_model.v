(* Model of the children of state machines, src/fsm.cc:47-55 and 600-617.  State machines are numbered in the order of their
   names, which are distinct within one generator (src/generator.cc fsm()). *)
From Verif Require Import Base.

(* child_fsms_ (keys only, ascending, each machine is its own name) and parent_fsm_ of every state machine *)
Record hier := { kids : nat -> list nat; parent : nat -> option nat }.

(* std::map::emplace of a machine under its name *)
Fixpoint emplace (c : nat) (l : list nat) : list nat :=
  match l with
  | [] => [c]
  | x :: r => if Nat.eqb c x then x :: r else if Nat.ltb c x then c :: x :: r else x :: emplace c r
  end.

(* src/fsm.cc:47-55 FSM::add_child_fsm; the start state (54) is not modelled.  On an exception nothing has changed *)
Definition add_child (gen : nat -> nat) (p c : nat) (h : hier) : outcome hier :=
  if Nat.eqb (gen c) (gen p)
  then Ok {| kids := fun x => if Nat.eqb x p then emplace c (kids h x) else kids h x;
             parent := fun x => if Nat.eqb x c then Some p else parent h x |}
  else Throw.

(* a program that makes the calls one after the other and goes on after an exception *)
Definition run (gen : nat -> nat) (l : list (nat * nat)) : hier :=
  fold_left (fun h pc => match add_child gen (fst pc) (snd pc) h with Ok h' => h' | _ => h end)
            l {| kids := fun _ => []; parent := fun _ => None |}.

(* src/fsm.cc:600-617 FSM::get_all_child_fsm; None when the fuel is used up *)
Fixpoint walk (fuel : nat) (h : hier) (queue visited result : list nat) : option (outcome (list nat)) :=
  match queue with
  | [] => Some (Ok result)
  | x :: q =>
      match fuel with
      | O => None
      | S f => if existsb (Nat.eqb x) visited then Some Throw else walk f h (q ++ kids h x) (x :: visited) (result ++ [x])
      end
  end.
Definition all_children (fuel : nat) (h : hier) (r : nat) : option (outcome (list nat)) := walk fuel h [r] [] [].
