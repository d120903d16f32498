(* src/graph.cc:42-155 GeneratorGraph *)
From Verif Require Import Base Graph_spec.
Local Open Scope nat_scope.

Definition memn (x : nat) (l : list nat) : bool := existsb (Nat.eqb x) l.
(* src/graph.cc:42-61 with src/ir.cc:94-100: every object may occur once *)
Fixpoint add_nodes (seen : list nat) (l : list nat) : outcome (list nat) :=
  match l with
  | [] => Ok seen
  | i :: r => if memn i seen then Throw else add_nodes (seen ++ [i]) r
  end.
Definition build (t : tree) : outcome (list nat) := add_nodes [] (ids t).

(* src/graph.cc:70-98.  children is an unordered_set and nodes_ an unordered_map, so their orders
   are parameters.  fuel bounds the recursion depth; running out is an endless recursion. *)
Section sort.
  Variable children : nat -> list nat.
  Fixpoint helper (fuel : nat) (n : nat) (visited out : list nat) : outcome (list nat * list nat) :=
    match fuel with
    | O => UB
    | S f =>
        olet p := (fix each (l : list nat) (visited out : list nat) : outcome (list nat * list nat) :=
          match l with
          | [] => Ok (visited, out)
          | c :: r => if memn c visited then each r visited out
                      else olet p := helper f c visited out in each r (fst p) (snd p)
          end) (children n) (n :: visited) out in
        Ok (fst p, snd p ++ [n])
    end.
  Fixpoint each (f : nat) (l : list nat) (visited out : list nat) : outcome (list nat * list nat) :=
    match l with
    | [] => Ok (visited, out)
    | c :: r => if memn c visited then each f r visited out
                else olet p := helper f c visited out in each f r (fst p) (snd p)
    end.
  (* src/graph.cc:87-108 *)
  Definition sorted (nodes : list nat) : outcome (list nat) :=
    olet p := each (length nodes) nodes [] [] in Ok (snd p).
End sort.

(* src/graph.cc:123-155.  The loop reads the element it has just popped; libstdc++ frees a block of
   the queue when its last element is popped (chunk is the number of elements in a block: 512 bytes
   of 16-byte pairs, so 32), and reading a freed block is undefined. *)
Fixpoint set_level (m : list (nat * nat)) (i d : nat) : list (nat * nat) :=
  match m with
  | [] => [(i, d)]
  | (j, e) :: r => if Nat.eqb i j then (j, if e <? d then d else e) :: r else (j, e) :: set_level r i d
  end.
Fixpoint bfs (chunk fuel pops : nat) (queue : list (tree * nat)) (m : list (nat * nat)) (mx : nat)
  : outcome (list (nat * nat) * nat) :=
  match fuel with
  | O => UB
  | S f =>
      match queue with
      | [] => Ok (m, mx)
      | (t, d) :: q =>
          if (S pops mod chunk =? 0) then UB
          else bfs chunk f (S pops) (q ++ map (fun c => (c, S d)) (kids t)) (set_level m (root_id t) d) (Nat.max mx d)
      end
  end.
Definition leveled (chunk : nat) (t : tree) : outcome (list (list nat)) :=
  olet p := bfs chunk (S (length (ids t))) 0 [(t, 0)] [] 0 in
  Ok (map (fun l => map fst (filter (fun e => snd e =? l) (fst p))) (seq 0 (S (snd p)))).
