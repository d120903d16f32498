(* The names of blocks (src/generator.cc:1285-1312, src/codegen.cc:1057-1072) and the comments of children (src/generator.cc:404-525, 1260-1269).
   Not modelled: the names that finite state machines (src/fsm.cc:434) and unrolled loops (src/transform.cc:615) give to their blocks. *)
From Verif Require Import Base Lab_spec.
Local Open Scope list_scope.
Local Open Scope string_scope.

(* std::unordered_map::emplace and find: one entry for a key, the first *)
Definition find_in {A} (l : list (string * A)) (n : string) : option A := option_map snd (find (fun e => String.eqb (fst e) n) l).
Definition emplace {A} (l : list (string * A)) (n : string) (a : A) : list (string * A) :=
  match find_in l n with Some _ => l | None => (l ++ [(n, a)])%list end.
Definition erase {A} (l : list (string * A)) (n : string) : list (string * A) := filter (fun e => negb (String.eqb (fst e) n)) l.

(* named_blocks_ of every generator, its variables, and the generator that holds a block *)
Record state := { s_named : nat -> list (string * nat); s_vars : nat -> list string; s_home : nat -> nat }.
Definition start (home : nat -> nat) : state := {| s_named := fun _ => []; s_vars := fun _ => []; s_home := home |}.
Definition set {A} (f : nat -> A) (x : nat) (v : A) : nat -> A := fun y => if Nat.eqb y x then v else f y.
(* src/generator.cc:1300-1305 *)
Definition add_named_block (s : state) (g : nat) (n : string) (b : nat) : state * outcome unit :=
  match find_in (s_named s g) n with
  | Some _ => (s, Throw)
  | None => ({| s_named := set (s_named s) g (s_named s g ++ [(n, b)])%list; s_vars := s_vars s; s_home := s_home s |}, Ok tt)
  end.
(* src/generator.cc:92-104 for variables of one width and sign: one that is there is returned *)
Definition add_var (s : state) (g : nat) (n : string) : state * outcome unit :=
  if existsb (String.eqb n) (s_vars s g) then (s, Ok tt)
  else ({| s_named := s_named s; s_vars := set (s_vars s) g (s_vars s g ++ [n])%list; s_home := s_home s |}, Ok tt).
(* src/generator.cc:694-736, as far as the statements go; named_blocks_ is left as it is *)
Definition transfer (s : state) (d g : nat) : state * outcome unit :=
  ({| s_named := s_named s; s_vars := s_vars s; s_home := fun b => if Nat.eqb (s_home s b) d then g else s_home s b |}, Ok tt).
Definition run (s : state) (c : call) : state * outcome unit :=
  match c with Label g n b => add_named_block s g n b | Var g n => add_var s g n | Inline d g => transfer s d g end.
(* a caller that goes on after an exception *)
Definition after (home : nat -> nat) (h : list call) : state := fold_left (fun s c => fst (run s c)) h (start home).
(* src/generator.cc:1285-1288 *)
Definition get_named_block (s : state) (g : nat) (n : string) : option nat := find_in (s_named s g) n.
(* src/codegen.cc:1057-1065; names is named_blocks_labels() in the order in which the set is gone through *)
Definition index_named_block (s : state) (g : nat) (names : list string) : list (nat * string) :=
  fold_left (fun l n => match get_named_block s g n with
                        | Some b => if existsb (fun e => Nat.eqb (fst e) b) l then l else (l ++ [(b, n)])%list
                        | None => l
                        end) names [].
(* src/generator.cc:1307-1312 *)
Definition labels (s : state) (g : nat) : list string := map fst (s_named s g).
(* src/codegen.cc:1067-1072 *)
Definition block_label (s : state) (g : nat) (names : list string) (b : nat) : string :=
  match find (fun e => Nat.eqb (fst e) b) (index_named_block s g names) with Some e => " :" ++ snd e | None => "" end.

(* children_names_ and children_comments_ *)
Record kstate := { k_names : list string; k_comments : list (string * string) }.
(* src/generator.cc:404-416, 1266-1268, 489-525, 437-469, as far as the two go.  Where the name is taken, node insertion keeps what is there *)
Definition kdo (k : kstate) (c : kcall) : kstate * outcome unit :=
  match c with
  | New n => if existsb (String.eqb n) (k_names k) then (k, Throw) else ({| k_names := (k_names k ++ [n])%list; k_comments := k_comments k |}, Ok tt)
  | Comment n t => ({| k_names := k_names k; k_comments := emplace (k_comments k) n t |}, Ok tt)
  | Rename n m =>
      if negb (existsb (String.eqb n) (k_names k)) then (k, Throw)
      else if existsb (String.eqb m) (k_names k) then (k, Throw)
      else ({| k_names := map (fun x => if String.eqb x n then m else x) (k_names k);
               k_comments := match find_in (k_comments k) n with Some t => emplace (erase (k_comments k) n) m t | None => k_comments k end |}, Ok tt)
  | Drop n =>
      if existsb (String.eqb n) (k_names k)
      then ({| k_names := filter (fun x => negb (String.eqb x n)) (k_names k); k_comments := erase (k_comments k) n |}, Ok tt) else (k, Ok tt)
  end.
Definition kafter (h : list kcall) : kstate := fold_left (fun k c => fst (kdo k c)) h {| k_names := []; k_comments := [] |}.
(* src/generator.cc:1260-1264 *)
Definition get_child_comment (k : kstate) (n : string) : string := match find_in (k_comments k) n with Some t => t | None => "" end.
