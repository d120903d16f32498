(* The children of generators: src/generator.cc:404-525 (add, get, remove, rename), 1124-1199 (replace). *)
From Verif Require Import Base.
Local Open Scope string_scope.
Local Open Scope list_scope.

(* generators are numbers.  k_map is children_, k_order is children_names_ *)
Record tree := { t_name : nat -> string; t_parent : nat -> option nat; k_map : nat -> list (string * nat); k_order : nat -> list string }.
Definition set {A} (f : nat -> A) (x : nat) (v : A) : nat -> A := fun y => if Nat.eqb y x then v else f y.
Definition lookup (n : string) (l : list (string * nat)) : option nat := option_map snd (find (fun e => String.eqb (fst e) n) l).
Definition erase (n : string) (l : list (string * nat)) : list (string * nat) := filter (fun e => negb (String.eqb (fst e) n)) l.
(* the first one, as std::find *)
Fixpoint erase_first (n : string) (l : list string) : list string :=
  match l with [] => [] | x :: r => if String.eqb x n then r else x :: erase_first n r end.
Fixpoint put_first (n m : string) (l : list string) : list string :=
  match l with [] => [] | x :: r => if String.eqb x n then m :: r else x :: put_first n m r end.
Definition listed (n : string) (l : list string) : bool := existsb (String.eqb n) l.

(* src/generator.cc:404-416; the tree after the call, and whether it returned *)
Definition add (t : tree) (p : nat) (n : string) (c : nat) : tree * outcome unit :=
  let names := set (t_name t) c n in
  match lookup n (k_map t p) with
  | Some _ => ({| t_name := names; t_parent := t_parent t; k_map := k_map t; k_order := k_order t |}, Throw)
  | None => ({| t_name := names; t_parent := set (t_parent t) c (Some p); k_map := set (k_map t) p (k_map t p ++ [(n, c)]);
                k_order := set (k_order t) p (k_order t p ++ [n]) |}, Ok tt)
  end.
(* src/generator.cc:437-469, but for the ports (below) *)
Definition remove (t : tree) (p c : nat) : tree :=
  let n := t_name t c in
  if listed n (k_order t p) then
    {| t_name := t_name t; t_parent := set (t_parent t) c None; k_map := set (k_map t) p (erase n (k_map t p));
       k_order := set (k_order t) p (erase_first n (k_order t p)) |}
  else t.
(* src/generator.cc:489-525 *)
Definition rename (t : tree) (p c : nat) (m : string) : tree * outcome unit :=
  let n := t_name t c in
  match lookup n (k_map t p) with
  | None => (t, Throw)
  | Some x =>
      match lookup m (k_map t p) with
      | Some _ => (t, Throw)
      | None =>
          let kids := set (k_map t) p (erase n (k_map t p) ++ [(m, x)]) in
          if listed n (k_order t p) then
            ({| t_name := set (t_name t) c m; t_parent := t_parent t; k_map := kids; k_order := set (k_order t) p (put_first n m (k_order t p)) |}, Ok tt)
          else ({| t_name := t_name t; t_parent := t_parent t; k_map := kids; k_order := k_order t |}, Throw)
      end
  end.
(* src/generator.cc:431-435, 471-479; at() throws *)
Definition get_child (t : tree) (p : nat) (n : string) : option nat := lookup n (k_map t p).
Fixpoint get_all (l : list (string * nat)) (ns : list string) : outcome (list nat) :=
  match ns with [] => Ok [] | n :: r => match lookup n l with None => Throw | Some c => olet cs := get_all l r in Ok (c :: cs) end end.
Definition children (t : tree) (p : nat) : outcome (list nat) := get_all (k_map t p) (k_order t p).

(* ports and the wires of the parent: assignments between whole signals, one of which may be a port of a child *)
Inductive dir := DirIn | DirOut | DirInOut.
Record port := { p_dir : dir; p_width : Z; p_size : list Z; p_signed : bool; p_type : nat }.
Inductive endpoint := PortOf (g : nat) (n : string) | Sig (x : nat).
Definition wire := (endpoint * endpoint)%type.
Definition is_port (g : nat) (n : string) (e : endpoint) : bool := match e with PortOf h m => Nat.eqb h g && String.eqb m n | Sig _ => false end.
(* src/generator.cc:444-463: sources of an input, sinks of others *)
Definition cut (g : nat) (np : string * port) (ws : list wire) : list wire :=
  match p_dir (snd np) with
  | DirIn => filter (fun w => negb (is_port g (fst np) (fst w))) ws
  | _ => filter (fun w => negb (is_port g (fst np) (snd w))) ws
  end.
Definition cut_all (ports : nat -> list (string * port)) (g : nat) (ws : list wire) : list wire := fold_left (fun w np => cut g np w) (ports g) ws.
Definition remove_child (ports : nat -> list (string * port)) (t : tree) (ws : list wire) (p c : nat) : tree * list wire :=
  (remove t p c, if listed (t_name t c) (k_order t p) then cut_all ports c ws else ws).
(* src/generator.cc:1151-1194: what each port of the new child has to have, and the moves (Var::move_src_to, Var::move_sink_to) *)
Definition swap (a b : nat) (n : string) (e : endpoint) : endpoint := if is_port a n e then PortOf b n else e.
Definition same_port (x y : port) : bool :=
  (if list_eq_dec Z.eq_dec (p_size x) (p_size y) then true else false) && Z.eqb (p_width x) (p_width y) && Bool.eqb (p_signed x) (p_signed y) &&
  Nat.eqb (p_type x) (p_type y) && match p_dir x, p_dir y with DirIn, DirIn | DirOut, DirOut | DirInOut, DirInOut => true | _, _ => false end.
Definition move (a b : nat) (np : string * port) (ws : list wire) : list wire :=
  match p_dir (snd np) with
  | DirIn => map (fun w => (swap a b (fst np) (fst w), snd w)) ws
  | DirOut => map (fun w => (fst w, swap a b (fst np) (snd w))) ws
  | DirInOut => map (fun w => (swap a b (fst np) (fst w), swap a b (fst np) (snd w))) ws
  end.
Definition port_of (n : string) (l : list (string * port)) : option port := option_map snd (find (fun e => String.eqb (fst e) n) l).
Fixpoint move_all (a b : nat) (old new : list (string * port)) (ws : list wire) : list wire * outcome unit :=
  match old with
  | [] => (ws, Ok tt)
  | np :: r => match port_of (fst np) new with
               | None => (ws, Throw)
               | Some q => if same_port (snd np) q then move_all a b r new (move a b np ws) else (ws, Throw)
               end
  end.
(* src/generator.cc:1124-1199; the tree and the wires after the call, and whether it returned *)
Definition replace (ports : nat -> list (string * port)) (t : tree) (ws : list wire) (p : nat) (n : string) (c : nat) : tree * list wire * outcome unit :=
  match get_child t p n with
  | None => (t, ws, Throw)
  | Some o =>
      let t1 := {| t_name := set (t_name t) c n; t_parent := t_parent t; k_map := k_map t; k_order := k_order t |} in
      if Nat.eqb (List.length (ports o)) (List.length (ports c)) then
        match move_all o c (ports o) (ports c) ws with
        | (ws1, Ok _) => let (t2, ws2) := remove_child ports t1 ws1 p o in let (t3, r) := add t2 p n c in (t3, ws2, r)
        | (ws1, r) => (t1, ws1, r)
        end
      else (t1, ws, Throw)
  end.
