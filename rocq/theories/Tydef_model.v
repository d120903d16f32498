(* The packed structs that get a typedef, and their order: src/analysis.cc:1013-1089, src/graph.cc:188-247; the text is in Struct_model.v. *)
From Verif Require Import Base.
Local Open Scope string_scope.
Local Open Scope list_scope.

(* src/expr.hh:536-563.  A field: name, width, signedness and the struct if it is one *)
Inductive sdef := SDef (name : string) (external : bool) (fields : list (string * Z * bool * option sdef)).
Definition s_name (d : sdef) : string := match d with SDef n _ _ => n end.
Definition s_external (d : sdef) : bool := match d with SDef _ e _ => e end.
Definition s_fields (d : sdef) : list (string * Z * bool * option sdef) := match d with SDef _ _ fs => fs end.
(* src/expr.cc:1843-1850, 1884-1890 *)
Fixpoint same (a b : sdef) : bool :=
  (fix go (l m : list (string * Z * bool * option sdef)) :=
     match l, m with
     | [], [] => true
     | (n, w, s, Some x) :: l', (_, _, _, Some y) :: m' => same x y && go l' m'
     | (n, w, s, None) :: l', (n', w', s', None) :: m' => String.eqb n n' && Z.eqb w w' && Bool.eqb s s' && go l' m'
     | _, _ => false
     end) (s_fields a) (s_fields b).
(* structs_, a std::map: in the order of the names *)
Definition look (n : string) (st : list sdef) : option sdef := find (fun d => String.eqb (s_name d) n) st.
Fixpoint put (d : sdef) (st : list sdef) : list sdef := match st with [] => [d] | x :: r => if String.ltb (s_name d) (s_name x) then d :: x :: r else x :: put d r end.
(* src/analysis.cc:1045-1066 process_struct_ *)
Fixpoint process (d : sdef) (st : list sdef) : outcome (list sdef) :=
  match look (s_name d) st with
  | Some x => if same d x then Ok st else Throw
  | None => (fix go (fs : list (string * Z * bool * option sdef)) (st : list sdef) :=
               match fs with
               | [] => Ok st
               | (_, Some x) :: r => olet st1 := process x st in go r st1
               | (_, None) :: r => go r st
               end) (s_fields d) (put d st)
  end.
(* src/analysis.cc:1015-1031: the structs of the variables, in the order they are visited *)
Fixpoint collect (vars : list sdef) (st : list sdef) : outcome (list sdef) :=
  match vars with
  | [] => Ok st
  | d :: r => if s_external d then collect r st else olet st1 := process d st in collect r st1
  end.
(* src/analysis.cc:1068-1085 add_struct, called with (nullptr, s): the nodes, and the edges from a struct to those that have it as a field *)
Fixpoint reached (d : sdef) : list sdef :=
  d :: (fix go (fs : list (string * Z * bool * option sdef)) := match fs with [] => [] | (_, Some x) :: r => reached x ++ go r | (_, None) :: r => go r end) (s_fields d).
Fixpoint edges (d : sdef) : list (string * string) :=
  (fix go (fs : list (string * Z * bool * option sdef)) := match fs with [] => [] | (_, Some x) :: r => (s_name x, s_name d) :: edges x ++ go r | (_, None) :: r => go r end) (s_fields d).
(* the structs in the nodes: src/graph.cc:188-205, the first of its name *)
Definition nodes (st : list sdef) : list sdef := flat_map reached st.
Definition mem (n : string) (l : list string) : bool := existsb (String.eqb n) l.
(* src/graph.cc:207-221 topological_sort_helper: the nodes visited and the queue; the fuel bounds the depth *)
Fixpoint visit (fuel : nat) (kids : string -> list string) (n : string) (vq : list string * list string) : list string * list string :=
  match fuel with
  | O => vq
  | S f => let r := fold_left (fun vq k => if mem k (fst vq) then vq else visit f kids k vq) (kids n) (n :: fst vq, snd vq) in (fst r, snd r ++ [n])
  end.
(* src/graph.cc:223-243; ord and kids are the orders of the unordered containers *)
Definition sort (ord : list string) (kids : string -> list string) : list string :=
  rev (snd (fold_left (fun vq n => if mem n (fst vq) then vq else visit (List.length ord) kids n vq) ord ([], []))).
(* src/analysis.cc:1033-1041, 1091-1124.  The keys of the result are numbers of 32 digits, so that it is in this order *)
Definition extract (vars : list sdef) (ord : list string) (kids : string -> list string) : outcome (list sdef) :=
  olet st := collect vars [] in
  Ok (flat_map (fun n => match look n (nodes st) with Some d => [d] | None => [] end) (sort ord kids)).
(* what the unordered containers can be: each node once, each child once *)
Definition any_order (st : list sdef) (ord : list string) (kids : string -> list string) : Prop :=
  NoDup ord /\ (forall n, In n ord <-> In n (map s_name (nodes st))) /\ forall n k, In k (kids n) <-> In (n, k) (flat_map edges st).
