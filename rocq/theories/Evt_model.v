(* Events: src/event.cc:13-64, src/stmt.cc:1014-1052, src/stmt.hh:591-629.  A statement is in one place, so that visit_root comes to it
   once (src/ir.cc:24-40); the fields are in the order of their names, as they are in the map that fire is given. *)
From Verif Require Import Base Evt_spec.
Local Open Scope Z_scope.
Local Open Scope list_scope.

(* src/event.hh:27-36 *)
Record info := { i_name : string; i_transaction : string; i_combinational : bool; i_type : Z; i_fields : list field; i_stmt : event }.

(* what parent() meets going up: src/event.cc:31-45; a generator is no statement, and there it stops *)
Inductive parent := PBlock (sequential : bool) | PStmt | PGen.
Fixpoint combinational (up : list parent) : bool :=
  match up with
  | [] => true
  | PGen :: _ => true
  | PBlock true :: _ => false
  | PBlock false :: up | PStmt :: up => combinational up
  end.
(* src/event.cc:47-54 *)
Definition add_info (up : list parent) (e : event) : info :=
  {| i_name := e_name e; i_transaction := e_transaction e; i_combinational := combinational up; i_type := e_action e; i_fields := e_fields e; i_stmt := e |}.
(* src/ir.cc:24-40 visit_root with src/event.cc:23-28; an external generator has no children to be visited (src/generator.cc:388-402) *)
Fixpoint visit (up : list parent) (n : node) : list info :=
  match n with
  | Ev e => [add_info up e]
  | Blk s l => flat_map (visit (PBlock s :: up)) l
  | Stm l => flat_map (visit (PStmt :: up)) l
  | Gen ext l => if ext then [] else flat_map (visit (PGen :: up)) l
  | Other => []
  end.
(* src/event.cc:60-64 *)
Definition extract_event_info (top : node) : list info := visit [] top.

(* src/event.cc:13-20, src/stmt.cc:1021-1022 *)
Definition fire (name : string) (fields : list field) : event :=
  {| e_name := name; e_transaction := ""%string; e_action := 0; e_fields := fields; e_matches := [] |}.
(* src/stmt.hh:591 *)
Definition Start : Z := 1.
Definition End_ : Z := 2.
(* src/stmt.cc:1014-1019, 1024-1046 *)
Definition act (e : event) (a : Z) : event :=
  {| e_name := e_name e; e_transaction := e_transaction e; e_action := Z.lor (e_action e) a; e_fields := e_fields e; e_matches := e_matches e |}.
Definition belongs (e : event) (t : string) : event :=
  {| e_name := e_name e; e_transaction := t; e_action := e_action e; e_fields := e_fields e; e_matches := e_matches e |}.
(* src/stmt.cc:1048-1052: emplace keeps what is there.  The order of the map is left out *)
Definition matches (e : event) (f : string) (v : nat) : event :=
  if existsb (fun x => String.eqb f (fst x)) (e_matches e) then e
  else {| e_name := e_name e; e_transaction := e_transaction e; e_action := e_action e; e_fields := e_fields e; e_matches := e_matches e ++ [(f, v)] |}.
Definition say (e : event) (s : said) : event :=
  match s with
  | Starts None => act e Start
  | Starts (Some t) => act (belongs e t) Start
  | Terminates None => act e End_
  | Terminates (Some t) => act (belongs e t) End_
  | Belongs t => belongs e t
  | Matches f v => matches e f v
  end.
Definition build (name : string) (fields : list field) (l : list said) : event := fold_left say l (fire name fields).
(* src/stmt.hh:605 match_values().at *)
Definition matched (e : event) (f : string) : option nat := option_map snd (find (fun x => String.eqb f (fst x)) (e_matches e)).
