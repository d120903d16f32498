(* Model of functions, tasks, DPI functions and system functions, and of their calls. *)
From Verif Require Import Base Num_model Decl_model Call_spec.
Local Open Scope string_scope.
Local Open Scope Z_scope.
Local Open Scope list_scope.

Section Map.
Context {V : Type}.
(* std::map by name: find, emplace (no effect when the name is there), iteration in the order of the names *)
Fixpoint find (n : string) (l : list (string * V)) : option V :=
  match l with [] => None | (m, v) :: r => if String.eqb n m then Some v else find n r end.
Definition emplace (n : string) (v : V) (l : list (string * V)) : list (string * V) :=
  match find n l with Some _ => l | None => l ++ [(n, v)] end.
Definition in_order (l : list (string * V)) : list (string * V) := ssort (fun a b => str_ltb (fst a) (fst b)) l.
End Map.

(* src/stmt.hh:364-398, 414-456.  A value returned is a width, a sign and, for a constant, its value *)
Record rvalue := { rv_width : Z; rv_signed : bool; rv_const : option Z }.
Record func := { fn_name : string; fn_ports : list (string * formal); fn_order : list (string * nat); fn_dpi : bool;
                 fn_handler : option (Z * bool); fn_return : bool; fn_return_width : Z; fn_context : bool; fn_pure : bool }.
Definition new_func (dpi : bool) (n : string) : func :=
  {| fn_name := n; fn_ports := []; fn_order := []; fn_dpi := dpi; fn_handler := None; fn_return := false; fn_return_width := 0;
     fn_context := false; fn_pure := false |}.
Definition with_ports (f : func) p o : func :=
  {| fn_name := fn_name f; fn_ports := p; fn_order := o; fn_dpi := fn_dpi f; fn_handler := fn_handler f; fn_return := fn_return f;
     fn_return_width := fn_return_width f; fn_context := fn_context f; fn_pure := fn_pure f |}.
Definition with_handler (f : func) h r : func :=
  {| fn_name := fn_name f; fn_ports := fn_ports f; fn_order := fn_order f; fn_dpi := fn_dpi f; fn_handler := h; fn_return := r;
     fn_return_width := fn_return_width f; fn_context := fn_context f; fn_pure := fn_pure f |}.
Definition with_dpi (f : func) w c p : func :=
  {| fn_name := fn_name f; fn_ports := fn_ports f; fn_order := fn_order f; fn_dpi := fn_dpi f; fn_handler := fn_handler f;
     fn_return := fn_return f; fn_return_width := w; fn_context := c; fn_pure := p |}.

(* src/stmt.cc:721-727 input; 757-773 input and output of a DPI function, which record the order *)
Definition add_port (f : func) (d : fdir) (n : string) (w : Z) (s : bool) : func :=
  with_ports f (emplace n {| fo_width := w; fo_signed := s; fo_dir := d |} (fn_ports f))
    (if fn_dpi f then emplace n (List.length (fn_order f)) (fn_order f) else fn_order f).
(* src/stmt.cc:739-748  set_port_ordering; the keys of the argument, a map, are different *)
Definition set_port_ordering (f : func) (o : list (string * nat)) : outcome func :=
  if negb (Nat.eqb (List.length o) (List.length (fn_ports f))) then Throw
  else if existsb (fun e => match find (fst e) (fn_ports f) with None => true | _ => false end) o then Throw
  else Ok (with_ports f (fn_ports f) o).
(* src/stmt.cc:817-839  ReturnStmt::set_parent, with the checks of AssignStmt (src/stmt.cc:138-175); Const::is_legal, src/expr.cc:959-972.
   Loop variables, which are resized, are not modelled. *)
Definition const_legal (v w : Z) (s : bool) : bool := if s then (- 2 ^ (w - 1) <=? v) && (v <? 2 ^ (w - 1)) else (0 <=? v) && (v <? 2 ^ w).
Definition assignable (h : Z * bool) (v : rvalue) : bool :=
  Bool.eqb (snd h) (rv_signed v) &&
  (Z.eqb (fst h) (rv_width v) || match rv_const v with Some c => const_legal c (fst h) (snd h) | None => false end).
Definition add_return (f : func) (v : rvalue) : outcome func :=
  let h := match fn_handler f with Some h => h | None => (rv_width v, rv_signed v) end in
  if assignable h v then Ok (with_handler f (Some h) true) else Throw.
(* src/stmt.cc:775-783, src/stmt.hh:422 *)
Definition set_is_context (f : func) (v : bool) : func := with_dpi f (fn_return_width f) v (negb v).
Definition set_is_pure (f : func) (v : bool) : func := with_dpi f (fn_return_width f) (negb v) v.
Definition set_return_width (f : func) (w : Z) : func := with_dpi f w (fn_context f) (fn_pure f).

Inductive fop := FPort (d : fdir) (n : string) (w : Z) (s : bool) | FOrder (o : list (string * nat)) | FReturn (v : rvalue)
               | FContext (b : bool) | FPure (b : bool) | FWidth (w : Z).
Definition fstep (f : func) (x : fop) : outcome func :=
  match x with
  | FPort d n w s => Ok (add_port f d n w s)
  | FOrder o => set_port_ordering f o
  | FReturn v => add_return f v
  | FContext b => Ok (set_is_context f b)
  | FPure b => Ok (set_is_pure f b)
  | FWidth w => Ok (set_return_width f w)
  end.
(* what a program may call: an ordering is a map from names, so its names are different; only DPI functions have outputs *)
Definition fop_ok (dpi : bool) (x : fop) : Prop :=
  match x with FOrder o => NoDup (map fst o) | FPort d _ _ _ => dpi = true \/ d = FIn | FContext _ | FPure _ | FWidth _ => dpi = true | _ => True end.
Fixpoint fsteps (f : func) (l : list fop) : outcome func :=
  match l with [] => Ok f | x :: r => olet g := fstep f x in fsteps g r end.

(* std::sort by index; indices are different where this matters *)
Definition sort_by {A} (key : A -> nat) (l : list A) : list A := ssort (fun a b => Nat.ltb (key a) (key b)) l.
Definition key_of (o : list (string * nat)) (n : string) : nat := match find n o with Some i => i | None => 0%nat end.
Definition all_keys (o : list (string * nat)) (l : list string) : bool := forallb (fun n => match find n o with Some _ => true | None => false end) l.
(* src/codegen.cc:671-700  the formals in the declaration of a function.  ordering.at throws on a name it does not have;
   with one formal nothing is compared. *)
Definition formals (f : func) : outcome (list string) :=
  let names := map fst (in_order (fn_ports f)) in
  match fn_order f with
  | [] => Ok names
  | o => if negb (Nat.eqb (List.length o) (List.length (fn_ports f))) then Throw
         else if negb (all_keys o names) && Nat.ltb 1 (List.length names) then Throw
         else Ok (sort_by (key_of o) names)
  end.
(* src/codegen.cc:642-670  the type of the result: logic and a range *)
Definition result_type (f : func) : option (list Decl_spec.dtok) :=
  if fn_return f then
    let w := match fn_handler f with Some h => fst h | None => 32 end in
    Some [Decl_spec.DType "logic"; get_width_str_n w]
  else None.

(* src/expr.cc:2258-2280 (the same in src/stmt.cc:863-881): the checks of a call *)
Definition arg_ok (args : list (string * actual)) (p : string * formal) : bool :=
  match find (fst p) args with
  | None => false
  | Some a => Z.eqb (fo_width (snd p)) (ac_width a) && Bool.eqb (fo_signed (snd p)) (ac_signed a)
  end.
Definition has_value (f : func) : bool := fn_dpi f || match fn_handler f with Some _ => true | None => false end.
(* src/expr.cc:2282-2315  a call, with the width and sign of its value *)
Definition call (f : func) (args : list (string * actual)) (has_return : bool) : outcome (Z * bool) :=
  if negb (forallb (arg_ok args) (in_order (fn_ports f))) then Throw
  else if has_return && negb (has_value f) then Throw
  else Ok (if has_return then
             if fn_dpi f then (if Z.eqb (fn_return_width f) 0 then (1, false) else (fn_return_width f, false))
             else match fn_handler f with Some h => h | None => (1, false) end
           else (1, false)).
(* src/expr.cc:2341-2364  FunctionCallVar::to_string: the arguments in the order of their names, then sorted by an index that
   is looked up by the text of the argument *)
Fixpoint indexing (o : list (string * nat)) (args : list (string * actual)) (acc : list (string * nat)) : outcome (list (string * nat)) :=
  match args with
  | [] => Ok acc
  | (n, a) :: r => match find n o with None => Throw | Some i => indexing o r (emplace (ac_text a) i acc) end
  end.
Definition arg_texts (f : func) (args : list (string * actual)) : outcome (list string) :=
  let names := map (fun e => ac_text (snd e)) (in_order args) in
  match fn_order f with
  | [] => Ok names
  | o => olet ix := indexing o (in_order args) [] in Ok (sort_by (key_of ix) names)
  end.

(* system functions: src/syntax.cc:272-286, src/syntax.hh:13-20 *)
Record binfo := { bi_width : Z; bi_min : Z; bi_max : Z; bi_signed : bool }.
Definition bi w mn mx s := {| bi_width := w; bi_min := mn; bi_max := mx; bi_signed := s |}.
Definition builtin_functions : list (string * binfo) :=
  [("clog2", bi 32 1 1 false); ("countones", bi 32 1 1 false); ("onehot", bi 1 1 1 false); ("onehot0", bi 1 1 1 false);
   ("isunknown", bi 1 1 1 false); ("display", bi 0 1 4294967295 false); ("hgdb_assert_fail", bi 0 3 4 false);
   ("finish", bi 0 0 1 false); ("fopen", bi 32 2 2 false); ("fclose", bi 0 1 1 false); ("fscanf", bi 32 2 4294967295 false);
   ("urandom", bi 32 0 1 false); ("random", bi 32 0 1 true)].
(* src/stmt.cc:785-797, src/generator.cc:305-320, src/expr.cc:2287-2300, 2341-2364: a call of a system function, whose arguments
   are kept in a map from their positions written in decimal *)
Definition builtin_call (n : string) (args : list actual) : outcome (Z * bool) :=
  match find n builtin_functions with
  | None => Throw
  | Some b =>
      if Z.eqb (bi_width b) 0 then Ok (1, false)
      else if (Z.of_nat (List.length args) <? bi_min b) || (bi_max b <? Z.of_nat (List.length args)) then Throw
      else Ok (bi_width b, bi_signed b)
  end.
Fixpoint mock_args (i : nat) (args : list actual) : list (string * actual) :=
  match args with [] => [] | a :: r => (dec (Z.of_nat i), a) :: mock_args (S i) r end.
Definition builtin_texts (args : list actual) : list string := map (fun e => ac_text (snd e)) (in_order (mock_args 0 args)).

(* DPI imports.  src/analysis.cc:1128-1175: DPIVisitor, over the DPI functions of a design; ports of functions have size 1 *)
Definition dir_eqb (a b : fdir) : bool := match a, b with FIn, FIn | FOut, FOut => true | _, _ => false end.
Definition same_port (ports : list (string * formal)) (r : string * formal) : bool :=
  match find (fst r) ports with
  | None => false
  | Some p => Bool.eqb (fo_signed p) (fo_signed (snd r)) && dir_eqb (fo_dir p) (fo_dir (snd r))
  end.
Definition agrees (ref f : func) : bool :=
  Nat.eqb (List.length (fn_ports ref)) (List.length (fn_ports f)) &&
  (* return_width: the test inside is the one just passed *)
  (Z.eqb (fn_return_width f) (fn_return_width ref) || Nat.eqb (List.length (fn_ports ref)) (List.length (fn_ports f))) &&
  forallb (same_port (fn_ports f)) (fn_ports ref) &&
  Bool.eqb (fn_context f) (fn_context ref) && Bool.eqb (fn_pure f) (fn_pure ref).
Fixpoint dpi_visit (seen : list (string * func)) (l : list func) : outcome (list (string * func)) :=
  match l with
  | [] => Ok seen
  | f :: r => match find (fn_name f) seen with
              | None => dpi_visit (emplace (fn_name f) f seen) r
              | Some ref => if agrees ref f then dpi_visit seen r else Throw
              end
  end.
(* src/analysis.cc:1177-1250  extract_dpi_function *)
Definition return_ctype (w : Z) : ctype :=
  if w =? 0 then CVoid else if w =? 1 then CBit else if w <=? 8 then CByte else if w <=? 16 then CShortint
  else if w <=? 32 then CInt else CLongint.
Definition port_ctype (w : Z) : ctype := if w <=? 8 then CByte else if w <=? 16 then CShortint else if w <=? 32 then CInt else CLongint.
Definition import_port (f : func) (n : string) : string * fdir * ctype * bool :=
  match find n (fn_ports f) with
  | Some p => (n, fo_dir p, port_ctype (fo_width p), fo_signed p)
  | None => (n, FOut, CVoid, false)
  end.
(* with [int_interface], so that ports have C types; otherwise they are declared as the ports of Decl_model *)
Definition import_of (f : func) : outcome import :=
  let names := map fst (in_order (fn_ports f)) in
  if negb (all_keys (fn_order f) names) && Nat.ltb 1 (List.length names) then Throw
  else Ok {| im_attr := if fn_pure f then APure else if fn_context f then AContext else APlain; im_type := return_ctype (fn_return_width f);
             im_name := fn_name f; im_ports := map (import_port f) (sort_by (key_of (fn_order f)) names) |}.
Definition extract_dpi (l : list func) : outcome (list (string * import)) :=
  olet seen := dpi_visit [] l in
  omapM (fun e => olet i := import_of (snd e) in Ok (fst e, i)) (in_order seen).
