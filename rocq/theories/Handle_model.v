(* src/expr.cc:290-313, 1265-1290, 1340-1362, 1426-1476, 1805-1819, src/generator.cc:1313-1347.  Concatenations are of two parts;
   instances in generate loops are in Lift_model.v; constants, parts and casts are not modelled. *)
From Verif Require Import Base Handle_spec.
Local Open Scope nat_scope.

(* src/generator.cc:1315-1347 *)
Fixpoint join (l : list text) : text := match l with [] => [] | [n] => n | n :: r => n ++ dot :: join r end.
Definition gen_handle (ignore_top : bool) (p : list text) : text := join (if ignore_top then tl p else p).
(* src/expr.cc:292-298 *)
Definition var_handle (ignore_top : bool) (v : var) : text :=
  match gen_handle ignore_top (v_path v) with [] => v_name v | g => g ++ dot :: v_name v end.
(* src/expr.cc:300-312: find gives 0 exactly if the text starts with the other; substr throws past the end *)
Fixpoint starts (g t : text) : bool := match g, t with [], _ => true | c :: r, d :: s => Nat.eqb c d && starts r s | _, _ => false end.
Definition rel_handle (scope : list text) (v : var) : outcome text :=
  let g := gen_handle false scope in
  let t := var_handle false v in
  if starts g t then if Nat.ltb (List.length t) (List.length g + 1) then Throw else Ok (skipn (List.length g + 1) t) else Throw.

Section Text.
Context (op_text : nat -> text).
Definition tx (s : list nat) := s.
Definition lpar : nat := 40. Definition rpar : nat := 41. Definition lbrace : nat := 123. Definition rbrace : nat := 125.
Definition comma : text := [44; 32]. Definition quest : text := [32; 63; 32]. Definition colon : text := [58; 32]. Definition space : nat := 32.
Definition par (b : bool) (t : text) : text := if b then lpar :: t ++ [rpar] else t.
Definition op_of (e : expr) : option nat := match e with EUn o _ | EBin o _ _ => Some o | _ => None end.
Definition same_op (o : nat) (e : expr) : bool := match op_of e with Some p => Nat.eqb o p | None => false end.
Inductive mode := Plain | Handle (ignore_top : bool).
(* virtual to_string() or handle_name(bool), and expr_to_string with is_top *)
Inductive how := Virtual | Sub (is_top : bool).
Definition leaf (m : mode) (v : var) : text := match m with Plain => v_name v | Handle b => var_handle b v end.
(* src/expr.cc:1265-1281, 1359-1361, 1426-1472, 1805-1814; handle_name of an extension calls itself without end *)
Fixpoint show (m : mode) (h : how) (e : expr) : outcome text :=
  match e with
  | EVar v => Ok (leaf m v)
  | EUn o a =>
      olet s := show m (Sub (same_op o a)) a in
      Ok (par (match h with Sub false => true | _ => false end) (op_text o ++ s))
  | EBin o a b =>
      olet s := show m (Sub (same_op o a)) a in olet t := show m (Sub (same_op o b)) b in
      Ok (par (match h with Sub false => true | _ => false end) (s ++ space :: op_text o ++ space :: t))
  | ECat a b => olet s := show m Virtual a in olet t := show m Virtual b in Ok (lbrace :: s ++ comma ++ t ++ [rbrace])
  | EExt w a => match m with Plain => olet s := show m Virtual a in Ok (w ++ 39 :: par true s) | Handle _ => UB end
  | ECond c a b =>
      olet s := show m Virtual c in olet t := show m Virtual a in olet u := show m Virtual b in
      let s := par (match m with Plain => negb (is_var c) | Handle _ => false end) s in
      Ok (par (match h with Virtual => false | Sub _ => true end) (s ++ quest ++ t ++ colon ++ u))
  end.
Definition to_string (e : expr) : outcome text := show Plain Virtual e.
Definition handle_name (ignore_top : bool) (e : expr) : outcome text := show (Handle ignore_top) Virtual e.
(* src/expr.cc:300-312, 1283-1290, 1474-1476, 1816-1819: the scope is passed as the flag [ignore_top], so an expression with an
   operator is written as by to_string *)
Fixpoint scope_name (scope : list text) (e : expr) : outcome text :=
  match e with
  | EVar v => rel_handle scope v
  | ECat a b => olet s := scope_name scope a in olet t := scope_name scope b in Ok (lbrace :: s ++ comma ++ t ++ [rbrace])
  | ECond c a b => olet s := scope_name scope c in olet t := scope_name scope a in olet u := scope_name scope b in Ok (s ++ quest ++ t ++ colon ++ u)
  | EUn _ _ | EBin _ _ _ | EExt _ _ => show Plain (Sub true) e
  end.
End Text.
