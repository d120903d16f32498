(* SystemVerilogCodeGen::indent and pre_indent: src/codegen.cc:399-422; src/codegen.hh:77-98.  The level is a uint64_t in the code and the length of the
   indentation a uint32_t; here both are natural numbers, which is the same below 2^31 levels.  The level never goes below nought in the code that prints
   (each decrement follows its increment); here it stops at nought. *)
From Verif Require Import Base Ind_spec.
From Coq Require Import Ascii.
Local Open Scope list_scope.

Definition indent_size : nat := 2.
(* indent_, empty_indent_str_ (the view is always the whole of it) and skip_indent_ *)
Record state := { s_indent : nat; s_empty : list ascii; s_skip : bool }.
Definition start : state := {| s_indent := 0; s_empty := []; s_skip := false |}.
(* src/codegen.cc:399-414 *)
Definition indent (s : state) : state * list ascii :=
  if s_skip s then ({| s_indent := s_indent s; s_empty := s_empty s; s_skip := false |}, [])
  else let n := (s_indent s * indent_size)%nat in
       let e := if Nat.ltb (length (s_empty s)) n then repeat " "%char n else s_empty s in
       ({| s_indent := s_indent s; s_empty := e; s_skip := false |}, firstn n e).
(* src/codegen.cc:416-422 *)
Definition pre_indent (s : state) : list ascii := match s_indent s with O => [] | S n => firstn (n * indent_size) (s_empty s) end.
(* the uses: src/codegen.cc:249-1172 *)
Definition run (s : state) (a : act) : state * list ascii :=
  match a with
  | Enter => ({| s_indent := S (s_indent s); s_empty := s_empty s; s_skip := s_skip s |}, [])
  | Leave => ({| s_indent := pred (s_indent s); s_empty := s_empty s; s_skip := s_skip s |}, [])
  | Omit => ({| s_indent := s_indent s; s_empty := s_empty s; s_skip := true |}, [])
  | Line => indent s
  | Closing => (s, pre_indent s)
  end.
Definition after (h : list act) : state := fold_left (fun s a => fst (run s a)) h start.
Definition printed (h : list act) (a : act) : list ascii := snd (run (after h) a).
