(* Contexts: src/context.cc:14-45, 62-110, 140-163, src/generator.cc:1021-1049. *)
From Verif Require Import Base Ctx_spec.
Local Open Scope list_scope.

(* src/generator.hh:17, 213, 332; g_def is def_instance_ *)
Record gen := { g_name : string; g_ext : bool; g_cloned : bool; g_def : option nat }.
(* src/context.hh:64: modules_, a map of sets; the order in a set is left out.  The generators, by their number, are those that were made *)
Record ctx := { c_gens : list gen; c_modules : list (string * list nat) }.
Definition empty : ctx := {| c_gens := []; c_modules := [] |}.

(* std::unordered_map::find, and operator[] with insert or erase on the set that is found *)
Fixpoint lookup (m : list (string * list nat)) (n : string) : option (list nat) :=
  match m with [] => None | (k, s) :: m => if String.eqb n k then Some s else lookup m n end.
Fixpoint change (m : list (string * list nat)) (n : string) (f : list nat -> list nat) : list (string * list nat) :=
  match m with [] => [(n, f [])] | (k, s) :: m => if String.eqb n k then (k, f s) :: m else (k, s) :: change m n f end.
(* std::set::emplace and erase *)
Definition emplace (g : nat) (s : list nat) : list nat := if existsb (Nat.eqb g) s then s else s ++ [g].
Definition erase (g : nat) (s : list nat) : list nat := filter (fun x => negb (Nat.eqb g x)) s.
(* a change of one generator *)
Fixpoint set_gen (l : list gen) (g : nat) (x : gen) : list gen :=
  match l, g with [], _ => [] | _ :: l, O => x :: l | y :: l, S g => y :: set_gen l g x end.
Definition renamed (x : gen) (n : string) : gen := {| g_name := n; g_ext := g_ext x; g_cloned := g_cloned x; g_def := g_def x |}.

(* src/context.cc:62-91; clones_ has no members: nothing is ever put in it (src/generator.hh:313 is its only use beside get_clones) *)
Definition change_generator_name (c : ctx) (g : nat) (x : gen) (n : string) : ctx * outcome unit :=
  if String.eqb n "" || String.eqb (g_name x) "" then ({| c_gens := set_gen (c_gens c) g (renamed x n); c_modules := c_modules c |}, Ok tt)
  else match lookup (c_modules c) (g_name x) with
  | None => (c, Throw)
  | Some s =>
      if existsb (Nat.eqb g) s
      then ({| c_gens := set_gen (c_gens c) g (renamed x n); c_modules := change (change (c_modules c) (g_name x) (erase g)) n (emplace g) |}, Ok tt)
      else (c, Throw)
  end.
(* a number that no generator has is no handle: nothing is done *)
Definition run (c : ctx) (a : act) : ctx * outcome unit :=
  match a with
  | New n => (* src/context.cc:14-18 *)
      ({| c_gens := c_gens c ++ [{| g_name := n; g_ext := false; g_cloned := false; g_def := None |}];
          c_modules := change (c_modules c) n (emplace (length (c_gens c))) |}, Ok tt)
  | Unnamed => (* src/context.cc:20-24 *)
      ({| c_gens := c_gens c ++ [{| g_name := ""; g_ext := false; g_cloned := false; g_def := None |}]; c_modules := c_modules c |}, Ok tt)
  | Clone g => (* src/generator.cc:1021-1049; ports and parameters are left out *)
      match nth_error (c_gens c) g with
      | Some x => ({| c_gens := c_gens c ++ [{| g_name := g_name x; g_ext := true; g_cloned := true; g_def := Some g |}]; c_modules := c_modules c |}, Ok tt)
      | None => (c, Ok tt)
      end
  | Rename g n => match nth_error (c_gens c) g with Some x => change_generator_name c g x n | None => (c, Ok tt) end
  | Put g => (* src/context.cc:32-34 *)
      match nth_error (c_gens c) g with
      | Some x => ({| c_gens := c_gens c; c_modules := change (c_modules c) (g_name x) (emplace g) |}, Ok tt)
      | None => (c, Ok tt)
      end
  | Drop g => (* src/context.cc:36-45 *)
      match nth_error (c_gens c) g with
      | Some x => match lookup (c_modules c) (g_name x) with
                  | None => (c, Ok tt)
                  | Some _ => ({| c_gens := c_gens c; c_modules := change (c_modules c) (g_name x) (erase g) |}, Ok tt)
                  end
      | None => (c, Ok tt)
      end
  | Mark g e cl => (* src/generator.hh:199, 215 *)
      match nth_error (c_gens c) g with
      | Some x => ({| c_gens := set_gen (c_gens c) g {| g_name := g_name x; g_ext := e; g_cloned := cl; g_def := g_def x |}; c_modules := c_modules c |}, Ok tt)
      | None => (c, Ok tt)
      end
  | Clear => ({| c_gens := c_gens c; c_modules := [] |}, Ok tt) (* src/context.cc:156-163 *)
  end.
(* a caller that goes on after an exception *)
Definition after (c : ctx) (h : list act) : ctx := fold_left (fun c a => fst (run c a)) h c.
(* src/context.cc:93-95 *)
Definition name_exists (c : ctx) (n : string) : bool := match lookup (c_modules c) n with Some _ => true | None => false end.
(* src/context.cc:97-101 *)
Definition by_name (c : ctx) (n : string) : list nat := match lookup (c_modules c) n with Some s => s | None => [] end.
(* Generator::name and the two marks *)
Definition name_of (c : ctx) (g : nat) : option string := option_map g_name (nth_error (c_gens c) g).
Definition marks (c : ctx) (g : nat) : option (bool * bool) := option_map (fun x => (g_ext x, g_cloned x)) (nth_error (c_gens c) g).
(* src/context.cc:147 *)
Definition own (c : ctx) (g : nat) : bool := match nth_error (c_gens c) g with Some x => negb (g_ext x) && negb (g_cloned x) | None => false end.
Definition original (c : ctx) (g : nat) : option nat := match nth_error (c_gens c) g with Some x => g_def x | None => None end.
(* src/context.cc:141-153 *)
Definition is_unique (c : ctx) (g : nat) : bool :=
  match name_of c g with
  | None => false
  | Some n => match lookup (c_modules c) n with None => false | Some s => Nat.eqb (length (filter (own c) s)) 1 end
  end.
