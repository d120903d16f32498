(* src/tb.cc, src/tb.hh:25-70, the text of properties and the clock of properties. *)
From Verif Require Import Base Seqp_spec.
Local Open Scope nat_scope.

(* A Sequence object: an identity, the signal, the wait; next_ is the rest of the list. *)
Record node := { nd_id : nat; nd_step : step }.
(* src/tb.cc:26-30 imply: what followed is destroyed.  None of the objects: the pointer dangles. *)
Fixpoint imply (id fresh : nat) (v : sig) (c : list node) : outcome (list node) :=
  match c with
  | [] => UB
  | n :: r => if Nat.eqb (nd_id n) id then Ok [n; {| nd_id := fresh; nd_step := {| p_sig := v; p_lo := 0; p_hi := 0 |} |}]
              else olet t := imply id fresh v r in Ok (n :: t)
  end.
(* src/tb.cc:60-64 wait *)
Fixpoint wait (id lo hi : nat) (c : list node) : outcome (list node) :=
  match c with
  | [] => UB
  | n :: r => if Nat.eqb (nd_id n) id then Ok ({| nd_id := id; nd_step := {| p_sig := p_sig (nd_step n); p_lo := lo; p_hi := hi |} |} :: r)
              else olet t := wait id lo hi r in Ok (n :: t)
  end.
(* src/tb.hh:27: Sequence(var) *)
Definition start (v : sig) : list node := [{| nd_id := 0; nd_step := {| p_sig := v; p_lo := 0; p_hi := 0 |} |}].
(* calls on given objects; the object made by the n-th implication is number n *)
Fixpoint run_calls (fresh : nat) (cs : list (nat * call)) (c : list node) : outcome (list node) :=
  match cs with
  | [] => Ok c
  | (id, Imply v) :: r => olet c' := imply id fresh v c in run_calls (S fresh) r c'
  | (id, Wait lo hi) :: r => olet c' := wait id lo hi c in run_calls fresh r c'
  end.
(* s.imply(a).wait(1).imply(b): imply returns the new object, wait the same *)
Fixpoint fluent (at_ : nat) (cs : list call) : list (nat * call) :=
  match cs with [] => [] | Imply v :: r => (at_, Imply v) :: fluent (S at_) r | Wait lo hi :: r => (at_, Wait lo hi) :: fluent at_ r end.

(* src/tb.cc:32-39 wait_to_str *)
Definition wait_text (s : step) : list tok :=
  if Nat.eqb (p_lo s) 0 && Nat.eqb (p_hi s) 0 then [] else if Nat.eqb (p_lo s) (p_hi s) then [TDelay (p_lo s)] else [TRange (p_lo s) (p_hi s)].
(* src/expr.cc:292-298, src/generator.cc:1315-1347: handle_name(true) *)
Definition handle (v : sig) : ref := match s_path v with [] => Local (s_name v) | p => Handle p (s_name v) end.
(* src/codegen.cc:170-175: a signal of the generator at hand by its name *)
Definition var_str (here : path) (v : sig) : ref := if list_eq_dec Nat.eq_dec (s_path v) here then Local (s_name v) else handle v.
(* src/tb.cc:41-58 to_string: the function for signals is used for the first element, if it has a wait *)
Fixpoint seq_string (f : sig -> ref) (c : list step) : list tok :=
  match c with
  | [] => []
  | s :: r => let first := match wait_text s with [] => [TRef (handle (p_sig s))] | w => w ++ [TRef (f (p_sig s))] end in
              match r with [] => first | _ => first ++ TImp :: seq_string handle r end
  end.

(* src/transform.cc:1001-1065 infer_property_clocking: clk_ports, the clocks of the generator; casts: for each clock port of each
   child, each of its sources that is a signal of the generator cast to a clock.  Some c: the property has an edge already. *)
Definition infer_clock (clk_ports casts : list nat) (edge : option nat) (chain : list step) : outcome (option nat) :=
  match edge, chain with
  | None, _ :: _ :: _ =>
      let clks := match clk_ports with [] => casts | _ => clk_ports end in
      match clks with [c] => Ok (Some c) | _ => Throw end
  | e, _ => Ok e
  end.

(* src/generator.cc:362-369 property: a map by name (numbers in the order of the names) *)
Fixpoint insert (name : nat) (c : list step) (m : list (nat * list step)) : list (nat * list step) :=
  match m with [] => [(name, c)] | (n, c') :: r => if name <? n then (name, c) :: m else (n, c') :: insert name c r end.
Definition add_property (m : list (nat * list step)) (x : nat * list step) : outcome (list (nat * list step)) :=
  if existsb (fun y => Nat.eqb (fst y) (fst x)) m then Throw else Ok (insert (fst x) (snd x) m).
Fixpoint add_all (xs : list (nat * list step)) (m : list (nat * list step)) : outcome (list (nat * list step)) :=
  match xs with [] => Ok m | x :: r => olet m' := add_property m x in add_all r m' end.
(* src/transform.cc:483-498 change_property_into_stmt: a statement for each, in the order of the map *)
Definition property_stmts (m : list (nat * list step)) : list (nat * list step) := m.

(* src/codegen.cc:731-764, 711-724: the text of an assertion with a statement for failures; value assertions have "else" *)
Definition assert_property (name : nat) (els : option nat) : list atok := match els with Some s => [AHead name; AStmt s] | None => [AHead name; AEnd] end.
Definition assert_value (v : nat) (els : option nat) : list atok := match els with Some s => [AHead v; AElse; AStmt s] | None => [AHead v; AEnd] end.

(* A generator, as far as modules of one name are concerned: src/hash.cc:380-443 hashes what is in it, but not the properties
   (python kratos/passes.py:109-115: these become statements after the hashing); src/pass.cc:32-90 gives different names to those
   of one name with different hashes, and src/codegen.cc:1353-1392 makes one module for each name, from the first generator. *)
Record gen := { g_name : nat; g_body : list nat; g_props : list (nat * list step) }.
Definition hash_of (g : gen) : list nat := g_body g.
Definition same_module (a b : gen) : bool := Nat.eqb (g_name a) (g_name b) && (if list_eq_dec Nat.eq_dec (hash_of a) (hash_of b) then true else false).
Fixpoint module_of (gs : list gen) (g : gen) : option gen := match gs with [] => None | x :: r => if same_module x g then Some x else module_of r g end.
