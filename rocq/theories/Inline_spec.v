(* What inlining instances is about. *)
From Verif Require Import Base SV_spec IR IRSem_spec Design_spec Dce_spec Fan_spec Move_spec Pass_spec.
Local Open Scope Z_scope.

(* A port of an instance and the signal of the enclosing generator it is connected to. *)
Record conn := { k_in : bool; k_port : var; k_sig : var }.
Definition wire_of (k : conn) : proc :=
  if k_in k then PWire (LVar (k_port k)) (EVar (k_sig k)) else PWire (LVar (k_sig k)) (EVar (k_port k)).
(* instance c of generator g is to be inlined *)
Definition inlined (H : hierarchy) (inl : nat -> bool) (g c : nat) : Prop := In c (h_gens H) /\ h_parent H c = Some g /\ inl c = true.
Definition inlined_port (H : hierarchy) (inl : nat -> bool) (g : nat) (p : var) : Prop := exists c, inlined H inl g c /\ In p (h_ports H c).
(* a continuous assignment with exactly port p on the side that connects the port *)
Definition hooks (inward : bool) (p : var) (it : item) : Prop :=
  if inward then exists e, i_proc it = PWire (LVar p) e else exists l, i_proc it = PWire l (EVar p).
Definition inward (H : hierarchy) (p : var) : bool := match h_kind H p with KIn => true | _ => false end.
(* the connections that are dissolved: those made by one continuous assignment of the generator *)
Definition dissolved (H : hierarchy) (inl : nat -> bool) (d : design) (g : nat) (k : conn) : Prop :=
  inlined_port H inl g (k_port k) /\ k_in k = inward H (k_port k) /\
  exists it, In it d /\ i_gen it = g /\ i_proc it = wire_of k /\
    forall it', In it' d -> i_gen it' = g -> hooks (k_in k) (k_port k) it' -> it' = it.
(* the signal a port becomes *)
Definition ends (K : conn -> Prop) (x z : var) : Prop := (exists k, K k /\ k_port k = x /\ k_sig k = z) \/ ((forall k, K k -> k_port k <> x) /\ z = x).
(* the process ends up in g *)
Definition comes_to (H : hierarchy) (inl : nat -> bool) (g : nat) (it : item) : Prop := i_gen it = g \/ inlined H inl g (i_gen it).
(* a test that is the signal itself *)
Definition plain_test (x : var) (s : stmt) : Prop := match s with SIf c _ _ => c = EVar x | SSwitch e _ _ => e = EVar x | _ => False end.
(* an assignment that just copies a signal *)
Definition copies (s : stmt) : Prop := match s with SAssign _ (LVar _) (EVar _) => True | _ => False end.

Record tidy (G : tenv) (H : hierarchy) (inl : nat -> bool) (d : design) (g : nat) : Prop := {
  td_ids : NoDup (map i_id d);
  td_gens : NoDup (h_gens H);
  td_ports : NoDup (flat_map (h_ports H) (filter (fun c => match h_parent H c with Some p => Nat.eqb p g | None => false end && inl c) (h_gens H)));
  td_self : inl g = false \/ h_parent H g <> Some g;
  (* ports are connected to whole signals of the same type, which are no ports of inlined instances *)
  td_whole : forall p it, inlined_port H inl g p -> In it d -> i_gen it = g -> hooks (inward H p) p it -> exists k, k_port k = p /\ k_in k = inward H p /\ i_proc it = wire_of k;
  (* a port is connected where it can be named *)
  td_scope : forall c p it, inlined H inl g c -> In p (h_ports H c) -> In it d -> comes_to H inl g it -> hooks (inward H p) p it -> i_gen it = g \/ i_gen it = c;
  td_type : forall k, dissolved H inl d g k -> G (k_port k) = G (k_sig k);
  td_apart : forall k, dissolved H inl d g k -> ~ inlined_port H inl g (k_sig k);
  (* an input is assigned by its connection only; what uses it can be changed to use another signal (Move_spec.v) *)
  td_in : forall k it, dissolved H inl d g k -> k_in k = true -> In it d ->
    (touches (k_port k) (body_of (i_proc it)) -> i_gen it = g /\ i_proc it = wire_of k) /\
    (reads (k_port k) (body_of (i_proc it)) \/ In (k_port k) (map snd (events_of (i_proc it))) -> comes_to H inl g it) /\
    (forall s, inside s (body_of (i_proc it)) -> reads_stmt (k_port k) s -> plain_test (k_port k) s \/ ~ holds (k_port k) s);
  td_moves : forall p it s, inlined_port H inl g p -> In it d -> comes_to H inl g it -> inside s (body_of (i_proc it)) -> ~ stuck p s;
  (* an output is used by its connection only, which is what drives the signal *)
  td_out : forall k it, dissolved H inl d g k -> k_in k = false -> In it d ->
    (reads (k_port k) (body_of (i_proc it)) -> i_gen it = g /\ i_proc it = wire_of k) /\
    (touches (k_sig k) (body_of (i_proc it)) -> i_gen it = g /\ i_proc it = wire_of k) /\
    (touches (k_port k) (body_of (i_proc it)) \/ In (k_port k) (map snd (events_of (i_proc it))) -> comes_to H inl g it) /\
    ~ loops_over (k_port k) (body_of (i_proc it));
  td_driven : forall k, dissolved H inl d g k -> k_in k = false -> d_assigns (k_port k) d;
  (* no process reads a signal and changes it at once under another name *)
  td_order : forall it x y z, In it d -> (forall k, dissolved H inl d g k -> i_proc it <> wire_of k) ->
    reads x (body_of (i_proc it)) -> changes_now y (body_of (i_proc it)) ->
    ends (dissolved H inl d g) x z -> ends (dissolved H inl d g) y z -> x = y;
  (* a signal connected to an input is not just a copy of another signal *)
  td_copies : forall k, dissolved H inl d g k -> k_in k = true -> d_assigns (k_sig k) d ->
    exists it kd l e, In it d /\ inside (SAssign kd l e) (body_of (i_proc it)) /\ lhs_var l = k_sig k /\ ~ copies (SAssign kd l e) }.

(* The design goes through the same states as before, seen from all signals but the ports that are gone. *)
Definition same_but (G : tenv) (hid : var -> Prop) (d d' : design) : Prop :=
  (forall h, Forall (in_range G) h -> history G d h -> history G d' h) /\
  (forall h', Forall (in_range G) h' -> history G d' h' -> exists h, history G d h /\ Forall2 (fun r r' => forall x, ~ hid x -> r x = r' x) h h').
