(* What the removal of pass-through modules is about. *)
From Verif Require Import Base SV_spec IR IRSem_spec Design_spec Dce_spec Fan_spec Move_spec.
Local Open Scope Z_scope.

Definition input (H : hierarchy) (c : nat) (x : var) : Prop := In x (h_ports H c) /\ h_kind H x = KIn.
Definition output (H : hierarchy) (c : nat) (x : var) : Prop := In x (h_ports H c) /\ h_kind H x <> KIn.
(* output o of instance c is its input i *)
Definition through (d : design) (c : nat) (i o : var) : Prop := exists it, In it d /\ i_gen it = c /\ i_proc it = PWire (LVar o) (EVar i).
(* Instance c in generator g consists of wires, each from an input to an output of the same type; it is used as an
   instance is used, and new variables (new i for input i) are new. *)
Record plain (G : tenv) (H : hierarchy) (new : var -> var) (d : design) (g c : nat) : Prop := {
  pl_other : g <> c;
  pl_wires : forall it, In it d -> i_gen it = c -> exists i o, i_proc it = PWire (LVar o) (EVar i) /\ input H c i /\ output H c o /\ G i = G o;
  (* an input is assigned in g and used inside, an output the other way around; no clock goes through *)
  pl_in : forall i it, input H c i -> In it d -> (reads i (body_of (i_proc it)) -> i_gen it = c) /\ (touches i (body_of (i_proc it)) -> i_gen it = g) /\ ~ loops_over i (body_of (i_proc it));
  pl_out : forall o it, output H c o -> In it d -> (reads o (body_of (i_proc it)) -> i_gen it = g) /\ (touches o (body_of (i_proc it)) -> i_gen it = c);
  pl_event : forall x, In x (h_ports H c) -> ~ d_event x d;
  (* a process that uses an output assigns its input by non-blocking assignments *)
  pl_order : forall i o it, through d c i o -> In it d -> reads o (body_of (i_proc it)) -> ~ changes_now i (body_of (i_proc it));
  (* the uses of the outputs can be moved *)
  pl_moves : forall o it s, output H c o -> In it d -> i_gen it = g -> inside s (body_of (i_proc it)) -> ~ holds o s /\ ~ stuck o s;
  pl_type : forall i, input H c i -> G (new i) = G i;
  pl_new : forall i it, input H c i -> In it d -> ~ reads (new i) (body_of (i_proc it)) /\ ~ touches (new i) (body_of (i_proc it)) /\ ~ d_event (new i) d }.
(* instances have ports of their own, and the new variables are different *)
Definition ports_apart (H : hierarchy) (new : var -> var) : Prop :=
  (forall c c' x, In x (h_ports H c) -> In x (h_ports H c') -> c = c') /\
  (forall c, NoDup (h_ports H c)) /\
  (forall c c' i i', input H c i -> input H c' i' -> new i = new i' -> i = i') /\
  (forall c c' i, input H c i -> ~ In (new i) (h_ports H c')).
(* wires of c from input i, from an input to output o *)
Definition from (c : nat) (i : var) (it : item) : Prop := i_gen it = c /\ exists o, i_proc it = PWire (LVar o) (EVar i).
Definition into (H : hierarchy) (c : nat) (o : var) (it : item) : Prop := i_gen it = c /\ exists i, input H c i /\ i_proc it = PWire (LVar o) (EVar i).
Definition one_item (d : design) (P : item -> Prop) : Prop := exists it, In it d /\ P it /\ forall it', In it' d -> P it' -> it' = it.
(* a pass-through: no variables, each input goes to one place and each output comes from one *)
Definition pass_through (H : hierarchy) (d : design) (c : nat) : Prop :=
  h_vars H c = [] /\ (forall i, input H c i -> one_item d (from c i)) /\ (forall o, output H c o -> one_item d (into H c o)).
(* The states before and after: the signals are those of before, without the ports of the instances that are gone;
   their inputs have become the new variables. *)
Definition carried (H : hierarchy) (new : var -> var) (gone : nat -> Prop) (d : design) (r r' : venv) : Prop :=
  (forall x, (forall c, gone c -> ~ In x (h_ports H c) /\ forall i, input H c i -> x <> new i) -> r' x = r x) /\
  (forall c i o, gone c -> through d c i o -> r' (new i) = r i /\ r o = r i).
(* an instance without variables whose outputs are assigned ports: it may be a pass-through *)
Definition suspect (H : hierarchy) (d : design) (c : nat) : Prop :=
  h_vars H c = [] /\ forall o, output H c o -> exists it k l p, In it d /\ inside (SAssign k l (EVar p)) (body_of (i_proc it)) /\ lhs_var l = o /\ h_kind H p <> KVar.
Definition instance (H : hierarchy) (c : nat) : Prop := In c (h_gens H) /\ h_parent H c <> None.
