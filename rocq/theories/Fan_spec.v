(* What the removal of single-use wires is about. *)
From Coq Require Import Relations.
From Verif Require Import Base SV_spec IR IRSem_spec Design_spec Dce_spec.
Local Open Scope Z_scope.

Record modules := {
  m_gens : list nat;                (* the generators *)
  m_names : nat -> list var;        (* the ports and variables of a generator, sorted by name *)
  m_kind : var -> vkind;
  m_owner : var -> nat }.
(* the names of a generator are its own *)
Definition well_named (M : modules) : Prop := forall g x, In x (m_names M g) -> m_owner M x = g.
(* signals hold values of their width *)
Definition in_range (G : tenv) (r : venv) : Prop := forall x, 0 <= r x < 2 ^ d_width (G x).
(* y = x is a continuous assignment between signals of one generator and the only use of x *)
Definition link (M : modules) (d : design) (x y : var) : Prop :=
  exists it, In it d /\ i_proc it = PWire (LVar y) (EVar x) /\ m_owner M x = m_owner M y /\
  forall it', In it' d -> reads x (body_of (i_proc it')) -> it' = it.
Definition loops_over (x : var) (body : list stmt) : Prop := exists a b st bd, inside (SFor x a b st bd) body.
(* the signal was used and is not any more *)
Definition bypassed (M : modules) (d d' : design) (x : var) : Prop := m_kind M x = KVar /\ d_reads x d /\ ~ d_reads x d'.

Record fan_good (G : tenv) (M : modules) (d : design) : Prop := {
  fg_ids : NoDup (map i_id d);
  (* both sides of an assignment of a signal have the same type *)
  fg_types : forall it x y, In it d -> i_proc it = PWire (LVar y) (EVar x) -> G x = G y;
  (* what such an assignment drives has no other driver *)
  fg_single : forall it it' x y, In it d -> i_proc it = PWire (LVar y) (EVar x) -> In it' d -> touches y (body_of (i_proc it')) -> it' = it;
  (* a variable is used in its own generator *)
  fg_scope : forall it x, In it d -> m_kind M x = KVar -> reads x (body_of (i_proc it)) \/ touches x (body_of (i_proc it)) -> i_gen it = m_owner M x;
  (* two single-use wires in a row start with two variables, *)
  fg_ports : forall x y z, link M d x y -> link M d y z -> m_kind M x = KVar /\ m_kind M y = KVar;
  (* that are not in an event control *)
  fg_events : forall x y z, link M d x y -> link M d y z -> ~ d_event x d /\ ~ d_event y d;
  fg_loops : forall x y it, link M d x y -> In it d -> ~ loops_over x (body_of (i_proc it));
  (* a process that assigns the start of such wires and reads the end uses non-blocking assignments for it *)
  fg_order : forall x z it k l e, clos_trans _ (link M d) x z -> In it d -> reads z (body_of (i_proc it)) ->
    inside (SAssign k l e) (body_of (i_proc it)) -> lhs_var l = x -> k = NonBlocking }.
