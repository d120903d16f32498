(* A clocked module over many cycles. *)
From Verif Require Import Base IR IRSem_spec.
Local Open Scope Z_scope.

(* the combinational statements, in an order they can be evaluated in, and the bodies of the processes
   of its clock *)
Record module := { m_wires : list (list stmt); m_procs : list (list stmt) }.
(* processes one after the other; non-blocking writes happen when all have run *)
Definition run_all (G : tenv) (ps : list (list stmt)) (st : pstate) : pstate :=
  fold_left (fun st b => set_status (run G b st) Running) ps st.
Definition together (G : tenv) (ps : list (list stmt)) (r : venv) : venv :=
  commit (run_all G ps (start_state r)).
(* the environment sets the inputs of a cycle *)
Definition inputs := venv -> venv.
(* the values during cycle t, before its clock edge *)
Fixpoint during (G : tenv) (m : module) (i : nat -> inputs) (r : venv) (t : nat) : venv :=
  match t with
  | O => together G (m_wires m) (i O r)
  | S k => together G (m_wires m) (i (S k) (together G (m_procs m) (during G m i r k)))
  end.
Definition seen (G : tenv) (r : venv) (x : var) : Z := ev G r (EVar x).

(* the expressions a statement itself evaluates *)
Definition reads_of (s : stmt) : list var :=
  match s with
  | SAssign _ (LDyn _ i _) e => evars i ++ evars e
  | SAssign _ _ e => evars e
  | SIf c _ _ => evars c
  | SSwitch e _ _ => evars e
  | SReturn e => evars e
  | _ => []
  end.
Definition reads (x : var) (l : list stmt) : Prop := exists s, inside s l /\ In x (reads_of s).
Definition writes (x : var) (l : list stmt) : Prop :=
  (exists k lh e, inside (SAssign k lh e) l /\ lhs_var lh = x) \/ (exists a b st bd, inside (SFor x a b st bd) l).
Definition loops (x : var) (l : list stmt) : Prop := exists a b st bd, inside (SFor x a b st bd) l.

(* the new variables: distinct, no ports, declared like their port *)
Definition stage_of (ports : list var) (stage : var -> nat -> var) (x : var) : Prop := exists p i, In p ports /\ x = stage p i.
Record fresh (G : tenv) (ports : list var) (stage : var -> nat -> var) : Prop := {
  f_inj : forall p q i j, In p ports -> In q ports -> stage p i = stage q j -> p = q /\ i = j;
  f_apart : forall p i, In p ports -> ~ In (stage p i) ports;
  f_decl : forall p i, In p ports -> G (stage p i) = G p;
  f_width : forall p, In p ports -> 0 <= d_width (G p);
  f_nodup : NoDup ports }.
(* the module drives its outputs but does not read them, and does not know the new variables *)
Definition drives_only (ports : list var) (stage : var -> nat -> var) (b : list stmt) : Prop :=
  (forall x, reads x b -> ~ In x ports /\ ~ stage_of ports stage x) /\ (forall x, writes x b -> ~ stage_of ports stage x) /\ (forall x, loops x b -> ~ In x ports).
(* clocked processes write the outputs when the edge is over *)
Definition registered (ports : list var) (b : list stmt) : Prop := forall p, In p ports -> ~ changes_now p b.
(* the environment neither sets nor reads the outputs and the new variables *)
Definition outside (ports : list var) (stage : var -> nat -> var) (i : inputs) : Prop :=
  (forall r x, In x ports \/ stage_of ports stage x -> i r x = r x)
  /\ (forall r r', (forall x, ~ In x ports -> ~ stage_of ports stage x -> r' x = r x) -> forall x, ~ In x ports -> ~ stage_of ports stage x -> i r' x = i r x).
(* the pipelined module starts like the module, the first stage in the place of the port *)
Definition starts_like (ports : list var) (stage : var -> nat -> var) (r r' : venv) : Prop :=
  (forall x, ~ In x ports -> ~ stage_of ports stage x -> r' x = r x) /\ (forall p, In p ports -> r' (stage p 0%nat) = r p).
