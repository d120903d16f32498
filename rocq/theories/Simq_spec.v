(* What a user of the built-in simulator expects of a whole design: after an evaluation the wires and the
   combinational processes are settled, and a change of an input makes the clocked processes that wait for it
   take one step. *)
From Verif Require Import Base SV_spec IR IRSem_spec Design_spec Sim_spec.
Local Open Scope Z_scope.

(* no conditional expression c ? a : b *)
Fixpoint no_mux (e : expr) : Prop :=
  match e with
  | EVar _ | EConst _ _ _ => True
  | EUn _ a | EExtend a _ | ESlice a _ _ => no_mux a
  | EBin _ a b | EConcat a b => no_mux a /\ no_mux b
  | ECond _ _ _ => False
  end.
(* the expression of a statement itself, without the statements inside it *)
Definition own_expr (s : stmt) : option expr :=
  match s with SAssign _ _ e => Some e | SIf c _ _ => Some c | SSwitch e _ _ => Some e | _ => None end.
Definition mux_free (body : list stmt) : Prop := forall s e, inside s body -> own_expr s = Some e -> no_mux e.
Definition is_ff (p : proc) : bool := match p with PFf _ _ => true | _ => false end.
Definition driven (d : design) (x : var) : Prop := exists it, In it d /\ assigns x (body_of (i_proc it)).
Definition input (d : design) (x : var) : Prop := ~ driven d x.

(* A design the simulator is claimed to settle.  [tied i]: the continuous assignment i is a connection of a
   module instance. *)
Record well_formed (G : tenv) (tied : nat -> bool) (d : design) : Prop := {
  wf_width : forall x, 0 < d_width (G x);
  wf_ids : NoDup (map i_id d);
  wf_good : forall it, In it d -> Forall (good_stmt G) (body_of (i_proc it));
  wf_mux : forall it, In it d -> mux_free (body_of (i_proc it));
  (* each signal is driven by one process *)
  wf_single : forall it it' x, In it d -> In it' d -> assigns x (body_of (i_proc it)) ->
      assigns x (body_of (i_proc it')) -> it = it';
  (* wires and combinational processes: blocking assignments, no process reads what it drives *)
  wf_block : forall it k l e, In it d -> is_ff (i_proc it) = false ->
      inside (SAssign k l e) (body_of (i_proc it)) -> k <> NonBlocking;
  wf_loop : forall it x, In it d -> is_ff (i_proc it) = false ->
      reads x (body_of (i_proc it)) -> ~ assigns x (body_of (i_proc it));
  (* each reads something, except constants assigned to wires that are not connections of an instance *)
  wf_reads : forall it, In it d -> is_ff (i_proc it) = false ->
      (exists x, reads x (body_of (i_proc it)))
      \/ exists l v w s, i_proc it = PWire l (EConst v w s) /\ tied (i_id it) = false
}.

(* clocked processes of a synchronous design *)
Record synchronous (G : tenv) (d : design) : Prop := {
  sy_events : forall it, In it d -> is_ff (i_proc it) = true -> events_of (i_proc it) <> [];
  (* clocks and asynchronous resets are one-bit inputs that no wire or combinational process reads *)
  sy_clock : forall it b x, In it d -> In (b, x) (events_of (i_proc it)) ->
      d_width (G x) = 1 /\ input d x /\
      forall it', In it' d -> is_ff (i_proc it') = false -> ~ reads x (body_of (i_proc it'));
  sy_nba : forall it k l e, In it d -> is_ff (i_proc it) = true ->
      inside (SAssign k l e) (body_of (i_proc it)) -> k = NonBlocking;
  (* no register is assigned twice in one activation *)
  sy_once : forall it r, In it d -> is_ff (i_proc it) = true -> NoDup (map w_var (queued G it r))
}.
(* no clocked process reads a register of another one *)
Definition apart (d : design) : Prop :=
  forall it it' x, In it d -> In it' d -> is_ff (i_proc it) = true -> is_ff (i_proc it') = true ->
    reads x (body_of (i_proc it)) -> assigns x (body_of (i_proc it')) -> it = it'.

(* the signals a design uses *)
Definition occurs (d : design) (x : var) : Prop :=
  exists it, In it d /\ (reads x (body_of (i_proc it)) \/ assigns x (body_of (i_proc it)) \/ exists b, In (b, x) (events_of (i_proc it))).

(* the input x becomes v: the clocked processes that wait for this edge run on the values before the edge and the
   new input; registers take the values they queued; then everything settles *)
Definition reacts (G : tenv) (d : design) (r : venv) (x : var) (v : Z) (r' : venv) : Prop :=
  settled G d r'
  /\ (forall z, input d z -> r' z = upd r x v z)
  /\ forall z, clocked d z ->
       r' z = fold_left do_write (flat_map (fun it => queued G it (upd r x v)) (fired G d r (upd r x v))) r z.

(* no combinational loop: a ranking along which every process only drives processes of higher rank *)
Definition loop_free (d : design) : Prop :=
  exists rank : nat -> nat, forall it it' x, In it d -> In it' d -> assigns x (body_of (i_proc it)) ->
    (is_ff (i_proc it') = false /\ reads x (body_of (i_proc it')) \/ exists b, In (b, x) (events_of (i_proc it'))) ->
    (rank (i_id it) < rank (i_id it'))%nat.

(* parts of a signal, highest and lowest bit *)
Definition covers (p : Z * Z) (b : Z) : Prop := snd p <= b <= fst p.
Definition disjoint (p q : Z * Z) : Prop := forall b, covers p b -> ~ covers q b.
