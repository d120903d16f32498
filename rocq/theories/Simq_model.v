(* Model of the event queue of the simulator, src/sim.cc: which processes depend on a signal, what happens when a
   value is stored, the evaluation loop and the clocked processes.  Whole scalar variables, as in Sim_model; the
   processes of all generators are one flat design and fix_assignment_type has run (src/sim.cc:192). *)
From Verif Require Import Base IR IRSem_spec Design_spec Dce_model Eval_model Sim_model.
Local Open Scope Z_scope.

(* src/sim.cc:92-121  get_var_deps: variables are dependencies, of an expression the left and the right operand
   are followed.  The condition of a ConditionalExpr is a third member (src/expr.hh:732) and is not followed.
   Slices are not modelled here, see linked below. *)
Fixpoint deps_e (e : expr) : list var :=
  match e with
  | EVar x => [x]
  | EConst _ _ _ => []
  | EUn _ a | EExtend a _ => deps_e a
  | EBin _ a b | EConcat a b => deps_e a ++ deps_e b
  | ECond _ a b => deps_e a ++ deps_e b
  | ESlice _ _ _ => []
  end.
(* src/sim.cc:145-178  CombinationBlockVisitor: predicates, targets of switches, right sides *)
Definition deps_stmt (s : stmt) : list var :=
  match s with SAssign _ _ e => deps_e e | SIf c _ _ => deps_e c | SSwitch e _ _ => deps_e e | _ => [] end.
(* src/sim.cc:60-90  visit_block, visit_assign, visit_module_instantiation *)
Definition deps (p : proc) : list var :=
  match p with
  | PWire _ e => deps_e e
  | PComb b => collect_body deps_stmt b
  | PFf evs _ => map snd evs
  end.
(* dependency_[x]: a set, each process once *)
Definition dependents (d : design) (x : var) : list nat :=
  map i_id (filter (fun it => existsb (Nat.eqb x) (deps (i_proc it))) d).

(* values_, nba_values_, event_queue_ with statements named by their process, simulation_depth_ *)
Record qst := { q_vals : sim_vals; q_nba : list (var * Z); q_evs : list (var * nat); q_depth : Z }.

Section Queue.
  Variable pow : Z -> Z -> outcome Z.
  Variable G : tenv.
  Variable d : design.
  (* the order in which the unordered_set dependency_[x] is walked, and the unordered_map nba_values_ *)
  Variable ord : var -> list nat.
  Variable nord : list (var * Z) -> list (var * Z).

  (* src/sim.cc:502-533  trigger_event without linked slices; scope_ holds the running combinational block *)
  Definition trigger (scope : option nat) (x : var) (st : qst) : qst :=
    {| q_vals := q_vals st; q_nba := q_nba st;
       q_evs := q_evs st ++ map (fun i => (x, i))
                  (filter (fun i => match scope with Some j => negb (Nat.eqb i j) | None => true end) (ord x));
       q_depth := q_depth st + 1 |}.
  (* src/sim.cc:319-347  set_value_: bits below the width decide; a first value changes all bits *)
  Definition changed (old : option Z) (w v : Z) : bool :=
    match old with
    | None => 0 <? w
    | Some t => negb (Z.land (Z.lxor v t) (Z.ones w) =? 0)
    end.
  Definition set_value (scope : option nat) (x : var) (v : Z) (st : qst) : qst :=
    let st' := {| q_vals := set_val (q_vals st) x v; q_nba := q_nba st; q_evs := q_evs st; q_depth := q_depth st |} in
    if changed (q_vals st x) (d_width (G x)) v then trigger scope x st' else st'.

  (* src/sim.cc:593-695  process_stmt, as sim_stmt with the events queued *)
  Section Run.
  Variable scope : option nat.
  Fixpoint qstmt (s : stmt) (st : qst) : outcome qst :=
    let fix blk (l : list stmt) (st : qst) : outcome qst :=
      match l with
      | [] => Ok st
      | s :: r => olet st' := qstmt s st in blk r st'
      end in
    match s with
    | SAssign k l e =>
        olet v := sim_eval pow G (q_vals st) e in
        match v with
        | None => Ok st
        | Some v =>
            match l with
            | LVar x =>
                match k with
                | NonBlocking => Ok {| q_vals := q_vals st; q_nba := nba_emplace (q_nba st) x v;
                                       q_evs := q_evs st; q_depth := q_depth st |}
                | _ => Ok (set_value scope x v st)
                end
            | _ => Throw (* slices: not modelled here *)
            end
        end
    | SIf c t f =>
        olet v := sim_eval pow G (q_vals st) c in
        match v with
        | Some v => if negb (v =? 0) then blk t st else blk f st
        | None => blk f st
        end
    | SSwitch e cs d =>
        olet v := sim_eval pow G (q_vals st) e in
        let def := match d with None => Ok st | Some b => blk b st end in
        match v with
        | None => def
        | Some v =>
            (fix pick (l : list (Z * list stmt)) : outcome qst :=
               match l with
               | [] => def
               | cb :: r =>
                   olet bits := case_bits (ewidth G e) (fst cb) in
                   if v =? bits then blk (snd cb) st else pick r
               end) cs
        end
    | SBlock b => blk b st
    | _ => Throw (* "Not implemented" *)
    end.
  Fixpoint qblock (l : list stmt) (st : qst) : outcome qst :=
    match l with
    | [] => Ok st
    | s :: r => olet st' := qstmt s st in qblock r st'
    end.
  End Run.

  (* src/sim.cc:697-716: the value of the signal that changed, read when the event is processed *)
  Definition fires (m : sim_vals) (x : var) (evs : list (bool * var)) : bool :=
    existsb (fun e : bool * var => Nat.eqb (snd e) x &&
                      match m x with Some v => if fst e then negb (v =? 0) else v =? 0 | None => false end) evs.
  (* src/sim.cc:718-724: the queued values are stored after the block, and the queue is emptied *)
  Definition flush (st : qst) : qst :=
    let st' : qst := fold_left (fun (s : qst) (p : var * Z) => set_value None (fst p) (snd p) s) (nord (q_nba st)) st in
    {| q_vals := q_vals st'; q_nba := []; q_evs := q_evs st'; q_depth := q_depth st' |}.
  Definition process (x : var) (it : item) (st : qst) : outcome qst :=
    match i_proc it with
    | PWire l e => qstmt None (SAssign Blocking l e) st
    | PComb b => qblock (Some (i_id it)) b st
    | PFf evs b =>
        if fires (q_vals st) x evs then (olet st' := qblock None b st in Ok (flush st')) else Ok st
    end.

  (* src/sim.hh:8 *)
  Definition MAX_SIMULATION_DEPTH : Z := 4294967295.
  (* src/sim.cc:535-546  the loop of eval.  The structured binding refers to the element that pop() removes; here
     the element is copied first, see next_event.  None: not finished after n events. *)
  Fixpoint qloop (n : nat) (st : qst) : option (outcome qst) :=
    match q_evs st with
    | [] => Some (Ok st)
    | (x, i) :: r =>
        match n with
        | O => None
        | S n =>
            if MAX_SIMULATION_DEPTH <? q_depth st then Some Throw
            else
              let st1 := {| q_vals := q_vals st; q_nba := q_nba st; q_evs := r; q_depth := q_depth st |} in
              match find_item d i with
              | None => qloop n st1
              | Some it =>
                  match process x it st1 with
                  | Ok st' => qloop n st'
                  | Throw => Some Throw
                  | UB => Some UB
                  end
              end
        end
    end.
  Definition qeval (n : nat) (st : qst) : option (outcome qst) :=
    qloop n {| q_vals := q_vals st; q_nba := q_nba st; q_evs := q_evs st; q_depth := 0 |}.

  (* src/sim.cc:192-201, 734-763  the constructor: assignments of a constant among the statements of a generator
     are executed; connections of an instance ([tied]) are not among them *)
  Variable tied : nat -> bool.
  Definition pulled (it : item) : option (var * Z) :=
    match i_proc it with
    | PWire (LVar x) (EConst v _ _) => if tied (i_id it) then None else Some (x, u64 v)
    | _ => None
    end.
  Definition empty : qst := {| q_vals := fun _ => None; q_nba := []; q_evs := []; q_depth := 0 |}.
  Definition construct : qst :=
    fold_left (fun st it => match pulled it with Some (x, v) => set_value None x v st | None => st end) d empty.

  (* the calls of a user: give an input a value of its width without evaluating, evaluate.  set(x, v) is one after the other
     (src/sim.cc:554-557). *)
  Inductive session : qst -> Prop :=
  | se_new : session construct
  | se_set : forall st x v, session st -> (forall it, In it d -> ~ assigns x (body_of (i_proc it))) ->
      0 <= v < 2 ^ d_width (G x) -> session (set_value None x v st)
  | se_eval : forall st n st', session st -> qeval n st = Some (Ok st') -> session st'.
End Queue.

(* src/sim.cc:123-143  compute_linked_dep with 53-57, 73-75: bit -> slice, for one signal.  emplace and insert keep
   the entry that is there.  A slice is shared by all its uses, so it is named by its bits. *)
Definition bits_of (p : Z * Z) : list Z := map (fun k => snd p + Z.of_nat k) (seq 0 (Z.to_nat (fst p - snd p + 1))).
Definition link_bit (p : Z * Z) (t : list (Z * (Z * Z))) (b : Z) : list (Z * (Z * Z)) :=
  if existsb (fun e => fst e =? b) t then t else t ++ [(b, p)].
Definition link (t : list (Z * (Z * Z))) (p : Z * Z) : list (Z * (Z * Z)) := fold_left (link_bit p) (bits_of p) t.
Definition linked (parts : list (Z * Z)) : list (Z * (Z * Z)) := fold_left link parts [].
(* src/sim.cc:514-522: the slices whose dependents are queued *)
Definition notified (t : list (Z * (Z * Z))) (changed : list Z) : list (Z * Z) :=
  map snd (filter (fun e => existsb (Z.eqb (fst e)) changed) t).

(* src/sim.cc:541-543: the queue owns its elements; front() is a reference into the queue, pop() destroys the
   element, and the binding is read after it.  Cells that are not alive must not be read. *)
Definition heap := nat -> option (var * nat).
Definition pop_cell (a : nat) (h : heap) : heap := fun b => if Nat.eqb b a then None else h b.
Definition read_cell (h : heap) (a : nat) : outcome (var * nat) := match h a with Some e => Ok e | None => UB end.
Definition next_event (q : list nat) (h : heap) : option (outcome ((var * nat) * list nat * heap)) :=
  match q with
  | [] => None
  | a :: r => let h' := pop_cell a h in Some (olet e := read_cell h' a in Ok (e, r, h'))
  end.
