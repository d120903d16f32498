(* The meaning of a whole design, for passes that work across processes and modules.
   A design is given flat: the signals of all instances have different numbers, a port of an instance
   is a signal, and wiring it is an assignment like any other.  Two-state values, as in IRSem_spec. *)
From Verif Require Import Base SV_spec IR IRSem_spec.
Local Open Scope Z_scope.

(* a continuous assignment, a combinational process, a clocked process with its events (true: posedge) *)
Inductive proc : Type :=
| PWire (l : lhs) (e : expr)
| PComb (body : list stmt)
| PFf (evs : list (bool * var)) (body : list stmt).
(* i_id names the process, i_gen the instance it belongs to *)
Record item := { i_id : nat; i_gen : nat; i_proc : proc }.
Definition design := list item.
Definition body_of (p : proc) : list stmt :=
  match p with PWire l e => [SAssign Blocking l e] | PComb b => b | PFf _ b => b end.
Definition events_of (p : proc) : list (bool * var) := match p with PFf evs _ => evs | _ => [] end.

(* the signals a statement reads *)
Definition lhs_reads (l : lhs) : list var := match l with LDyn _ i _ => evars i | _ => [] end.
Inductive reads_stmt (x : var) : stmt -> Prop :=
| rd_assign k l e : In x (lhs_reads l) \/ In x (evars e) -> reads_stmt x (SAssign k l e)
| rd_if c t f : In x (evars c) -> reads_stmt x (SIf c t f)
| rd_switch e cs d : In x (evars e) -> reads_stmt x (SSwitch e cs d)
| rd_return e : In x (evars e) -> reads_stmt x (SReturn e).
Definition reads (x : var) (body : list stmt) : Prop := exists s, inside s body /\ reads_stmt x s.
Definition assigns (x : var) (body : list stmt) : Prop := exists k l e, inside (SAssign k l e) body /\ lhs_var l = x.
(* what a process may write: assignments and the variables of loops *)
Definition touches (x : var) (body : list stmt) : Prop := assigns x body \/ exists a b st bd, inside (SFor x a b st bd) body.

(* The event-driven semantics.  The state of a simulation: the values, the queued non-blocking writes, the
   clocked processes that have seen one of their events and not run yet. *)
Record conf := { c_cur : venv; c_nba : list write; c_pend : list nat }.
(* what can happen next: a signal is driven from outside, a process runs, the queued writes are performed.
   A schedule is any list of these. *)
Inductive act : Type := Drive (x : var) (v : Z) | Run (i : nat) | Flush.
Definition edge (G : tenv) (r r' : venv) (e : bool * var) : bool :=
  let a := ev G r (EVar (snd e)) in
  let b := ev G r' (EVar (snd e)) in
  if fst e then (a =? 0) && negb (b =? 0) else negb (a =? 0) && (b =? 0).
Definition triggered (G : tenv) (d : design) (r r' : venv) : list nat :=
  map i_id (filter (fun it => existsb (edge G r r') (events_of (i_proc it))) d).
Definition find_item (d : design) (i : nat) : option item := find (fun it => Nat.eqb (i_id it) i) d.
Definition mem (i : nat) (l : list nat) : bool := existsb (Nat.eqb i) l.
Definition become (G : tenv) (d : design) (c : conf) (r : venv) (nba : list write) (pend : list nat) : conf :=
  {| c_cur := r; c_nba := nba; c_pend := pend ++ triggered G d (c_cur c) r |}.
Definition ready (it : item) (c : conf) : bool :=
  match i_proc it with PFf _ _ => mem (i_id it) (c_pend c) | _ => true end.
Definition step (G : tenv) (d : design) (c : conf) (a : act) : conf :=
  match a with
  | Drive x v => become G d c (upd (c_cur c) x v) (c_nba c) (c_pend c)
  | Flush => become G d c (fold_left do_write (c_nba c) (c_cur c)) [] (c_pend c)
  | Run i =>
      match find_item d i with
      | None => c
      | Some it =>
          if ready it c then
            let st := run G (body_of (i_proc it)) {| st_cur := c_cur c; st_nba := c_nba c; st_status := Running |} in
            become G d c (st_cur st) (st_nba st) (filter (fun j => negb (Nat.eqb j i)) (c_pend c))
          else c
      end
  end.
Definition play (G : tenv) (d : design) (sched : list act) (c : conf) : conf := fold_left (step G d) sched c.
Definition init (r : venv) : conf := {| c_cur := r; c_nba := []; c_pend := [] |}.

(* The settled semantics of synchronous designs: nothing changes any more when a wire or a combinational
   process runs; registers take the values their processes queued at the edge. *)
Definition settled (G : tenv) (d : design) (r : venv) : Prop :=
  forall it, In it d -> events_of (i_proc it) = [] -> forall x, activate G (body_of (i_proc it)) r x = r x.
Definition fired (G : tenv) (d : design) (r r' : venv) : list item :=
  filter (fun it => existsb (edge G r r') (events_of (i_proc it))) d.
Definition queued (G : tenv) (it : item) (r : venv) : list write :=
  st_nba (run G (body_of (i_proc it)) (start_state r)).
Definition clocked (d : design) (x : var) : Prop :=
  exists it, In it d /\ events_of (i_proc it) <> [] /\ assigns x (body_of (i_proc it)).
Definition next (G : tenv) (d : design) (r r' : venv) : Prop :=
  settled G d r' /\
  forall x, clocked d x -> r' x = fold_left do_write (flat_map (fun it => queued G it r) (fired G d r r')) r x.
(* the settled states a design can go through *)
Inductive history (G : tenv) (d : design) : list venv -> Prop :=
| h_first r : settled G d r -> history G d [r]
| h_next r r' l : history G d (r :: l) -> next G d r r' -> history G d (r' :: r :: l).
Definition agree (see : var -> Prop) (r s : venv) : Prop := forall x, see x -> r x = s x.
