(* Model of dead code elimination, src/optimize.cc:1130-1241, on flat designs: generators are numbers, a port
   or variable belongs to the generator owner gives.  The statement lists of all generators are one design. *)
From Verif Require Import Base SV_spec IR IRSem_spec Design_spec Dce_spec.
Local Open Scope Z_scope.

(* src/expr.cc:1742-1770, 1241-1260, 1345-1355, 1384, 1792-1801: the variables whose sinks_ a statement with
   this expression on its right leaves when it is taken away: VarSlice::remove_sink calls remove_source of its
   variable (1767-1770), so what is below a slice stays *)
Fixpoint freed (e : expr) : list var :=
  match e with
  | EVar x => [x]
  | EConst _ _ _ => []
  | EUn _ a => freed a
  | EBin _ a b => freed a ++ freed b
  | ECond c a b => freed c ++ freed a ++ freed b
  | ESlice _ _ _ => []
  | EConcat a b => freed a ++ freed b
  | EExtend a _ => freed a
  end.

Section Stmts.
  (* statements for which gone holds are taken away *)
  Variable gone : stmt -> bool.
  Fixpoint drop_stmt (s : stmt) : stmt :=
    let fix all (l : list stmt) : list stmt :=
      match l with [] => [] | s :: r => if gone s then all r else drop_stmt s :: all r end in
    match s with
    | SIf c t f => SIf c (all t) (all f)
    | SSwitch e cs d => SSwitch e (map (fun cb => (fst cb, all (snd cb))) cs) (match d with Some b => Some (all b) | None => None end)
    | SFor i a b st body => SFor i a b st (all body)
    | SBlock body => SBlock (all body)
    | s => s
    end.
  Fixpoint drop_body (l : list stmt) : list stmt :=
    match l with [] => [] | s :: r => if gone s then drop_body r else drop_stmt s :: drop_body r end.
  Definition drop_item (it : item) : list item :=
    match i_proc it with
    | PWire l e => if gone (SAssign Blocking l e) then [] else [it]
    | PComb b => [{| i_id := i_id it; i_gen := i_gen it; i_proc := PComb (drop_body b) |}]
    | PFf evs b => [{| i_id := i_id it; i_gen := i_gen it; i_proc := PFf evs (drop_body b) |}]
    end.
  Definition drop_design (d : design) : design := flat_map drop_item d.
End Stmts.

(* the statements of a block, at any depth *)
Section Collect.
  Context {A : Type}.
  Variable f : stmt -> list A.
  Fixpoint collect (s : stmt) : list A :=
    let fix all (l : list stmt) : list A := match l with [] => [] | s :: r => collect s ++ all r end in
    f s ++ match s with
           | SIf _ t e => all t ++ all e
           | SSwitch _ cs d => flat_map (fun cb => all (snd cb)) cs ++ match d with Some b => all b | None => [] end
           | SFor _ _ _ _ b => all b
           | SBlock b => all b
           | _ => []
           end.
  Definition collect_body (l : list stmt) : list A := flat_map collect l.
End Collect.
(* src/stmt.cc:206-214, 231-241, 527-532, 818-838, src/expr.cc:703-711: sinks_ of the variables gets the
   statement when it is placed, the predicates of if and the targets of switch through statements of their
   own.  Event controls are not entered (src/stmt.cc:501-512), nor are arguments of function call statements. *)
Definition stmt_sinks (s : stmt) : list var :=
  match s with
  | SAssign _ l e => lhs_reads l ++ evars e
  | SIf c _ _ => evars c
  | SSwitch e _ _ => evars e
  | SReturn e => evars e
  | _ => []
  end.
Definition sinks (d : design) : list var := flat_map (fun it => collect_body stmt_sinks (body_of (i_proc it))) d.
Definition sources (d : design) : list var :=
  flat_map (fun it => collect_body (fun s => match s with SAssign _ l _ => [lhs_var l] | _ => [] end) (body_of (i_proc it))) d.

(* stale: variables whose sinks_ holds statements that are not in the design any more; gone: removed ones *)
Record dstate := { s_design : design; s_stale : list var; s_gone : list var }.
Definition no_sink (s : dstate) (x : var) : bool := negb (mem x (sinks (s_design s))) && negb (mem x (s_stale s)).
Definition no_source (s : dstate) (x : var) : bool := negb (mem x (sources (s_design s))).
Definition assigns_to (x : var) (s : stmt) : bool := match s with SAssign _ l _ => Nat.eqb (lhs_var l) x | _ => false end.
Definition assign_reads (x : var) (s : stmt) : bool := match s with SAssign _ l e => mem x (lhs_reads l ++ evars e) | _ => false end.
(* src/optimize.cc:1183-1206 remove_var; 1186-1192 for the sources *)
Definition left_behind (x : var) (s : stmt) : list var :=
  match s with
  | SAssign _ l e => if Nat.eqb (lhs_var l) x then filter (fun y => negb (mem y (freed e))) (lhs_reads l ++ evars e)
                     else if mem x (lhs_reads l ++ evars e) then filter (fun y => negb (Nat.eqb y x)) (lhs_reads l ++ evars e) (* 1194-1200 *)
                     else []
  | _ => []
  end.
Definition remove_var (x : var) (s : dstate) : dstate :=
  {| s_design := drop_design (fun st => assigns_to x st || assign_reads x st) (s_design s);
     s_stale := s_stale s ++ flat_map (fun it => collect_body (left_behind x) (body_of (i_proc it))) (s_design s);
     s_gone := x :: s_gone s |}.

Section Pass.
  Variable kind : var -> vkind.
  (* the variables, and the ports, of a generator in the order of the map; its parent *)
  Variables (vars ports : nat -> list var) (parent : nat -> option nat).
  Definition left_over (s : dstate) (l : list var) : list var := filter (fun x => negb (mem x (s_gone s))) l.
  (* src/optimize.cc:1134-1151; at most one round per variable *)
  Fixpoint remove_dead (fuel : nat) (g : nat) (s : dstate) : dstate :=
    match fuel with
    | O => s
    | S n => match find (no_sink s) (left_over s (vars g)) with
             | Some x => remove_dead n g (remove_var x s)
             | None => s
             end
    end.
  (* src/optimize.cc:1160-1181 clear_out_ports: the ports are chosen first *)
  Definition unused_port (s : dstate) (x : var) : bool :=
    match kind x with KIn => no_sink s x | KOut => no_source s x | KVar => false end.
  Definition clear_ports (g : nat) (s : dstate) : dstate :=
    match parent g with
    | None => s
    | Some _ => fold_left (fun s x => remove_var x s) (filter (unused_port s) (left_over s (ports g))) s
    end.
  Definition visit (s : dstate) (g : nat) : dstate := clear_ports g (remove_dead (length (vars g)) g s).
  (* src/optimize.cc:1208-1225: an instance without ports is taken away with everything below it; the
     instances that stay, found from the top *)
  Definition no_ports (s : dstate) (g : nat) : bool := match left_over s (ports g) with [] => true | _ => false end.
  Definition stay (s : dstate) (k : list nat) (g : nat) : list nat :=
    match parent g with
    | None => g :: k
    | Some p => if mem p k && negb (no_ports s g) then g :: k else k
    end.
  Definition alive (gens : list nat) (s : dstate) : list nat := fold_left (stay s) (rev gens) [].
  (* src/optimize.cc:1227-1241; gens: the generators of the hierarchy, children first (src/ir.cc:102-121, where
     those of one level run in parallel; here one after the other).  The removal of empty blocks that follows
     is in RemoveEmpty_model.v.  External generators are not left out (no test in 1133-1181): they are
     generators without statements. *)
  Definition dce_vars (gens : list nat) (d : design) : dstate :=
    fold_left visit gens {| s_design := d; s_stale := []; s_gone := [] |}.
  Definition dce (gens : list nat) (d : design) : dstate :=
    let s := dce_vars gens d in
    {| s_design := filter (fun it => mem (i_gen it) (alive gens s)) (s_design s);
       s_stale := s_stale s; s_gone := s_gone s |}.
End Pass.
(* src/optimize.cc:1227-1241 dead_code_elimination(top) *)
Definition eliminate (H : hierarchy) (d : design) : dstate :=
  dce (h_kind H) (h_vars H) (h_ports H) (h_parent H) (h_gens H) d.
Definition instances_left (H : hierarchy) (d : design) : list nat :=
  alive (h_ports H) (h_parent H) (h_gens H) (dce_vars (h_kind H) (h_vars H) (h_ports H) (h_parent H) (h_gens H) d).
