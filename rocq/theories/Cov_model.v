(* src/fault.cc:31-45, 99-204, 305-330, 368-440 *)
From Verif Require Import Base Cov_spec.
Local Open Scope nat_scope.

(* src/fault.cc:112-138 compute_hit_stmts *)
Fixpoint hits (st : cstate) (s : cstmt) : list nat :=
  let fix all (l : list cstmt) : list nat := match l with [] => [] | s :: r => hits st s ++ all r end in
  match s with
  | CIf p tid t fid f =>
      match st p with
      | Some v => if (v =? 0)%Z then fid :: all f else tid :: all t
      | None => fid :: all f
      end
  | CScope id body => id :: all body
  | CProc body => all body
  | CSwitch _ _ | CFor _ _ | CLeaf => []
  end.
(* src/fault.cc:140-164 compute_coverage without the cache *)
Definition run_coverage (design : list cstmt) (r : srun) : list nat :=
  match r_cov r with
  | [] => flat_map (fun st => flat_map (hits st) design) (r_states r)
  | c => c
  end.
(* the runs and coverage_maps_ *)
Record analyzer := { a_runs : list srun; a_cache : list (nat * list nat) }.
Fixpoint find_n {A} (l : list (nat * A)) (k : nat) : option A :=
  match l with [] => None | (j, a) :: r => if Nat.eqb k j then Some a else find_n r k end.
(* compute_coverage stores with emplace: an entry is never replaced *)
Definition compute (design : list cstmt) (a : analyzer) (i : nat) : analyzer :=
  match nth_error (a_runs a) i, find_n (a_cache a) i with
  | Some r, None => {| a_runs := a_runs a; a_cache := a_cache a ++ [(i, run_coverage design r)] |}
  | _, _ => a
  end.
(* src/fault.cc:166-198: after the coverage of every run is in the cache *)
Definition fill (design : list cstmt) (a : analyzer) : analyzer :=
  fold_left (compute design) (seq 0 (length (a_runs a))) a.
Definition counted (a : analyzer) (w : bool) : list nat :=
  flat_map (fun e => match nth_error (a_runs a) (fst e) with
                     | Some r => if Bool.eqb (r_wrong r) w then snd e else []
                     | None => [] end) (a_cache a).
Definition fault_stmts (a : analyzer) : list nat :=
  nodup Nat.eq_dec (filter (fun s => negb (existsb (Nat.eqb s) (counted a false))) (counted a true)).
Definition analyze (design : list cstmt) (a : analyzer) : list nat := fault_stmts (fill design a).
(* src/fault.cc:31-45, 99-104 for the runs *)
Definition do_op (design : list cstmt) (a : analyzer) (o : cop) : analyzer :=
  match o with
  | Compute i => compute design a i
  | Analyze => fill design a
  | _ => {| a_runs := do_run (a_runs a) o; a_cache := a_cache a |}
  end.
Definition fresh : analyzer := {| a_runs := []; a_cache := [] |}.

(* src/fault.cc:381-424: the numbers of the coverage report.  lines and blocks with debug
   information, the enclosing block with debug information of a line (has_parent), the coverages. *)
Definition branch_hits (covs : list (list nat)) : list nat := nodup Nat.eq_dec (concat covs).
Definition line_hits (lines : list nat) (parent : nat -> option nat) (covs : list (list nat)) : list nat :=
  filter (fun l => match parent l with Some b => existsb (Nat.eqb b) (branch_hits covs) | None => false end) lines.
