(* What it means that a statement is executed, and which blocks the checks are sound for. *)
From Verif Require Import Base SV_spec IR IRSem_spec.
Local Open Scope Z_scope.

(* the branch a case statement takes *)
Definition chosen (v w : Z) (cs : list (Z * list stmt)) (d : option (list stmt)) : option (list stmt) :=
  match find (fun cb => v =? enc w (fst cb)) cs with
  | Some cb => Some (snd cb)
  | None => d
  end.
(* the state in which one iteration of a loop starts *)
Definition iter_state (G : tenv) (i : var) (v : Z) (st : pstate) : pstate :=
  {| st_cur := upd (st_cur st) i (enc (d_width (G i)) v); st_nba := st_nba st; st_status := st_status st |}.

(* running the block l from the state st executes a statement satisfying P *)
Section Hits.
  Variable G : tenv.
  Variable P : stmt -> Prop.
  Inductive hits : list stmt -> pstate -> Prop :=
  | hit_here : forall s l st, P s -> hits (s :: l) st
  | hit_next : forall s l st, st_status (exec G s st) = Running -> hits l (exec G s st) -> hits (s :: l) st
  | hit_then : forall c t f l st, truth G (st_cur st) c = true -> hits t st -> hits (SIf c t f :: l) st
  | hit_else : forall c t f l st, truth G (st_cur st) c = false -> hits f st -> hits (SIf c t f :: l) st
  | hit_case : forall e cs d b l st,
      chosen (ev G (st_cur st) e) (ewidth G e) cs d = Some b -> hits b st -> hits (SSwitch e cs d :: l) st
  | hit_block : forall b l st, hits b st -> hits (SBlock b :: l) st
  | hit_for : forall i a b s body l st, hits_loop i body (for_values a b s) st ->
      hits (SFor i a b s body :: l) st
  with hits_loop : var -> list stmt -> list Z -> pstate -> Prop :=
  | loop_now : forall i body v vs st, hits body (iter_state G i v st) -> hits_loop i body (v :: vs) st
  | loop_next : forall i body v vs st,
      st_status (run G body (iter_state G i v st)) = Running ->
      hits_loop i body vs (run G body (iter_state G i v st)) -> hits_loop i body (v :: vs) st.
End Hits.

(* s assigns x, all of it or a part *)
Definition assigns (x : var) (s : stmt) : Prop :=
  exists k l e, s = SAssign k l e /\ lhs_var l = x.
(* loops that iterate at least once, no break; case constants distinct and in the range of a
   selector of less than 32 bits *)
Definition regular (G : tenv) (body : list stmt) : Prop :=
  forall s, inside s body ->
    match s with
    | SFor _ a b st _ => for_values a b st <> []
    | SSwitch e cs _ => wt G e /\ ewidth G e < 32 /\ NoDup (map fst cs)
                        /\ Forall (fun cb => 0 <= fst cb < 2 ^ ewidth G e) cs
    | SBreak => False
    | _ => True
    end.
Definition no_return (body : list stmt) : Prop := forall e, ~ inside (SReturn e) body.

(* the value a reader of x sees *)
Definition seen (G : tenv) (r : venv) (x : var) : Z := enc (d_width (G x)) (r x).
(* the expressions a statement itself evaluates *)
Definition stmt_reads (s : stmt) : list var :=
  match s with
  | SAssign _ l e => match l with LDyn _ i _ => evars i | _ => [] end ++ evars e
  | SIf c _ _ => evars c
  | SSwitch e _ _ => evars e
  | SReturn e => evars e
  | _ => []
  end.
(* what a block reads *)
Definition reads (body : list stmt) (x : var) : Prop :=
  exists s, inside s body /\ In x (stmt_reads s).
(* a block of blocking assignments with sensible targets *)
Definition combinational (G : tenv) (body : list stmt) : Prop :=
  forall k l e, inside (SAssign k l e) body ->
    k <> NonBlocking /\
    match l with LVar _ => True | LSlice _ hi lo => 0 <= lo <= hi | LDyn _ i w => 0 <= w /\ wt G i end.
(* x is assigned in the block, always as a whole *)
Definition whole_target (x : var) (body : list stmt) : Prop :=
  (exists k e, inside (SAssign k (LVar x) e) body)
  /\ forall k l e, inside (SAssign k l e) body -> lhs_var l = x -> l = LVar x.

(* from the shape of the block alone, a statement satisfying P is executed *)
Inductive surely (G : tenv) (P : stmt -> Prop) : list stmt -> Prop :=
| sure_here l s : In s l -> P s -> surely G P l
| sure_if l c t f : In (SIf c t f) l -> surely G P t -> surely G P f -> surely G P l
| sure_default l e cs d : In (SSwitch e cs (Some d)) l -> (forall k b, In (k, b) cs -> surely G P b) -> surely G P d -> surely G P l
| sure_cases l e cs : In (SSwitch e cs None) l -> cs <> [] -> (forall k b, In (k, b) cs -> surely G P b) -> Z.of_nat (length cs) = 2 ^ ewidth G e -> surely G P l
| sure_for l i a b st body : In (SFor i a b st body) l -> surely G P body -> surely G P l
| sure_block l body : In (SBlock body) l -> surely G P body -> surely G P l.
(* selectors of less than 32 bits *)
Definition narrow (G : tenv) (body : list stmt) : Prop := forall e cs d, inside (SSwitch e cs d) body -> ewidth G e < 32.
