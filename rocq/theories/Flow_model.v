(* Model of the control-flow checks of src/analysis.cc: check_stmt_condition, the function
   return check and the latch check. *)
From Verif Require Import Base IR IRSem_spec.
Local Open Scope Z_scope.

Section Check.
  Variable G : tenv.
  Variable cond : stmt -> bool.
  Variables unreachable full : bool.

  (* src/analysis.cc:447  1u << width, undefined from 32 on.  Enumerated targets (442-446) are
     not modelled. *)
  Definition target_cases (e : expr) : outcome Z :=
    if ewidth G e <? 32 then Ok (2 ^ ewidth G e) else UB.

  (* src/analysis.cc:396-478  check_stmt_condition.  In the map of cases the default has the
     null key and comes first. *)
  Fixpoint check (s : stmt) : outcome bool :=
    let fix blk (l : list stmt) : outcome bool :=
      match l with
      | [] => Ok false
      | s :: r =>
          olet b := check s in
          if b then (if unreachable then match r with [] => Ok true | _ => Throw end else Ok true)
          else blk r
      end in
    if cond s then Ok true else
    match s with
    | SBlock b => blk b
    | SSwitch e cs d =>
        match cs, d with
        | [], None => Ok false
        | _, _ =>
            (* count of cases found; None: return false at once *)
            let fix cases (l : list (Z * list stmt)) (n : Z) : outcome (option Z) :=
              match l with
              | [] => Ok (Some n)
              | cb :: r =>
                  olet b := blk (snd cb) in
                  if b then cases r (n + 1) else if full then Ok None else cases r n
              end in
            olet n0 := match d with
                       | None => Ok (Some 0)
                       | Some b => olet x := blk b in
                                   if x then Ok (Some 1) else if full then Ok None else Ok (Some 0)
                       end in
            match n0 with
            | None => Ok false
            | Some n0 =>
                olet n := cases cs n0 in
                match n with
                | None => Ok false
                | Some n =>
                    olet k := target_cases e in
                    if full then Ok (match d with Some _ => true | None => n =? k end)
                    else Ok (0 <? n)
                end
            end
        end
    | SIf _ t f =>
        olet x := blk t in
        if full then (if x then blk f else Ok false) else (if x then Ok true else blk f)
    | SFor _ _ _ _ b => blk b
    | _ => Ok false
    end.
  Fixpoint check_block (l : list stmt) : outcome bool :=
    match l with
    | [] => Ok false
    | s :: r =>
        olet b := check s in
        if b then (if unreachable then match r with [] => Ok true | _ => Throw end else Ok true)
        else check_block r
    end.
  Fixpoint check_cases (l : list (Z * list stmt)) (n : Z) : outcome (option Z) :=
    match l with
    | [] => Ok (Some n)
    | cb :: r =>
        olet b := check_block (snd cb) in
        if b then check_cases r (n + 1) else if full then Ok None else check_cases r n
    end.
End Check.

(* src/analysis.cc:480-511  FunctionReturnVisitor for one function body *)
Definition is_return (s : stmt) : bool := match s with SReturn _ => true | _ => false end.
Definition check_return (G : tenv) (body : list stmt) : outcome unit :=
  olet b := check_block G is_return true true body in
  if b then Ok tt else Throw.

(* src/analysis.cc:641-655  AssignedVarVisitor: targets sliced by a variable are skipped *)
Fixpoint assigned (s : stmt) : list var :=
  let fix blk (l : list stmt) : list var :=
    match l with [] => [] | s :: r => assigned s ++ blk r end in
  match s with
  | SAssign _ (LDyn _ _ _) _ => []
  | SAssign _ l _ => [lhs_var l]
  | SIf _ t f => blk t ++ blk f
  | SSwitch _ cs d =>
      (fix goc (l : list (Z * list stmt)) : list var :=
         match l with [] => [] | cb :: r => blk (snd cb) ++ goc r end) cs
      ++ match d with None => [] | Some b => blk b end
  | SFor _ _ _ _ b | SBlock b => blk b
  | _ => []
  end.
Fixpoint assigned_block (l : list stmt) : list var :=
  match l with [] => [] | s :: r => assigned s ++ assigned_block r end.
(* src/analysis.cc:548-566: any slice of the variable counts *)
Definition is_assign_to (x : var) (s : stmt) : bool :=
  match s with SAssign _ l _ => Nat.eqb (lhs_var l) x | _ => false end.
(* src/analysis.cc:544-579 check_stmt_block, 581-588 check_combinational.  Function calls are
   not modelled. *)
Definition latch_check (G : tenv) (body : list stmt) : outcome unit :=
  fold_left (fun acc x => olet _ := acc in
                          olet b := check_block G (is_assign_to x) false true body in
                          if b then Ok tt else Throw)
            (assigned_block body) (Ok tt).
(* src/analysis.cc:590-612 check_sequential for one if statement over a reset *)
Definition reset_check (G : tenv) (t f : list stmt) : outcome unit :=
  fold_left (fun acc x => olet _ := acc in
                          olet b := check_block G (is_assign_to x) false false f in
                          if b then Ok tt else Throw)
            (assigned_block t) (Ok tt).
