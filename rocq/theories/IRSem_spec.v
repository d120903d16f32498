(* Independent specification: the two-state SystemVerilog meaning of the statement
   trees of IR.v, as the IEEE 1800 scheduling and operator rules give it for one
   activation of a procedural block.  Nothing here refers to a kratos pass.
   Simplifications: operands have the widths kratos requires (so no implicit
   context extension arises, see Build_props.v); division by zero, which is x in SystemVerilog, is 0;
   powers are meant for non-negative exponents.
   Reading a variable truncates to its declared width. *)
From Verif Require Import Base SV_spec IR.
Local Open Scope Z_scope.

Record decl := { d_width : Z; d_signed : bool }.
Definition tenv := var -> decl.
Definition venv := var -> Z.

Definition is_rel (op : expr_op) : bool :=
  match op with
  | LessThan | GreaterThan | LessEqThan | GreaterEqThan | Eq | Neq | LAnd | LOr => true
  | _ => false
  end.
Definition is_red (op : expr_op) : bool :=
  match op with UOr | UAnd | UXor | UNot => true | _ => false end.

Fixpoint ewidth (G : tenv) (e : expr) : Z :=
  match e with
  | EVar x => d_width (G x)
  | EConst _ w _ => w
  | EUn op a => if is_red op then 1 else ewidth G a
  | EBin op a _ => if is_rel op then 1 else ewidth G a
  | ECond _ a _ => ewidth G a
  | ESlice _ hi lo => hi - lo + 1
  | EConcat a b => ewidth G a + ewidth G b
  | EExtend _ w => w
  end.
Definition is_shift (op : expr_op) : bool :=
  match op with ShiftLeft | LogicalShiftRight | SignedShiftRight => true | _ => false end.
(* IEEE 1800-2017 11.8.1: comparisons, reductions, selects and concatenations are unsigned; a shift has the
   sign of its left operand; any other operator is signed when all its operands are *)
Definition sign2 (op : expr_op) (sa sb : bool) : bool := if is_shift op then sa else sa && sb.
Fixpoint esigned (G : tenv) (e : expr) : bool :=
  match e with
  | EVar x => d_signed (G x)
  | EConst _ _ s => s
  | EUn op a => negb (is_red op) && esigned G a
  | EBin op a b => negb (is_rel op) && sign2 op (esigned G a) (esigned G b)
  | ECond _ a b => esigned G a && esigned G b
  | ESlice e _ _ => false
  | EConcat _ _ => false
  | EExtend e _ => esigned G e
  end.

Definition bz (b : bool) : Z := if b then 1 else 0.

Definition sv_un (op : expr_op) (w v : Z) : Z :=
  match op with
  | UInvert => enc w (- v - 1)
  | UMinus => enc w (- v)
  | UPlus => v
  | UOr => bz (negb (v =? 0))
  | UNot => bz (v =? 0)
  | UAnd => bz (v =? 2 ^ w - 1)
  | UXor => bz (parity (Z.to_nat w) v)
  | Minus => enc w (- v)          (* Var::operator-() reuses the binary tag *)
  | _ => v
  end.

(* s: the operation is a signed one; w: operand width *)
Definition sv_bin (op : expr_op) (s : bool) (w l r : Z) : Z :=
  let a := num s w l in
  let b := num s w r in
  match op with
  | Add => enc w (a + b)
  | Minus => enc w (a - b)
  | Multiply => enc w (a * b)
  | Divide => enc w (Z.quot a b)
  | Mod => enc w (Z.rem a b)
  | Power => enc w (a ^ b)
  | ShiftLeft => enc w (l * 2 ^ r)
  | LogicalShiftRight => l / 2 ^ r
  | SignedShiftRight => enc w (num s w l / 2 ^ r)
  | And => Z.land l r
  | Or => Z.lor l r
  | Xor => Z.lxor l r
  | LAnd => bz (negb (l =? 0) && negb (r =? 0))
  | LOr => bz (negb (l =? 0) || negb (r =? 0))
  | LessThan => bz (a <? b)
  | LessEqThan => bz (a <=? b)
  | GreaterThan => bz (b <? a)
  | GreaterEqThan => bz (b <=? a)
  | Eq => bz (l =? r)
  | Neq => bz (negb (l =? r))
  | _ => 0
  end.

Fixpoint ev (G : tenv) (r : venv) (e : expr) : Z :=
  match e with
  | EVar x => enc (d_width (G x)) (r x)
  | EConst v w _ => enc w v
  | EUn op a => sv_un op (ewidth G a) (ev G r a)
  | EBin op a b =>
      sv_bin op (sign2 op (esigned G a) (esigned G b)) (ewidth G a) (ev G r a) (ev G r b)
  | ECond c a b => if ev G r c =? 0 then ev G r b else ev G r a
  | ESlice a hi lo => (ev G r a / 2 ^ lo) mod 2 ^ (hi - lo + 1)
  | EConcat a b => ev G r a * 2 ^ (ewidth G b) + ev G r b
  | EExtend a w => enc w (num (esigned G a) (ewidth G a) (ev G r a))
  end.
(* an if or a ?: takes its first branch when the predicate is not zero *)
Definition truth (G : tenv) (r : venv) (c : expr) : bool := negb (ev G r c =? 0).

(* the expressions kratos lets a user build: operands of equal width (except shift
   amounts), one-bit conditions, slices inside the operand (src/expr.cc:742-793, 491-580,
   1241-1330, 2373-2400) *)
Fixpoint wt (G : tenv) (e : expr) : Prop :=
  match e with
  | EVar x => 0 < d_width (G x)
  | EConst _ w _ => 0 < w
  | EUn _ a => wt G a
  | EBin op a b => wt G a /\ wt G b /\ (is_shift op = true \/ ewidth G a = ewidth G b)
  | ECond c a b => wt G c /\ wt G a /\ wt G b /\ ewidth G c = 1 /\ ewidth G a = ewidth G b
  | ESlice a hi lo => wt G a /\ 0 <= lo <= hi /\ hi < ewidth G a
  | EConcat a b => wt G a /\ wt G b
  | EExtend a w => wt G a /\ ewidth G a <= w
  end.

(* one variable update: bits [lo, lo+n) of x become v *)
Record write := { w_var : var; w_lo : Z; w_n : Z; w_val : Z }.
(* replace bits [lo, lo+n) of old by those of v *)
Definition put_bits (old lo n v : Z) : Z :=
  Z.lor (Z.ldiff old (Z.shiftl (Z.ones n) lo)) (Z.shiftl (v mod 2 ^ n) lo).
Definition upd (r : venv) (x : var) (v : Z) : venv :=
  fun y => if Nat.eqb y x then v else r y.
Definition do_write (r : venv) (u : write) : venv :=
  upd r (w_var u) (put_bits (r (w_var u)) (w_lo u) (w_n u) (w_val u)).

(* the bits an assignment target denotes at the moment the assignment runs *)
Definition target (G : tenv) (r : venv) (l : lhs) (v : Z) : write :=
  match l with
  | LVar x => {| w_var := x; w_lo := 0; w_n := d_width (G x); w_val := v |}
  | LSlice x hi lo => {| w_var := x; w_lo := lo; w_n := hi - lo + 1; w_val := v |}
  | LDyn x i w => {| w_var := x; w_lo := ev G r i * w; w_n := w; w_val := v |}
  end.

Inductive status := Running | Broken | Returned (v : Z).
(* current values, non-blocking writes still to be performed (oldest first), status *)
Record pstate := { st_cur : venv; st_nba : list write; st_status : status }.
Definition set_status (st : pstate) (k : status) : pstate :=
  {| st_cur := st_cur st; st_nba := st_nba st; st_status := k |}.

(* blocking (and untyped) assignments act at once, non-blocking ones are queued *)
Definition do_assign (G : tenv) (k : akind) (l : lhs) (e : expr) (st : pstate) : pstate :=
  let u := target G (st_cur st) l (ev G (st_cur st) e) in
  match k with
  | NonBlocking =>
      {| st_cur := st_cur st; st_nba := st_nba st ++ [u]; st_status := st_status st |}
  | _ =>
      {| st_cur := do_write (st_cur st) u; st_nba := st_nba st; st_status := st_status st |}
  end.

(* the values a loop variable takes: start, start+step, ... while it has not reached
   stop; a loop whose step leads away from stop, or is 0, is given no iterations *)
Definition for_values (start stop step : Z) : list Z :=
  let n :=
    if (start <? stop) && (0 <? step) then (stop - start + step - 1) / step
    else if (stop <? start) && (step <? 0) then (start - stop - step - 1) / (- step)
    else 0 in
  map (fun k => start + Z.of_nat k * step) (seq 0 (Z.to_nat n)).

Section Exec.
  Variable G : tenv.

  Fixpoint exec (s : stmt) (st : pstate) {struct s} : pstate :=
    let fix run (l : list stmt) (st : pstate) {struct l} : pstate :=
      match l with
      | [] => st
      | s :: r =>
          let st' := exec s st in
          match st_status st' with Running => run r st' | _ => st' end
      end in
    match s with
    | SAssign k l e => do_assign G k l e st
    | SIf c t f => if truth G (st_cur st) c then run t st else run f st
    | SSwitch e cs d =>
        let v := ev G (st_cur st) e in
        let w := ewidth G e in
        (fix pick (l : list (Z * list stmt)) : pstate :=
           match l with
           | [] => match d with None => st | Some b => run b st end
           | cb :: r => if v =? enc w (fst cb) then run (snd cb) st else pick r
           end) cs
    | SFor i a b step body =>
        (fix loop (vs : list Z) (st : pstate) : pstate :=
           match vs with
           | [] => st
           | v :: r =>
               let st1 := {| st_cur := upd (st_cur st) i (enc (d_width (G i)) v);
                             st_nba := st_nba st; st_status := st_status st |} in
               let st' := run body st1 in
               match st_status st' with
               | Running => loop r st'
               | Broken => set_status st' Running
               | Returned _ => st'
               end
           end) (for_values a b step) st
    | SBlock body => run body st
    | SReturn e => set_status st (Returned (ev G (st_cur st) e))
    | SBreak => set_status st Broken
    | SOther _ => st
    end.

  Fixpoint run (l : list stmt) (st : pstate) : pstate :=
    match l with
    | [] => st
    | s :: r =>
        let st' := exec s st in
        match st_status st' with Running => run r st' | _ => st' end
    end.
  Fixpoint pick (v w : Z) (cs : list (Z * list stmt)) (d : option (list stmt))
      (st : pstate) : pstate :=
    match cs with
    | [] => match d with None => st | Some b => run b st end
    | cb :: r => if v =? enc w (fst cb) then run (snd cb) st else pick v w r d st
    end.
  Fixpoint loop (i : var) (body : list stmt) (vs : list Z) (st : pstate) : pstate :=
    match vs with
    | [] => st
    | v :: r =>
        let st1 := {| st_cur := upd (st_cur st) i (enc (d_width (G i)) v);
                      st_nba := st_nba st; st_status := st_status st |} in
        let st' := run body st1 in
        match st_status st' with
        | Running => loop i body r st'
        | Broken => set_status st' Running
        | Returned _ => st'
        end
    end.
End Exec.

(* the effect of a whole activation: run the body, then perform the queued writes *)
Definition commit (st : pstate) : venv := fold_left do_write (st_nba st) (st_cur st).
Definition start_state (r : venv) : pstate :=
  {| st_cur := r; st_nba := []; st_status := Running |}.
Definition activate (G : tenv) (body : list stmt) (r : venv) : venv :=
  commit (run G body (start_state r)).

(* statement s occurs, at any depth, in a block *)
Inductive inside (s : stmt) : list stmt -> Prop :=
| in_here l : In s l -> inside s l
| in_then l c t f : In (SIf c t f) l -> inside s t -> inside s l
| in_else l c t f : In (SIf c t f) l -> inside s f -> inside s l
| in_case l e cs d k b : In (SSwitch e cs d) l -> In (k, b) cs -> inside s b -> inside s l
| in_default l e cs b : In (SSwitch e cs (Some b)) l -> inside s b -> inside s l
| in_for l i a b st body : In (SFor i a b st body) l -> inside s body -> inside s l
| in_block l body : In (SBlock body) l -> inside s body -> inside s l.

(* the variables an expression reads *)
Fixpoint evars (e : expr) : list var :=
  match e with
  | EVar x => [x]
  | EConst _ _ _ => []
  | EUn _ a => evars a
  | EBin _ a b => evars a ++ evars b
  | ECond c a b => evars c ++ evars a ++ evars b
  | ESlice a _ _ => evars a
  | EConcat a b => evars a ++ evars b
  | EExtend a _ => evars a
  end.
(* running the block may change x before the block ends: some assignment to it is not
   non-blocking, or it is the variable of a loop *)
Definition changes_now (x : var) (body : list stmt) : Prop :=
  (exists k l e, inside (SAssign k l e) body /\ k <> NonBlocking /\ lhs_var l = x)
  \/ (exists a b st bd, inside (SFor x a b st bd) body).
