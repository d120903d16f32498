(* Model of the built-in simulator, src/sim.cc: expression evaluation, procedural blocks and
   slice access.  Scalar variables (size {1}) for expressions and statements. *)
From Verif Require Import Base IR IRSem_spec Eval_model.
Local Open Scope Z_scope.

(* values_: no entry is None *)
Definition sim_vals := var -> option Z.

(* src/expr.cc:27-51: UAnd and the Minus tag of Var::operator-() are not unary operators here *)
Definition is_unary_op (op : expr_op) : bool :=
  match op with UXor | UPlus | UOr | UNot | UInvert | UMinus => true | _ => false end.

(* src/expr.cc:742-793 the signedness kratos gives to an expression: 778-781 for operators, 491-493 slices,
   795-804 and 1292-1313 concatenations, 1336 extensions *)
Fixpoint ksigned (G : tenv) (e : expr) : bool :=
  match e with
  | EVar x => d_signed (G x)
  | EConst _ _ s => s
  | EUn _ a => ksigned G a
  | EBin _ a b => ksigned G a && ksigned G b
  | ECond _ a b => ksigned G a && ksigned G b
  | ESlice _ _ _ => false
  | EConcat a _ => ksigned G a
  | EExtend e _ => ksigned G e
  end.

(* src/sim.cc:765-837 eval_expr with 197-268 get_value_ and 350-358 get_complex_value_ for
   scalars.  The declared width of a node is ewidth, its signedness ksigned
   (src/expr.cc:742-793).  None is std::nullopt.  A slice is read by get_slice below and is
   not an expression of this function (Throw stands for "not modelled"). *)
Section Eval.
  Variable pow : Z -> Z -> outcome Z.
  Variable G : tenv.
  Fixpoint sim_eval (m : sim_vals) (e : expr) : outcome (option Z) :=
    match e with
    | EVar x => Ok (m x)
    (* Const::value() is an int64_t converted to uint64_t *)
    | EConst v _ _ => Ok (Some (u64 v))
    | EUn op a =>
        olet l := sim_eval m a in
        match l with
        | None => Ok None
        | Some l =>
            (* the right operand is a null pointer, whose value is nullopt *)
            if is_unary_op op then omap Some (eval_unary_op l op (ewidth G e)) else Ok None
        end
    | EBin op a b =>
        olet l := sim_eval m a in
        match l with
        | None => Ok None
        | Some l =>
            olet r := sim_eval m b in
            match r with
            | None => Ok None
            | Some r => omap Some (eval_bin_op pow l r op (ewidth G e) (ksigned G e))
            end
        end
    | ECond c a b =>
        olet l := sim_eval m a in
        match l with
        | None => Ok None
        | Some l =>
            olet r := sim_eval m b in
            olet p := sim_eval m c in
            match p with
            | None => Ok r
            | Some p =>
                (* *right_val of an empty optional *)
                match r with
                | None => UB
                | Some r => omap Some (eval_ternary_op (negb (p =? 0)) l r (ewidth G e))
                end
            end
        end
    | EConcat a b =>
        olet lo := sim_eval m b in
        match lo with
        | None => Ok None
        | Some lo =>
            olet hi := sim_eval m a in
            match hi with
            | None => Ok None
            | Some hi => olet h := shl64 hi (ewidth G b) in Ok (Some (Z.lor lo h))
            end
        end
    | EExtend a w =>
        olet v := sim_eval m a in
        match v with
        | None => Ok None
        | Some v =>
            if ksigned G e then
              olet top := shr64 v (u32 (w - 1)) in
              if top =? 0 then Ok (Some v)
              else
                (* v |= 1u << i: int arithmetic, undefined from bit 32 on *)
                if 32 <? w then UB
                else Ok (Some (Z.lor v (Z.shiftl (Z.ones (w - ewidth G a)) (ewidth G a))))
            else Ok (Some v)
        end
    | ESlice _ _ _ => Throw
    end.
End Eval.

(* src/sim.cc:593-721  process_stmt.  State: values_ and nba_values_ in insertion order; targets
   are whole scalar variables.  Events queued for other processes are not part of the state. *)
Record sim_state := { ss_vals : sim_vals; ss_nba : list (var * Z) }.
Definition set_val (m : sim_vals) (x : var) (v : Z) : sim_vals :=
  fun y => if Nat.eqb y x then Some v else m y.
(* unordered_map::emplace does nothing when the key is present *)
Definition nba_emplace (l : list (var * Z)) (x : var) (v : Z) : list (var * Z) :=
  if existsb (fun p => Nat.eqb (fst p) x) l then l else l ++ [(x, v)].
(* src/sim.cc:676: 0xFFFFFFFFFFFFFFFF >> target->width() *)
Definition case_bits (w k : Z) : outcome Z :=
  olet m := shr64 UINT64_MASK w in Ok (Z.land (u64 k) m).

Section Stmts.
  Variable pow : Z -> Z -> outcome Z.
  Variable G : tenv.
  Fixpoint sim_stmt (s : stmt) (st : sim_state) : outcome sim_state :=
    let fix blk (l : list stmt) (st : sim_state) : outcome sim_state :=
      match l with
      | [] => Ok st
      | s :: r => olet st' := sim_stmt s st in blk r st'
      end in
    match s with
    | SAssign k l e =>
        olet v := sim_eval pow G (ss_vals st) e in
        match v with
        | None => Ok st
        | Some v =>
            match l with
            | LVar x =>
                match k with
                | NonBlocking => Ok {| ss_vals := ss_vals st; ss_nba := nba_emplace (ss_nba st) x v |}
                | _ => Ok {| ss_vals := set_val (ss_vals st) x v; ss_nba := ss_nba st |}
                end
            | _ => Throw (* slices: not modelled here *)
            end
        end
    | SIf c t f =>
        olet v := sim_eval pow G (ss_vals st) c in
        match v with
        | Some v => if negb (v =? 0) then blk t st else blk f st
        | None => blk f st
        end
    | SSwitch e cs d =>
        olet v := sim_eval pow G (ss_vals st) e in
        let def := match d with None => Ok st | Some b => blk b st end in
        match v with
        | None => def
        | Some v =>
            (* the map is ordered by address; its constants are distinct *)
            (fix pick (l : list (Z * list stmt)) : outcome sim_state :=
               match l with
               | [] => def
               | cb :: r =>
                   olet bits := case_bits (ewidth G e) (fst cb) in
                   if v =? bits then blk (snd cb) st else pick r
               end) cs
        end
    | SBlock b => blk b st
    | _ => Throw (* "Not implemented" *)
    end.
  Fixpoint sim_block (l : list stmt) (st : sim_state) : outcome sim_state :=
    match l with
    | [] => Ok st
    | s :: r => olet st' := sim_stmt s st in sim_block r st'
    end.
  Fixpoint sim_pick (v w : Z) (l : list (Z * list stmt)) (d : option (list stmt)) (st : sim_state)
    : outcome sim_state :=
    match l with
    | [] => match d with None => Ok st | Some b => sim_block b st end
    | cb :: r =>
        olet bits := case_bits w (fst cb) in
        if v =? bits then sim_block (snd cb) st else sim_pick v w r d st
    end.
End Stmts.
(* src/sim.cc:712-718: the queued values are stored in the order [order] in which the
   unordered_map is walked *)
Definition apply_nba (order : list (var * Z)) (m : sim_vals) : sim_vals :=
  fold_left (fun m p => set_val m (fst p) (snd p)) order m.

(* ---- slices ---- *)
(* src/util.cc:165-207  compute_var_high_low.  Indices past the end of bases are read out of
   bounds: UB.  uint32_t wrap-around is not modelled. *)
Fixpoint bases_of (sizes : list Z) (w : Z) : list Z :=
  match sizes with
  | [] => []
  | _ :: r => fold_left Z.mul r 1 * w :: bases_of r w
  end.
Fixpoint bit_loop (index : list (Z * Z)) (low high : Z) : Z * Z :=
  match index with
  | [] => (high, low)
  | (h, l) :: r => bit_loop r (low + l) (low + l + (h - l))
  end.
Fixpoint dim_loop (index : list (Z * Z)) (sizes bases : list Z) (w low high : Z) : outcome (Z * Z) :=
  match index with
  | [] => Ok (high, low)
  | (h, l) :: r =>
      if h >? l then
        match bases with
        | [] => UB
        | b :: _ =>
            let low' := low + l * b * w in
            dim_loop r sizes bases w low' (low' + (h - l + 1) * b * w - 1)
        end
      else match sizes, bases with
           | s :: ss, b :: bs =>
               if (h =? l) && (s >? 1)
               then dim_loop r ss bs w (low + l * b) (low + l * b + (h - l + 1) * b - 1)
               else Ok (bit_loop index low high)
           | _, _ => Ok (bit_loop index low high)
           end
  end.
Definition compute_var_high_low (sizes : list Z) (w : Z) (index : list (Z * Z)) : outcome (Z * Z) :=
  dim_loop index sizes (bases_of sizes w) w 0 0.
Definition total_width (sizes : list Z) (w : Z) : Z := w * fold_left Z.mul sizes 1.

(* src/sim.cc:214-246  get_value_ of a slice that is itself scalar; [values]: the words of the
   root variable (one for a scalar) *)
Definition get_slice (sizes : list Z) (w : Z) (values : list Z) (index : list (Z * Z)) : outcome Z :=
  olet hl := compute_var_high_low sizes w index in
  let '(var_high, var_low) := hl in
  if var_high + 1 - var_low >? total_width sizes w then Throw else
  let base := var_low / w in
  let low := var_low mod w in
  let high := var_high mod w in
  match nth_error values (Z.to_nat base) with
  | None => UB
  | Some value =>
      olet v := shr64 value low in
      olet m := shl64 UINT64_MASK (high + 1) in
      Ok (Z.land v (not64 m))
  end.
(* src/sim.cc:279-318  set_value_ of a slice *)
Fixpoint set_nth (l : list Z) (n : nat) (v : Z) : list Z :=
  match l, n with
  | [], _ => []
  | _ :: r, O => v :: r
  | x :: r, S m => x :: set_nth r m v
  end.
Definition set_slice (sizes : list Z) (w : Z) (values : list Z) (index : list (Z * Z)) (value : Z)
  : outcome (list Z) :=
  olet hl := compute_var_high_low sizes w index in
  let '(var_high, var_low) := hl in
  if var_high + 1 - var_low >? total_width sizes w then Throw else
  let base := var_low / w in
  let high := var_high - base * w in
  let low := var_low - base * w in
  match nth_error values (Z.to_nat base) with
  | None => UB
  | Some v =>
      olet m1 := shr64 UINT64_MASK (high + 1) in
      olet mask := shr64 m1 low in
      let v1 := Z.land v (not64 mask) in
      olet m2 := shr64 UINT64_MASK (high - low + 1) in
      olet sh := shl64 (Z.land value m2) low in
      Ok (set_nth values (Z.to_nat base) (Z.lor v1 sh))
  end.
