(* Model of the insertion of clock enables and synchronous resets into one sequential process,
   src/optimize.cc:618-656, 709-774, 855-918.  The bodies are copied by the code (clone); here a
   statement is a value.  Casts are not modelled; the attributes dont_touch and the wiring of the
   new ports between the modules are not modelled. *)
From Verif Require Import Base IR IRSem_spec Gate_spec.
Local Open Scope Z_scope.

(* src/optimize.cc:618-642 has_port_type *)
Fixpoint has_type (pt : ports) (ty : ptype) (e : expr) : bool :=
  match e with
  | EVar x => ptype_eqb (pt x) ty
  | EUn _ a => has_type pt ty a
  | EBin _ a b => has_type pt ty a && has_type pt ty b
  | ECond _ a b => has_type pt ty a && has_type pt ty b (* left and right *)
  | EExtend a _ => has_type pt ty a
  | EConst _ _ _ | ESlice _ _ _ | EConcat _ _ => false
  end.
(* src/optimize.cc:747-767 has_clk_en_stmt: the first statement is an if on an enable port *)
Definition has_clk_en (pt : ports) (l : list stmt) : bool :=
  match l with
  | SIf (EVar x) _ _ :: _ => ptype_eqb (pt x) ClockEnable
  | _ => false
  end.
(* src/optimize.cc:709-740 visit(SequentialStmtBlock) *)
Definition insert_enable (pt : ports) (en : var) (body : list stmt) : list stmt :=
  let whole := if has_clk_en pt body then body else [SIf (EVar en) body []] in
  match body with
  | [] => []
  | [SIf c t f] =>
      if has_type pt AsyncReset c || has_type pt SyncReset c then
        if has_clk_en pt f then body else [SIf c t [SIf (EVar en) f []]]
      else whole
  | _ => whole
  end.

(* src/optimize.cc:865-917 inject_reset_logic; over: the option over_clk_en *)
Definition insert_reset (pt : ports) (over : bool) (rst : var) (body : list stmt) : list stmt :=
  match body with
  | [SIf c t f] =>
      if negb (has_type pt AsyncReset c) || has_type pt SyncReset c then body
      else
        let plain := [SIf c t [SIf (EVar rst) t f]] in
        match f with
        | [SIf e t2 f2] =>
            if has_type pt ClockEnable e && negb over then
              let inner := [SIf c t [SIf e [SIf (EVar rst) t t2] f2]] in
              match t2 with
              | SIf c2 _ _ :: _ => if has_type pt SyncReset c2 then body else inner
              | _ => inner
              end
            else if has_type pt SyncReset e then body
            else plain
        | _ => plain
        end
  | _ => body
  end.
Arguments insert_enable pt en%nat_scope body.
Arguments insert_reset pt over rst%nat_scope body.
