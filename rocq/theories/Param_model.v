(* Model of parameters and what depends on them, src/expr.cc:314-402, 1147-1237, src/sim.cc:723-735. *)
From Verif Require Import Base IR IRSem_spec Eval_model Sim_model Const_model.
Local Open Scope Z_scope.

(* parameters and variables are identified by numbers; an expression over parameters has the
   parameters as its variables *)
Definition param := nat.
Definition xid := nat.
(* src/expr.hh:73-330 Var: var_width_, width_param_, size_, size_param_; src/expr.hh:474-531 Param: value_,
   param_vars_width_, param_vars_size_, param_params_, parent_param_ of the objects.  The sets are lists
   without an order of their own: C++ iterates over unordered sets and sets of addresses *)
Record pstate := {
  value : param -> Z; wvars : param -> list xid; svars : param -> list (xid * nat * expr);
  links : param -> list param; parent : param -> option param;
  vwidth : xid -> Z; wparam : xid -> option expr; sizes : xid -> list Z; sparam : xid -> nat -> option expr }.
Definition upd1 {A : Type} (f : nat -> A) (x : nat) (a : A) : nat -> A := fun y => if Nat.eqb y x then a else f y.
Definition with_value st p v := {| value := upd1 (value st) p v; wvars := wvars st; svars := svars st; links := links st; parent := parent st; vwidth := vwidth st; wparam := wparam st; sizes := sizes st; sparam := sparam st |}.
Definition with_wvars st w := {| value := value st; wvars := w; svars := svars st; links := links st; parent := parent st; vwidth := vwidth st; wparam := wparam st; sizes := sizes st; sparam := sparam st |}.
Definition with_vwidth st w := {| value := value st; wvars := wvars st; svars := svars st; links := links st; parent := parent st; vwidth := w; wparam := wparam st; sizes := sizes st; sparam := sparam st |}.
Definition with_wparam st w := {| value := value st; wvars := wvars st; svars := svars st; links := links st; parent := parent st; vwidth := vwidth st; wparam := w; sizes := sizes st; sparam := sparam st |}.
Definition with_size st sv sz sp := {| value := value st; wvars := wvars st; svars := sv; links := links st; parent := parent st; vwidth := vwidth st; wparam := wparam st; sizes := sz; sparam := sp |}.
Definition with_link st l pa := {| value := value st; wvars := wvars st; svars := svars st; links := l; parent := pa; vwidth := vwidth st; wparam := wparam st; sizes := sizes st; sparam := sparam st |}.

Definition entry_eq_dec (a b : xid * nat * expr) : {a = b} + {a <> b}.
Proof. decide equality; [apply expr_eq_dec|decide equality; apply Nat.eq_dec]. Defined.
(* emplace and erase of the sets *)
Definition add_nat (x : nat) (l : list nat) : list nat := if in_dec Nat.eq_dec x l then l else x :: l.
Definition add_entry (x : xid * nat * expr) (l : list (xid * nat * expr)) := if in_dec entry_eq_dec x l then l else x :: l.
Definition on_params {A : Type} (ps : list param) (g : A -> A) (f : param -> A) : param -> A :=
  fun p => if in_dec Nat.eq_dec p ps then g (f p) else f p.
Definition set_nth_z (l : list Z) (n : nat) (v : Z) : list Z := firstn n l ++ match skipn n l with [] => [] | _ :: r => v :: r end.

Section Params.
  Variable pow : Z -> Z -> outcome Z.
  (* declared width and signedness of the parameters; the constant slices taken of a variable, each with
     one pair of bounds per dimension, in the order of the dimensions *)
  Variable G : tenv.
  Variable slices : xid -> list (list (Z * Z)).

  (* src/sim.cc:723-735  Simulator::static_evaluate_expr *)
  Definition static_eval (vals : param -> Z) (e : expr) : outcome Z :=
    olet r := sim_eval pow G (fun p => Some (u64 (vals p))) e in
    match r with
    | None => Throw
    | Some v => if to_i64 v <=? 0 then Throw else Ok v
    end.
  (* src/expr.cc:53-59  Var::width of a variable that is not a slice *)
  Definition width (st : pstate) (x : xid) : outcome Z :=
    olet w := match wparam st x with Some e => omap u32 (static_eval (value st) e) | None => Ok (vwidth st x) end in
    Ok (fold_left (fun w i => u32 (w * i)) (sizes st x) w).

  (* src/expr.cc:325-350  Var::set_width_param; taking the parameter away (326-336) adds the variable to the
     set of the parameter once more instead of removing it *)
  Definition set_width_param (st : pstate) (x : xid) (e : option expr) : outcome pstate :=
    match e with
    | None =>
        let st1 := match wparam st x with Some e => with_wvars st (on_params (evars e) (add_nat x) (wvars st)) | None => st end in
        Ok (with_wparam st1 (upd1 (wparam st1) x None))
    | Some e =>
        olet v := static_eval (value st) e in
        let st1 := with_vwidth st (upd1 (vwidth st) x (u32 v)) in
        let st2 := with_wparam st1 (upd1 (wparam st1) x (Some e)) in
        Ok (with_wvars st2 (on_params (evars e) (add_nat x) (wvars st2)))
    end.

  (* src/expr.cc:379-391: the slice does not fit dimension i any more *)
  Definition too_small (i : nat) (d : Z) (sl : list (Z * Z)) : bool :=
    match nth_error sl i with Some (hi, lo) => (hi >=? d) || (lo >=? d) | None => false end.
  (* src/expr.cc:354-402  Var::set_size_param of a variable or port *)
  Definition set_size_param (st : pstate) (x : xid) (i : nat) (e : option expr) : outcome pstate :=
    if (List.length (sizes st x) <=? i)%nat then Throw else
    match e with
    | None =>
        Ok match sparam st x i with
           | Some e => with_size st (on_params (evars e) (fun l => remove entry_eq_dec (x, i, e) l) (svars st)) (sizes st)
                         (upd1 (sparam st) x (upd1 (sparam st x) i None))
           | None => st
           end
    | Some e =>
        olet d := static_eval (value st) e in
        if existsb (too_small i d) (slices x) then Throw else
        Ok (with_size st (on_params (evars e) (add_entry (x, i, e)) (svars st))
              (upd1 (sizes st) x (set_nth_z (sizes st x) i (u32 d))) (upd1 (sparam st) x (upd1 (sparam st x) i (Some e))))
    end.

  (* src/expr.cc:1190-1193 *)
  Fixpoint refresh (l : list (xid * nat * expr)) (st : pstate) : outcome pstate :=
    match l with
    | [] => Ok st
    | (x, i, e) :: l => olet st := set_size_param st x i (Some e) in refresh l st
    end.
  (* src/expr.cc:1175-1199  Param::set_value(int64_t).  The recursion of C++ is bounded by the fuel: without
     fuel the stack overflows.  An exception leaves what was changed so far; that state is not modelled *)
  Fixpoint set_value (fuel : nat) (p : param) (v : Z) (st : pstate) {struct fuel} : outcome pstate :=
    match fuel with
    | O => UB
    | S fuel =>
        if (v <=? 0) && match wvars st p with [] => false | _ => true end then Throw else
        olet k := is_legal v (d_width (G p)) (d_signed (G p)) in
        match k with
        | Legal =>
            let st1 := with_value st p v in
            let st2 := with_vwidth st1 (fold_left (fun f x => upd1 f x (u32 v)) (wvars st1 p) (vwidth st1)) in
            olet st3 := refresh (svars st2 p) st2 in
            (fix chain (l : list param) (st : pstate) : outcome pstate :=
               match l with
               | [] => Ok st
               | q :: l => olet st := set_value fuel q v st in chain l st
               end) (links st3 p) st3
        | _ => Throw
        end
    end.
  (* src/expr.cc:1228-1235  Param::set_value(const std::shared_ptr<Param> &) of an integer parameter *)
  Definition set_from (fuel : nat) (q p : param) (st : pstate) : outcome pstate :=
    let st1 := with_link st (upd1 (links st) p (add_nat q (links st p))) (upd1 (parent st) q (Some p)) in
    set_value fuel q (value st1 p) st1.

  (* what a user can do *)
  Inductive action : Type :=
  | SetValue (p : param) (v : Z)                    (* param.set_value(int) *)
  | SetFrom (q p : param)                           (* q.set_value(p) *)
  | SetWidth (x : xid) (e : option expr)            (* var.set_width_param *)
  | SetSize (x : xid) (i : nat) (e : option expr).  (* var.set_size_param *)
  Definition act (fuel : nat) (a : action) (st : pstate) : outcome pstate :=
    match a with
    | SetValue p v => set_value fuel p v st
    | SetFrom q p => set_from fuel q p st
    | SetWidth x e => set_width_param st x e
    | SetSize x i e => set_size_param st x i e
    end.
End Params.
