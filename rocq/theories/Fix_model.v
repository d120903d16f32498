(* Assigning expressions with loop variables: src/expr.cc:2116-2242, 806-818, src/stmt.cc:133-176, src/expr.cc:1017-1034, 1063-1072, 1123-1129. *)
From Verif Require Import Base Const_model Loop_model Fix_spec.
Local Open Scope Z_scope.
Local Open Scope list_scope.

(* the assignment to width_ in src/expr.cc:1063-1072, of one constant *)
Definition upd (st : store) (c : nat) (k : const) : store := fun x => if Nat.eqb x c then k else st x.
(* src/expr.cc:53-59, 806-818; None is the exception *)
Fixpoint width (st : store) (s : sig) : option Z :=
  match s with
  | Loop _ => Some 32
  | Lit c => Some (c_width (st c))
  | Signal _ w | Sized w _ | Part w _ => Some w
  | Op2 o _ a b =>
      match o with
      | Lt => Some 1
      | _ => match width st a, width st b with Some x, Some y => if x =? y then Some x else None | _, _ => None end
      end
  end.
(* src/expr.cc:2205-2216; a slice is looked at through what it is taken of *)
Fixpoint has_iter (s : sig) : bool :=
  match s with Loop _ => true | Lit _ | Signal _ _ | Sized _ _ => false | Part _ s => has_iter s | Op2 _ _ a b => has_iter a || has_iter b end.
(* src/expr.cc:2123-2132 extract_iter_var: not through slices *)
Fixpoint ranges (s : sig) : list (Z * Z) :=
  match s with Loop i => [(l_min i, l_max i)] | Op2 _ _ a b => ranges a ++ ranges b | _ => [] end.
(* src/expr.cc:2218-2240: the expression, whose parts are changed in place, the constants, and whether it returned.  A parameter is a
   constant here (src/expr.hh:476) *)
Fixpoint fix_width (st : store) (s : sig) (w : Z) : store * sig * outcome unit :=
  match s with
  | Loop i => (st, Sized w (Loop i), Ok tt)
  | Lit c => match set_width (st c) w with Ok k => (upd st c k, Lit c, Ok tt) | Throw => (st, Lit c, Throw) | UB => (st, Lit c, UB) end
  | Op2 o sg a b =>
      match fix_width st a w with
      | (st1, a1, Ok _) => match fix_width st1 b w with (st2, b1, r) => (st2, Op2 o sg a1 b1, r) end
      | (st1, a1, r) => (st1, Op2 o sg a1 b, r)
      end
  | Signal _ _ | Sized _ _ | Part _ _ => (st, s, Throw)
  end.
(* the comparison of widths in src/stmt.cc:160-165; an exception of width() ends it as well *)
Definition same_width (lw : Z) (w : option Z) : bool := match w with Some w => lw =? w | None => false end.
Section A.
  (* what the simulator gives for an expression other than a loop variable, when its loop variables have these values *)
  Variable other : sig -> list Z -> option Z.
  (* src/expr.cc:2134-2149; what the simulator does with other expressions is a parameter *)
  Definition value (s : sig) (l : list Z) : option Z := match s with Loop _ => match l with [v] => Some v | _ => None end | _ => other s l end.
  (* src/expr.cc:2187-2203; without loop variables that are found only a root that is a variable or a port is looked at (2151-2156), and here
     it is a loop variable *)
  Definition safe (s : sig) (w : Z) (sg : bool) : bool := match ranges s with [] => true | l => safe_to_resize (value s) l w sg end.
  (* src/stmt.cc:133-176 for an expression that is no constant (that is in Assign_model), without the check of packing: the constants, the
     expression, and the right hand side of the statement *)
  Definition assign (st : store) (lw : Z) (lsg : bool) (r : sig) : store * sig * outcome sig :=
    if negb (Bool.eqb lsg (signed st r)) then (st, r, Throw)
    else match width st r with
    | None => (st, r, Throw)
    | Some w =>
      if lw =? w then (st, r, Ok r)
      else if has_iter r then
        if safe r lw lsg then
          match fix_width st r lw with
          | (st1, r1, Ok _) =>
              let s1 := match r with Loop _ => r | _ => r1 end in
              if same_width lw (width st1 r1) then (st1, s1, Ok r1) else (st1, s1, Throw)
          | (st1, r1, Throw) => (st1, r1, Throw)
          | (st1, r1, UB) => (st1, r1, UB)
          end
        else (st, r, Throw)
      else (st, r, Throw)
    end.
End A.
