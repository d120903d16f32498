(* Model of the if-to-case pass, src/optimize.cc:17-114. *)
From Verif Require Import Base IR IRSem_spec.
Local Open Scope Z_scope.

(* src/optimize.cc:41-73 has_target_if.  [v]: the target found so far; [n]: how many ifs
   have been collected.  Result: None for false; Some of the collected ifs (constant,
   then body, else body) for true.  Simplifications: the identity test on the compared
   variable is equality of the expression; a Parameter on the right is its value. *)
Fixpoint has_target_if (s : stmt) (v : option expr) (n : nat)
  : option (list (Z * list stmt * list stmt)) :=
  match s with
  | SIf c t f =>
      match c with
      | EBin Eq l (EConst k _ _) =>
          if match v with None => true | Some v' => expr_eqb v' l end then
            match f with
            | [] => Some [(k, t, f)]
            | [s'] =>
                match has_target_if s' (Some l) (S n) with
                | Some ifs => Some ((k, t, f) :: ifs)
                | None => None
                end
            | _ :: _ :: _ => None
            end
          else None
      | _ => None
      end
  | _ => if Nat.leb n 1 then None else Some []
  end.

(* src/stmt.cc:548-573 SwitchStmt::add_switch_case for a block: statements are appended to
   the case that already has this value, otherwise a case is added.  body_ is a std::map
   ordered by pointer; the model keeps insertion order.  (add_stmt rejects a statement
   object that is already in the block; statements here have no identity.) *)
Fixpoint add_case (cs : list (Z * list stmt)) (k : Z) (b : list stmt) : list (Z * list stmt) :=
  match cs with
  | [] => [(k, b)]
  | (k0, b0) :: r => if k0 =? k then (k0, b0 ++ b) :: r else (k0, b0) :: add_case r k b
  end.

(* src/optimize.cc:75-108 change_if_to_switch *)
Fixpoint change_if_to_switch (ifs : list (Z * list stmt * list stmt))
    (cs : list (Z * list stmt)) : list (Z * list stmt) * option (list stmt) :=
  match ifs with
  | [] => (cs, None)
  | [(k, t, f)] => (add_case cs k t, match f with [] => None | _ => Some f end)
  | (k, t, _) :: r => change_if_to_switch r (add_case cs k t)
  end.

Definition last_else (ifs : list (Z * list stmt * list stmt)) : list stmt :=
  match rev ifs with [] => [] | (_, _, f) :: _ => f end.

(* src/optimize.cc:26-38 the loop body of transform_block; 1u << width is undefined for
   width >= 32.  src/stmt.cc:527-546 SwitchStmt rejects a constant target. *)
Definition transform_stmt (G : tenv) (s : stmt) : outcome stmt :=
  match has_target_if s None 0, s with
  | Some ifs, SIf (EBin Eq l _) _ _ =>
      let w := ewidth G l in
      if (w <? 0) || (32 <=? w) then UB
      else if (1 <? 2 ^ w) &&
              ((2 ^ w <=? Z.of_nat (length ifs))
               || match last_else ifs with [] => false | _ => true end)
      then match l with
           | EConst _ _ _ => Throw
           | _ => let (cs, d) := change_if_to_switch ifs [] in Ok (SSwitch l cs d)
           end
      else Ok s
  | _, _ => Ok s
  end.

(* src/optimize.cc:17-30, 111-114 and src/ir.cc:42-52 visit_root_s: a block's statements
   are transformed, then every block below them.  [n] bounds the recursion. *)
Fixpoint visit_s (G : tenv) (n : nat) (s : stmt) : outcome stmt :=
  match n with
  | O => Throw
  | S m =>
      olet s1 := transform_stmt G s in
      match s1 with
      | SIf c t f =>
          olet t' := omapM (visit_s G m) t in
          olet f' := omapM (visit_s G m) f in
          Ok (SIf c t' f')
      | SSwitch e cs d =>
          olet cs' := omapM (fun cb : Z * list stmt =>
                               olet b := omapM (visit_s G m) (snd cb) in Ok (fst cb, b)) cs in
          olet d' := match d with
                     | None => Ok None
                     | Some b => olet b' := omapM (visit_s G m) b in Ok (Some b')
                     end in
          Ok (SSwitch e cs' d')
      | SFor i a b st body =>
          olet body' := omapM (visit_s G m) body in Ok (SFor i a b st body')
      | SBlock body => olet body' := omapM (visit_s G m) body in Ok (SBlock body')
      | _ => Ok s1
      end
  end.
Definition if_to_case (G : tenv) (body : list stmt) : outcome (list stmt) :=
  omapM (fun s => visit_s G (ssize s) s) body.
