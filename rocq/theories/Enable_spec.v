(* Which branch of a statement tree is entered, by position. *)
From Verif Require Import Base SV_spec IR IRSem_spec.
Local Open Scope Z_scope.

Inductive branch := BThen | BElse | BCase (k : Z) | BDefault | BBody.
(* statement number n of the block, then which of its bodies, and so on *)
Definition path := list (nat * branch).

(* the body that statement s enters through branch b in a state, if it does *)
Definition enters (G : tenv) (r : venv) (s : stmt) (b : branch) : option (list stmt) :=
  match s, b with
  | SIf c t _, BThen => if truth G r c then Some t else None
  | SIf c _ f, BElse => if truth G r c then None else Some f
  | SSwitch e cs d, BCase k =>
      match find (fun cb => ev G r e =? enc (ewidth G e) (fst cb)) cs with
      | Some cb => if fst cb =? k then Some (snd cb) else None
      | None => None
      end
  | SSwitch e cs d, BDefault =>
      match find (fun cb => ev G r e =? enc (ewidth G e) (fst cb)) cs with
      | Some _ => None
      | None => d
      end
  | SBlock body, BBody => Some body
  | _, _ => None
  end.
(* running block l from st enters the block at path p *)
Fixpoint reached (G : tenv) (l : list stmt) (p : path) (st : pstate) : Prop :=
  match p with
  | [] => True
  | (n, b) :: p' =>
      let st' := run G (firstn n l) st in
      st_status st' = Running
      /\ exists s body, nth_error l n = Some s /\ enters G (st_cur st') s b = Some body
         /\ reached G body p' st'
  end.
(* no break and no return *)
Definition no_jump (body : list stmt) : Prop :=
  forall s, inside s body -> s <> SBreak /\ forall e, s <> SReturn e.
(* the constants of each case statement are distinct and fit its selector *)
Definition cases_fit (G : tenv) (body : list stmt) : Prop :=
  forall e cs d, inside (SSwitch e cs d) body ->
    NoDup (map fst cs) /\ Forall (fun cb => 0 <= fst cb < 2 ^ ewidth G e) cs.
(* default branches on the path belong to case statements with one other case *)
Definition step_into (s : stmt) (b : branch) : option (list stmt) :=
  match s, b with
  | SIf _ t _, BThen => Some t
  | SIf _ _ f, BElse => Some f
  | SSwitch _ cs _, BCase k => option_map snd (find (fun cb => fst cb =? k) cs)
  | SSwitch _ _ d, BDefault => d
  | SBlock body, BBody => Some body
  | _, _ => None
  end.
Fixpoint single_defaults (l : list stmt) (p : path) : Prop :=
  match p with
  | [] => True
  | (n, b) :: p' =>
      match nth_error l n with
      | None => True
      | Some s =>
          match s, b with SSwitch _ cs _, BDefault => length cs = 1%nat | _, _ => True end
          /\ match step_into s b with Some body => single_defaults body p' | None => True end
      end
  end.
