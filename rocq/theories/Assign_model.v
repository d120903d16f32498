(* src/expr.cc:880-924, 1021-1093, 2243-2264, src/port.cc:17-70, 130-157, src/stmt.cc:133-220.  Not modelled: loop variables, whose
   width is adjusted, parameters, null arguments, the generator of a constant (src/expr.cc:1136-1148). *)
From Verif Require Import Base Const_model Assign_spec.
Local Open Scope Z_scope.

Definition upd (st : store) (c : nat) (k : const) : store := fun x => if Nat.eqb x c then k else st x.
(* src/stmt.cc:133-188  AssignStmt::AssignStmt *)
Definition assign_stmt (st : store) (l r : sig) : outcome (store * asg) :=
  if negb (Bool.eqb (signed st l) (signed st r)) then Throw
  else
    olet st' :=
      if width st l =? width st r then Ok st
      else match r with
           | Lit c _ =>
               olet k := is_legal (c_value (st c)) (width st l) (signed st l) in
               match k with
               | Legal => olet d := set_width (st c) (width st l) in Ok (upd st c d)
               | _ => Throw
               end
           | _ => Throw
           end in
    let a := attr_of st' l in let b := attr_of st' r in
    if (a_array a || a_array b) && negb (Bool.eqb (a_packed a) (a_packed b)) then Throw
    else Ok (st', {| q_left := l; q_right := r |}).
(* src/expr.cc:894-902  AllConcat: operators reached through concatenations only *)
Fixpoint all_concat (s : sig) : bool :=
  match s with Res _ _ => false | Cat _ l r => all_concat l && all_concat r | _ => true end.
(* src/expr.cc:2243-2262, src/port.cc:135-155; an enumeration is known by its name *)
Definition enum_ok (e : enum) (r : sig) : bool :=
  match r with
  | Vr _ _ (Some d) | Pt _ _ _ (Some d) | Lit _ (Some d) | Cast _ CEnum _ (Some d) => String.eqb (en_name d) (en_name e)
  | _ => false
  end.
(* src/port.cc:46-68 *)
Definition port_ok (t : ptype) (r : sig) : bool :=
  match r with
  | Pt _ _ _ _ | Lit _ _ => true
  | Cast _ c _ _ =>
      match t, c with
      | PData, _ | PAsync, CAsync | PReset, CReset | PClock, CClock | PEnable, CEnable => true
      | _, _ => false
      end
  | _ => match t with PData => true | _ => false end
  end.
Definition enum_check (e : option enum) (r : sig) : bool := match e with None => true | Some d => enum_ok d r end.
(* src/expr.cc:882-892, 904-924  Var::assign_, 1036-1039 VarCasted::assign_, 2243-2264 EnumVar::assign_, src/port.cc:41-70, 135-157 *)
Fixpoint assign (st : store) (l r : sig) : outcome (store * asg) :=
  match l with
  | Cast _ _ s _ => assign st s r
  | Lit _ _ | Res _ _ => Throw
  | Cat _ a b => if all_concat a && all_concat b then assign_stmt st l r else Throw
  | Bits _ _ => assign_stmt st l r
  | Vr _ _ e => if enum_check e r then assign_stmt st l r else Throw
  | Pt _ _ t e => if enum_check e r && port_ok t r then assign_stmt st l r else Throw
  end.
(* add_source: src/expr.hh:164, src/expr.cc:1074, 1131, 1241, 1345, 1386, 1757 *)
Fixpoint add_source (s : sig) : outcome unit :=
  match s with
  | Vr _ _ _ | Pt _ _ _ _ => Ok tt
  | Lit _ _ => Throw
  | Bits _ x | Cast _ _ x _ => add_source x
  | Cat _ l r => olet _ := add_source l in add_source r
  | Res _ extended => if extended then Throw else Ok tt
  end.
(* src/stmt.cc:204-213 AssignStmt::set_parent: an assignment that is made and added *)
Definition drive (st : store) (l r : sig) : outcome (store * asg) :=
  olet x := assign st l r in olet _ := add_source (q_left (snd x)) in Ok x.
Fixpoint drive_all (st : store) (l : list (sig * sig)) : outcome (store * list asg) :=
  match l with
  | [] => Ok (st, [])
  | (a, b) :: r => olet x := drive st a b in olet y := drive_all (fst x) r in Ok (fst y, snd x :: snd y)
  end.

(* src/expr.cc:1021-1034, 1060-1072, 1078-1092 and kratos/util.py:155-175: the casts there are *)
Record cell := { k_of : nat; k_type : ctype; k_enum : option string; k_width : Z }.
Inductive handle := HVar (v : nat) | HCast (i : nat).
Definition ctype_eqb (a b : ctype) : bool :=
  match a, b with
  | CSigned, CSigned | CUnsigned, CUnsigned | CClock, CClock | CAsync, CAsync | CEnable, CEnable | CReset, CReset | CEnum, CEnum | CResize, CResize => true
  | _, _ => false
  end.
Fixpoint find_cell (i : nat) (v : nat) (c : ctype) (h : list cell) : option nat :=
  match h with [] => None | k :: r => if Nat.eqb (k_of k) v && ctype_eqb (k_type k) c then Some i else find_cell (S i) v c r end.
(* 1078-1092  Var::cast; a cast to another width is always a new one *)
Definition cast (var_signed : nat -> bool) (h : list cell) (v : nat) (c : ctype) : list cell * handle :=
  if ctype_eqb c CSigned && var_signed v then (h, HVar v)
  else match (if ctype_eqb c CResize then None else find_cell 0 v c h) with
       | Some i => (h, HCast i)
       | None => (h ++ [{| k_of := v; k_type := c; k_enum := None; k_width := 0 |}], HCast (List.length h))
       end.
Definition on (h : list cell) (x : handle) (f : cell -> cell) : list cell :=
  match x with HVar _ => h | HCast i => firstn i h ++ match skipn i h with [] => [] | k :: r => f k :: r end end.
Definition type_of (q : ask) : ctype :=
  match q with ASigned => CSigned | AUnsigned => CUnsigned | AClock => CClock | AAsync => CAsync | AEnable => CEnable | AReset => CReset | AEnum _ => CEnum | AWidth _ => CResize end.
(* kratos/util.py:155-160, src/expr.hh:321, src/expr.cc:1060-1070 (variables that are not arrays) *)
Definition settle (q : ask) (k : cell) : cell :=
  match q with
  | AEnum e => {| k_of := k_of k; k_type := k_type k; k_enum := Some e; k_width := k_width k |}
  | AWidth w => {| k_of := k_of k; k_type := k_type k; k_enum := k_enum k; k_width := w |}
  | _ => k
  end.
Definition request (var_signed : nat -> bool) (h : list cell) (vq : nat * ask) : list cell * handle :=
  let x := cast var_signed h (fst vq) (type_of (snd vq)) in (on (fst x) (snd x) (settle (snd vq)), snd x).
Fixpoint requests (var_signed : nat -> bool) (h : list cell) (l : list (nat * ask)) : list cell * list handle :=
  match l with
  | [] => (h, [])
  | x :: r => let y := request var_signed h x in let z := requests var_signed (fst y) r in (fst z, snd y :: snd z)
  end.
(* 1041-1058  VarCasted::to_string *)
Definition cell_text (k : cell) : outcome ctext :=
  match k_type k with
  | CSigned => Ok (TSigned (k_of k))
  | CUnsigned => Ok (TUnsigned (k_of k))
  | CEnum => match k_enum k with None => Throw | Some e => Ok (TEnum e (k_of k)) end
  | CResize => Ok (TWidth (k_width k) (k_of k))
  | _ => Ok (TVar (k_of k))
  end.
Definition text_of (h : list cell) (x : handle) : outcome ctext :=
  match x with HVar v => Ok (TVar v) | HCast i => match nth_error h i with Some k => cell_text k | None => UB end end.

(* src/expr.cc:1060-1070 set_target_width, Var::width() (src/expr.cc:53-59): the width a cast of a variable with these sizes reports *)
Definition resize_width (sizes : list Z) (w : Z) : outcome Z :=
  if (1 <? Z.of_nat (List.length sizes)) && negb (hd 1 sizes =? 1) then Throw
  else Ok (fold_left Z.mul sizes w).
(* src/port.cc:17-39, 72, src/expr.cc:1028-1033 *)
Definition special (t : ptype) : bool := match t with PData => false | _ => true end.
Definition make_port (t : ptype) (w : Z) (sizes : list Z) : outcome (ptype * Z) :=
  if special t && (1 <? w) then Throw else Ok (t, fold_left Z.mul sizes w).
Definition set_port_type (p : ptype * Z) (t : ptype) : ptype * Z := (t, snd p).
Definition clock_cast (w : Z) (sizes : list Z) : outcome Z :=
  match sizes with [s] => if s =? 1 then Ok w else Throw | _ => Throw end.
(* src/expr.cc:53-59, 1021-1024: the width of a variable, and the one a cast of it starts with *)
Definition var_width (sizes : list Z) (w : Z) : Z := fold_left Z.mul sizes w.
Definition cast_width (sizes : list Z) (w : Z) : Z := fold_left Z.mul sizes (var_width sizes w).
