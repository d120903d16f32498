(* What can be assigned: signals, their parts, constants, results of operators and casts (src/expr.hh, src/port.hh), and what a
   user is told about them. *)
From Verif Require Import Base Const_model.
Local Open Scope Z_scope.

(* src/port.hh:12  PortType *)
Inductive ptype := PData | PClock | PAsync | PEnable | PReset.
(* src/expr.hh:69  VarCastType *)
Inductive ctype := CSigned | CUnsigned | CClock | CAsync | CEnable | CReset | CEnum | CResize.
(* src/expr.hh:770-800  an enumeration: the object and its name *)
Record enum := { en_id : nat; en_name : string }.
(* width() and is_signed() as the constructors leave them; a_array: more than one element or an explicit array *)
Record attr := { a_width : Z; a_signed : bool; a_array : bool; a_packed : bool }.
Inductive sig :=
| Vr (a : attr) (n : nat) (e : option enum)
| Pt (a : attr) (n : nat) (t : ptype) (e : option enum)
| Lit (c : nat) (e : option enum)
| Bits (a : attr) (s : sig)
| Cat (a : attr) (l r : sig)
| Res (a : attr) (extended : bool)
| Cast (a : attr) (c : ctype) (s : sig) (e : option enum).
(* constants are objects, whose width changes *)
Definition store := nat -> const.
Record asg := { q_left : sig; q_right : sig }.

Definition attr_of (st : store) (s : sig) : attr :=
  match s with
  | Vr a _ _ | Pt a _ _ _ | Bits a _ | Cat a _ _ | Res a _ | Cast a _ _ _ => a
  | Lit c _ => {| a_width := c_width (st c); a_signed := c_signed (st c); a_array := false; a_packed := true |}
  end.
Definition width (st : store) (s : sig) : Z := a_width (attr_of st s).
Definition signed (st : store) (s : sig) : bool := a_signed (attr_of st s).
Definition is_port (s : sig) : Prop := exists a n t e, s = Pt a n t e.
Definition is_const (s : sig) : Prop := exists c e, s = Lit c e.
(* the cast a port of a type asks for *)
Definition cast_for (t : ptype) : option ctype :=
  match t with PData => None | PClock => Some CClock | PAsync => Some CAsync | PEnable => Some CEnable | PReset => Some CReset end.
Definition cast_to (t : ptype) (s : sig) : Prop := exists a c x e, s = Cast a c x e /\ cast_for t = Some c.
(* the enumeration the values of a signal are from *)
Definition enum_of (s : sig) : option enum :=
  match s with Vr _ _ e | Pt _ _ _ e | Lit _ e => e | Cast _ CEnum _ e => e | _ => None end.
(* what a cast is of *)
Fixpoint under (s : sig) : sig := match s with Cast _ _ x _ => under x | _ => s end.
(* what is written when a signal is assigned *)
Fixpoint written (s : sig) : list sig :=
  match s with Bits _ x | Cast _ _ x _ => written x | Cat _ l r => written l ++ written r | _ => [s] end.
Definition consts (s : sig) : list nat := match s with Lit c _ => [c] | _ => [] end.

(* casts as a user asks for them, and as they read: the operator and the variable *)
Inductive ask := ASigned | AUnsigned | AClock | AAsync | AEnable | AReset | AEnum (e : string) | AWidth (w : Z).
Inductive ctext := TVar (v : nat) | TSigned (v : nat) | TUnsigned (v : nat) | TEnum (e : string) (v : nat) | TWidth (w : Z) (v : nat).
Definition wanted (var_signed : nat -> bool) (v : nat) (q : ask) : ctext :=
  match q with
  | ASigned => if var_signed v then TVar v else TSigned v
  | AUnsigned => TUnsigned v
  | AEnum e => TEnum e v
  | AWidth w => TWidth w v
  | _ => TVar v
  end.
