(* Reading declarations of SystemVerilog: [direction] type [signed] packed-ranges name unpacked-ranges; port lists,
   enum types, parameter overrides, action blocks of assertions and packages. *)
From Coq Require Import Permutation.
From Verif Require Import Base IR IRSem_spec Print_spec.
Local Open Scope string_scope.

Inductive dir := In_ | Out_ | Inout_.
(* DRange msb is [msb:0] *)
Inductive dtok := DDir (d : dir) | DType (t : string) | DSigned | DRange (msb : list tok) | DName (n : string).
Record decl := { de_dir : option dir; de_type : string; de_signed : bool; de_packed : list (list tok);
                 de_name : string; de_unpacked : list (list tok) }.
Fixpoint read_ranges (l : list dtok) : list (list tok) * list dtok :=
  match l with DRange m :: r => let p := read_ranges r in (m :: fst p, snd p) | _ => ([], l) end.
Definition read_decl (l : list dtok) : option decl :=
  let '(d, l) := match l with DDir d :: r => (Some d, r) | _ => (None, l) end in
  match l with
  | DType t :: l =>
      let '(s, l) := match l with DSigned :: r => (true, r) | _ => (false, l) end in
      let '(p, l) := read_ranges l in
      match l with
      | DName n :: l =>
          match read_ranges l with
          | (u, []) => Some {| de_dir := d; de_type := t; de_signed := s; de_packed := p; de_name := n; de_unpacked := u |}
          | _ => None
          end
      | _ => None
      end
  | _ => None
  end.

(* a dimension: a number, or an expression over parameters *)
Inductive dim := Num (n : Z) | Of (e : expr).
Definition one : expr := EConst 1 32 true.
(* the upper bound of a range is the dimension less one *)
Definition bound (G : tenv) (n : dim) (msb : list tok) : Prop :=
  match n with
  | Num n => reads msb (EConst (n - 1) 32 true)
  | Of e => exists e', reads msb (EBin Minus e' one) /\ same_value G e' e
  end.

(* what a signal is: element type, sign, element width unless the type has one, dimensions, kind of array *)
Inductive kind := Logic | Struct (name : string) | EnumOf (name : string) | TypeParam (name : string).
Record sig := { g_name : string; g_kind : kind; g_signed : bool; g_width : Z; g_width_of : option expr;
                g_size : list Z; g_size_of : nat -> option expr; g_packed : bool; g_explicit : bool }.
Definition type_of (k : kind) : string := match k with Logic => "logic" | Struct n | EnumOf n | TypeParam n => n end.
Definition width_dims (g : sig) : list dim :=
  match g_kind g with
  | Logic => match g_width_of g with Some e => [Of e] | None => if (1 <? g_width g)%Z then [Num (g_width g)] else [] end
  | _ => []
  end.
Fixpoint size_dims_from (i : nat) (l : list Z) (f : nat -> option expr) : list dim :=
  match l with [] => [] | n :: r => match f i with Some e => Of e | None => Num n end :: size_dims_from (S i) r f end.
Definition size_dims (g : sig) : list dim := size_dims_from 0 (g_size g) (g_size_of g).
(* a signal is an array unless it was given no dimensions: one element, not fixed by a parameter, not asked for *)
Definition is_array (g : sig) : bool :=
  match g_size g with
  | [n] => (1 <? n)%Z || g_explicit g || match g_size_of g 0%nat with Some _ => true | None => false end
  | _ => true
  end.
Definition declares (G : tenv) (d : option dir) (g : sig) (l : list dtok) : Prop :=
  exists x, read_decl l = Some x /\ de_dir x = d /\ de_type x = type_of (g_kind g) /\ de_signed x = g_signed g /\ de_name x = g_name g
    /\ Forall2 (bound G) ((if is_array g && g_packed g then size_dims g else []) ++ width_dims g) (de_packed x)
    /\ Forall2 (bound G) (if is_array g && negb (g_packed g) then size_dims g else []) (de_unpacked x).

(* lists with separators *)
Inductive ltok (A : Type) := LItem (a : A) | LComma.
Arguments LItem {A} _. Arguments LComma {A}.
Fixpoint comma_list {A} (l : list A) : list (ltok A) :=
  match l with [] => [] | [a] => [LItem a] | a :: r => LItem a :: LComma :: comma_list r end.

(* strict weak orders, what the sorting functions of C++ require *)
Definition strict_weak {A} (lt : A -> A -> bool) (l : list A) : Prop :=
  (forall a, In a l -> lt a a = false) /\
  (forall a b c, In a l -> In b l -> In c l -> lt a b = true -> lt b c = true -> lt a c = true) /\
  (forall a b c, In a l -> In b l -> In c l -> lt a b = false -> lt b a = false -> lt b c = false -> lt c b = false ->
      lt a c = false /\ lt c a = false).

(* assert property (p) [pass] [else fail] ; *)
Inductive atok := AAssert (p : string) | AElse | AStmt (s : string) | ASemi.
Definition actions (l : list atok) : option (string * option string * option string) :=
  match l with
  | [AAssert p; ASemi] => Some (p, None, None)
  | [AAssert p; AStmt s] => Some (p, Some s, None)
  | [AAssert p; AElse; AStmt s] => Some (p, None, Some s)
  | [AAssert p; AStmt s; AElse; AStmt f] => Some (p, Some s, Some f)
  | _ => None
  end.

(* lines of a header file: packages must be closed by what opened them *)
Inductive hline := HIfndef | HDefine | HPackage | HText (s : string) | HEndpackage | HEndif.
Fixpoint header_ok (open : list hline) (l : list hline) : bool :=
  match l with
  | [] => match open with [] => true | _ => false end
  | HIfndef :: r => header_ok (HIfndef :: open) r
  | HPackage :: r => header_ok (HPackage :: open) r
  | HEndpackage :: r => match open with HPackage :: o => header_ok o r | _ => false end
  | HEndif :: r => match open with HIfndef :: o => header_ok o r | _ => false end
  | (HDefine | HText _) :: r => header_ok open r
  end.
