(* Packed structs as a user declares them, the leaves they contain, and how SystemVerilog
   lays a packed struct out (IEEE 1800-2017 7.2.1: first member most significant). *)
From Coq Require Export String.
From Verif Require Import Base.
Local Open Scope Z_scope.

(* a field is a vector of some width or a nested struct *)
Inductive field :=
| FLeaf (name : string) (width : Z) (signed : bool)
| FSub (name : string) (fields : list field).
Definition fname (f : field) : string := match f with FLeaf n _ _ => n | FSub n _ => n end.

(* the vectors of a struct in declaration order: access path, width *)
Fixpoint leaves (f : field) : list (list string * Z) :=
  match f with
  | FLeaf n w _ => [([n], w)]
  | FSub n l => map (fun '(p, w) => (n :: p, w)) (flat_map leaves l)
  end.
Definition struct_leaves (s : list field) : list (list string * Z) := flat_map leaves s.
Definition total (l : list (list string * Z)) : Z := fold_right (fun x a => snd x + a) 0 l.

(* distinct names at every level, positive widths, no empty nested struct *)
Inductive wf : field -> Prop :=
| wf_leaf : forall n w s, 0 < w -> wf (FLeaf n w s)
| wf_sub : forall n l, l <> [] -> NoDup (map fname l) -> Forall wf l -> wf (FSub n l).
Definition wf_struct (s : list field) : Prop := NoDup (map fname s) /\ Forall wf s.

(* a declaration as it stands in the text: member names with their widths, top to bottom;
   SystemVerilog's lowest bit of the named member: everything declared after it is lower *)
Fixpoint sv_low (decls : list (string * Z)) (n : string) : option Z :=
  match decls with
  | [] => None
  | (m, _) :: r => if String.eqb m n then Some (fold_right (fun x a => snd x + a) 0 r)
                   else sv_low r n
  end.
(* IEEE 1800-2017 A.2.2.1: integer_vector_type [ signing ] { packed_dimension } name *)
Definition is_dim (s : string) : bool :=
  match s with String c _ => Ascii.eqb c "[" | EmptyString => false end.
Definition is_signing (s : string) : bool := String.eqb s "signed".
Definition optional (p : string -> bool) (l : list string) : list string :=
  match l with x :: r => if p x then r else l | [] => [] end.
Definition vector_decl (words : list string) : bool :=
  match words with
  | t :: r => String.eqb t "logic" &&
      match optional is_dim (optional is_signing r) with
      | [n] => negb (is_dim n) && negb (is_signing n)
      | _ => false
      end
  | [] => false
  end.
