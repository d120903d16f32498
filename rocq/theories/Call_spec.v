(* Calls of functions.  A call gives arguments by position: the i-th argument is the value of the i-th formal of the
   declaration. *)
From Coq Require Import Permutation.
From Verif Require Import Base.
Local Open Scope string_scope.
Local Open Scope Z_scope.

Inductive fdir := FIn | FOut.
Record formal := { fo_width : Z; fo_signed : bool; fo_dir : fdir }.
(* what the user passed: for each formal, the text of the argument, its width and its sign *)
Record actual := { ac_text : string; ac_width : Z; ac_signed : bool }.
(* [texts] gives the formals, in the order of the declaration, the arguments passed under their names *)
Definition passes (formals : list string) (args : string -> option actual) (texts : list string) : Prop :=
  Forall2 (fun n t => exists a, args n = Some a /\ ac_text a = t) formals texts.

(* types of C that DPI functions use, IEEE 1800 table 35-1: bits, and whether they are signed *)
Inductive ctype := CVoid | CBit | CByte | CShortint | CInt | CLongint.
Definition ctype_width (t : ctype) : Z :=
  match t with CVoid => 0 | CBit => 1 | CByte => 8 | CShortint => 16 | CInt => 32 | CLongint => 64 end.
Definition ctype_signed (t : ctype) : bool := match t with CVoid | CBit => false | _ => true end.
(* import "DPI-C" [pure|context] function type name(direction type [signed] name, ...) *)
Inductive attr := APlain | APure | AContext.
Record import := { im_attr : attr; im_type : ctype; im_name : string; im_ports : list (string * fdir * ctype * bool) }.
Definition port_name (p : string * fdir * ctype * bool) : string := fst (fst (fst p)).
(* the import is one for a function with these ports: each of them once, with its direction and sign *)
Definition imports (i : import) (name : string) (a : attr) (ports : list (string * formal)) : Prop :=
  im_name i = name /\ im_attr i = a /\ Permutation (map port_name (im_ports i)) (map fst ports) /\
  (forall n d t s, In (n, d, t, s) (im_ports i) -> exists p, In (n, p) ports /\ fo_dir p = d /\ fo_signed p = s).

(* system functions, IEEE 1800 clauses 20 and 21: width and sign of the result *)
Definition system_function (n : string) : option (Z * bool) :=
  if existsb (String.eqb n) ["clog2"; "countones"; "fopen"; "fscanf"; "random"] then Some (32, true)
  else if String.eqb n "urandom" then Some (32, false)
  else if existsb (String.eqb n) ["onehot"; "onehot0"; "isunknown"] then Some (1, false)
  else None.
(* the same clauses: the least and the largest number of arguments *)
Definition system_arguments (n : string) : option (Z * option Z) :=
  if existsb (String.eqb n) ["clog2"; "countones"; "onehot"; "onehot0"; "isunknown"] then Some (1, Some 1)
  else if existsb (String.eqb n) ["random"; "urandom"] then Some (0, Some 1)
  else if String.eqb n "fopen" then Some (1, Some 2)
  else if String.eqb n "fscanf" then Some (2, None)
  else None.
Definition takes (n : string) (k : Z) : Prop :=
  exists lo hi, system_arguments n = Some (lo, hi) /\ lo <= k /\ match hi with Some h => k <= h | None => True end.
(* the names in a list, each where it comes first *)
Definition first_names (l : list string) : list string := rev (nodup String.string_dec (rev l)).
