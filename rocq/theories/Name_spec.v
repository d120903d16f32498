(* What a module's name directory should do, independently of how the code stores it. *)
From Verif Require Import Base.
Local Open Scope Z_scope.
Local Open Scope string_scope.

Inductive direction := In_ | Out_ | InOut_.
(* what a user sees of a declared object *)
Record decl := { dc_width : Z; dc_size : list Z; dc_signed : bool; dc_port : option direction; dc_used : bool }.
(* bits of the whole object, array elements included *)
Definition bits (w : Z) (size : list Z) : Z := w * fold_right Z.mul 1 size.
(* the directory: which name stands for which declaration *)
Definition directory := string -> option decl.
Definition no_names : directory := fun _ => None.
Definition put (D : directory) (n : string) (d : option decl) : directory :=
  fun m => if (m =? n)%string then d else D m.

(* the user's actions *)
Inductive action :=
| DeclVar (n : string) (w : Z) (size : list Z) (sg : bool)
| DeclPort (p : direction) (n : string) (w : Z) (size : list Z) (sg : bool)
| DeclEnumVar (n : string) (w : Z)
| Use (n : string)                      (* connect the object to something *)
| Rename (a b : string)
| RemovePort (n : string)
| RemoveVar (n : string).

(* legal names and non-empty sizes; C++ widths and sizes are 32 bit *)
Definition legal (valid : string -> bool) (n : string) (w : Z) : bool := valid n && negb (w =? 0)%Z.

(* the effect of an action, and whether it is accepted.  A rejected action changes nothing. *)
Definition step_spec (valid : string -> bool) (D : directory) (a : action) : directory * bool :=
  match a with
  | DeclVar n w size sg =>
      match D n with
      | Some d => (D, (bits (dc_width d) (dc_size d) =? w)%Z && Bool.eqb (dc_signed d) sg)
      | None => if legal valid n w
                then (put D n (Some {| dc_width := w; dc_size := size; dc_signed := sg; dc_port := None; dc_used := false |}), true)
                else (D, false)
      end
  | DeclPort p n w size sg =>
      match D n with
      | Some _ => (D, false)
      | None => if legal valid n w
                then (put D n (Some {| dc_width := w; dc_size := size; dc_signed := sg; dc_port := Some p; dc_used := false |}), true)
                else (D, false)
      end
  | DeclEnumVar n w =>
      match D n with
      | Some _ => (D, false)
      | None => if legal valid n w
                then (put D n (Some {| dc_width := w; dc_size := [1]; dc_signed := false; dc_port := None; dc_used := false |}), true)
                else (D, false)
      end
  | Use n =>
      match D n with
      | Some d => (put D n (Some {| dc_width := dc_width d; dc_size := dc_size d; dc_signed := dc_signed d; dc_port := dc_port d; dc_used := true |}), true)
      | None => (D, false)
      end
  | Rename a b =>
      match D a with
      | None => (D, false)
      | Some d => if (a =? b)%string then (D, true)
                  else match D b with
                       | Some _ => (D, false)
                       | None => (put (put D a None) b (Some d), true)
                       end
      end
  | RemovePort n =>
      match D n with
      | Some d => match dc_port d with
                  | Some _ => if dc_used d then (D, false) else (put D n None, true)
                  | None => (D, true)
                  end
      | None => (D, true)
      end
  | RemoveVar n =>
      match D n with
      | Some d => if dc_used d then (D, false) else (put D n None, true)
      | None => (D, false)
      end
  end.
Definition history_spec (valid : string -> bool) (l : list action) : directory :=
  fold_left (fun D a => fst (step_spec valid D a)) l no_names.

(* actions the code is known to treat as specified; see C94-C96 for the others *)
Definition plain (D : directory) (a : action) : Prop :=
  match a with
  | DeclVar n w size _ => bits w size < 2 ^ 32 /\ 0 <= w /\ Forall (fun s => 0 <= s) size
  | DeclPort _ n w size _ => (bits w size < 2 ^ 32 /\ 0 <= w /\ Forall (fun s => 0 <= s) size)
      /\ match D n with Some d => dc_port d <> None | None => True end
  | DeclEnumVar n w => 0 <= w < 2 ^ 32
  | RemovePort n => match D n with Some d => dc_port d = None \/ dc_used d = false | None => True end
  | RemoveVar n => match D n with Some d => dc_port d = None \/ dc_used d = true | None => True end
  | Use _ | Rename _ _ => True
  end.
Fixpoint plain_history (valid : string -> bool) (D : directory) (l : list action) : Prop :=
  match l with
  | [] => True
  | a :: r => plain D a /\ plain_history valid (fst (step_spec valid D a)) r
  end.
