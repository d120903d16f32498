(* Model of the multiple-driver check, src/analysis.cc:665-797. *)
From Verif Require Import Base IR IRSem_spec.
Local Open Scope Z_scope.

(* the top-level statements of a generator: a continuous assignment (TAssign: its body is that
   one statement) or a block of some kind *)
Inductive tkind := TAssign | TComb | TSeq | TLatch | TOtherBlock.
Definition module := list (tkind * list stmt).

(* one assignment statement as the check sees it *)
Record drv := {
  v_root : nat;        (* non_gen_root_parent, 782-796: the top-level statement *)
  v_kind : tkind;
  v_path : list nat;   (* parent(): the scopes between the root and the statement *)
  v_pos : nat;         (* position in that scope: identity of the statement *)
  v_for : bool;        (* has_for_loop, 705-715 *)
  v_range : option (Z * Z)  (* var_low, var_high of the target; None: sliced by a variable *)
}.
Definition target_range (G : tenv) (l : lhs) : option (Z * Z) :=
  match l with
  | LVar x => Some (0, d_width (G x) - 1)
  | LSlice _ hi lo => Some (lo, hi)
  | LDyn _ _ _ => None
  end.

(* the assignments to x in one top-level statement, in textual order (Var::sources() is an
   unordered set: the theorems hold for every order) *)
Section Collect.
  Variables (G : tenv) (x : var) (root : nat) (kind : tkind).
  Fixpoint drvs (s : stmt) (n : nat) (path : list nat) (in_for : bool) : list drv :=
    let fix blk (l : list stmt) (n : nat) (path : list nat) (in_for : bool) : list drv :=
      match l with [] => [] | s :: r => drvs s n path in_for ++ blk r (S n) path in_for end in
    match s with
    | SAssign _ l _ =>
        if Nat.eqb (lhs_var l) x
        then [{| v_root := root; v_kind := kind; v_path := path; v_pos := n; v_for := in_for;
                 v_range := target_range G l |}]
        else []
    | SIf _ t f => blk t 0%nat (path ++ [n; 0%nat]) in_for ++ blk f 0%nat (path ++ [n; 1%nat]) in_for
    | SSwitch _ cs d =>
        (match d with None => [] | Some b => blk b 0%nat (path ++ [n; 0%nat]) in_for end)
        ++ (fix goc (l : list (Z * list stmt)) (j : nat) : list drv :=
              match l with
              | [] => []
              | cb :: r => blk (snd cb) 0%nat (path ++ [n; j]) in_for ++ goc r (S j)
              end) cs 1%nat
    | SFor _ _ _ _ b => blk b 0%nat (path ++ [n; 0%nat]) true
    | SBlock b => blk b 0%nat (path ++ [n]) in_for
    | _ => []
    end.
  Fixpoint drvs_block (l : list stmt) (n : nat) (path : list nat) (in_for : bool) : list drv :=
    match l with [] => [] | s :: r => drvs s n path in_for ++ drvs_block r (S n) path in_for end.
  Fixpoint drvs_cases (l : list (Z * list stmt)) (j n : nat) (path : list nat) (in_for : bool) : list drv :=
    match l with
    | [] => []
    | cb :: r => drvs_block (snd cb) 0 (path ++ [n; j]) in_for ++ drvs_cases r (S j) n path in_for
    end.
End Collect.
Fixpoint drivers_from (G : tenv) (x : var) (m : module) (i : nat) : list drv :=
  match m with
  | [] => []
  | (k, b) :: r => drvs_block G x i k b 0 [] false ++ drivers_from G x r (S i)
  end.
Definition drivers (G : tenv) (x : var) (m : module) : list drv := drivers_from G x m 0.

(* src/analysis.cc:686-703  share_root: the paths from below the root have a common node *)
Definition share_root (p q : list nat) : bool :=
  match p, q with a :: _, b :: _ => Nat.eqb a b | _, _ => false end.
Definition same_path (p q : list nat) : bool := if list_eq_dec Nat.eq_dec p q then true else false.
(* src/analysis.cc:739-772; [same parent, same root] for a continuous assignment cannot arise *)
Definition conflict (d ref : drv) : bool :=
  if negb (Nat.eqb (v_root d) (v_root ref)) then true
  else if same_path (v_path d) (v_path ref)
       then match v_kind d with TComb | TLatch => false | _ => true end
       else match v_kind d with TSeq => negb (share_root (v_path d) (v_path ref)) | _ => false end.
(* src/analysis.cc:717-780 check_var; [parents]: bit -> first driver seen *)
Definition parents := Z -> option drv.
Definition bit_step (d : drv) (acc : outcome parents) (i : Z) : outcome parents :=
  olet p := acc in
  match p i with
  | Some ref => if conflict d ref then Throw else Ok p
  | None => Ok (fun j => if j =? i then Some d else p j)
  end.
Definition bits_between (lo hi : Z) : list Z := map (fun k => lo + Z.of_nat k) (seq 0 (Z.to_nat (hi - lo + 1))).
Definition drv_step (acc : outcome parents) (d : drv) : outcome parents :=
  if v_for d then acc else
  match v_range d with
  | None => acc
  | Some (lo, hi) => fold_left (bit_step d) (bits_between lo hi) acc
  end.
Definition check_var (sources : list drv) : outcome unit :=
  olet _ := fold_left drv_step sources (Ok (fun _ => None)) in Ok tt.
