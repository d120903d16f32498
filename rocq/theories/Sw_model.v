(* Switch statements: src/stmt.cc:541-633. *)
From Coq Require Import ZArith List Bool Arith Sorting.Permutation Sorting.Sorted.
From Verif Require Import Base Sw_spec.
Import ListNotations.

Section Switch.
  (* Constants are objects; each has a value (Const::value), here taken not to change. *)
  Variable value : nat -> Z.

  (* body_: a map from constant objects (no object for the default) to blocks of statements.  The map is ordered by
     the addresses of the objects, of which nothing is known: the order of this list means nothing. *)
  Definition key := option nat.
  Definition body := list (key * list nat).

  Definition key_value (k : key) : case := option_map value k.

  Definition key_eqb (a b : key) : bool :=
    match a, b with None, None => true | Some x, Some y => Nat.eqb x y | _, _ => false end.

  (* src/stmt.cc:549-572  add_switch_case: the block is looked up by value (553-557); if there is none a block is made
     under this object.  The statements given are those of a block (565-570) or a single one; each is new. *)
  Fixpoint add_case (b : body) (k : key) (stmts : list nat) : body :=
    match b with
    | [] => [(k, stmts)]
    | (c, s) :: b =>
        if (match k, c with None, None => true | Some x, Some y => Z.eqb (value y) (value x) | _, _ => false end)
        then (c, s ++ stmts) :: b
        else (c, s) :: add_case b k stmts
    end.

  (* body_.find / body_.at: by object *)
  Definition at_key (b : body) (k : key) : option (list nat) :=
    match find (fun e => key_eqb (fst e) k) b with Some e => Some (snd e) | None => None end.

  (* src/stmt.cc:575-579  add_switch_case with several statements; body_.at throws if there is no such object *)
  Definition add_cases (b : body) (k : key) (stmts : list (list nat)) : outcome (body * list nat) :=
    let b := fold_left (fun b s => add_case b k s) stmts b in
    match at_key b k with Some blk => Ok (b, blk) | None => Throw end.

  (* src/stmt.cc:587-591  remove_switch_case *)
  Definition remove_case (b : body) (k : key) : body := filter (fun e => negb (key_eqb (fst e) k)) b.

  (* StmtBlock::remove_stmt (src/stmt.cc:463-467, see Blk_model): the first occurrence *)
  Fixpoint remove_first (l : list nat) (x : nat) : list nat :=
    match l with [] => [] | y :: l => if Nat.eqb y x then l else y :: remove_first l x end.

  (* src/stmt.cc:593-599  remove_switch_case with a statement *)
  Definition remove_case_stmt (b : body) (k : key) (x : nat) : body :=
    map (fun e => if key_eqb (fst e) k then (fst e, remove_first (snd e) x) else e) b.

  (* src/stmt.cc:601-610  remove_stmt: for each case, if its block has the statement, it is removed from there *)
  Definition remove_stmt (b : body) (x : nat) : body :=
    fold_left (fun b' e => if existsb (Nat.eqb x) (snd e) then remove_case_stmt b' (fst e) x else b') b b.

  (* src/stmt.cc:612-633  get_child, for all indices in turn: the target first, then the blocks sorted by the value
     converted to uint64_t, the default having the largest.  std::sort leaves equal elements in any order. *)
  Definition sort_key (k : key) : Z :=
    match k with Some c => (value c mod 2 ^ 64)%Z | None => (2 ^ 64 - 1)%Z end.

  Definition children (b : body) (cs : list (list nat)) : Prop :=
    exists l, Permutation (map (fun e => (sort_key (fst e), snd e)) b) l
      /\ StronglySorted (fun x y : Z * list nat => (fst x <= fst y)%Z) l
      /\ cs = map snd l.
End Switch.
