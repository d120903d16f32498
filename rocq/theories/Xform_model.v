(* src/transform.cc:17-75, 922-999, src/debug.cc:565-602, src/event.cc:67-111, src/formal.cc:7-45,
   src/generator.cc:545-548, 623-645 *)
From Verif Require Import Base IR IRSem_spec Xform_spec.
Local Open Scope Z_scope.

(* src/transform.cc:22-34 AssignmentTypeVisitor::visit; cloned and external modules are skipped
   and not represented *)
Definition fix_kind (ty : akind) (check : bool) (k : akind) : outcome akind :=
  match k with
  | Undefined => Ok ty
  | _ => if check && negb (if akind_eq_dec k ty then true else false) then Throw else Ok k
  end.
Section fix_type.
  Variables (ty : akind) (check : bool).
  Fixpoint fix_stmt (s : stmt) : outcome stmt :=
    let fix all (l : list stmt) : outcome (list stmt) :=
      match l with [] => Ok [] | s :: r => olet a := fix_stmt s in olet b := all r in Ok (a :: b) end in
    match s with
    | SAssign k l e => olet k' := fix_kind ty check k in Ok (SAssign k' l e)
    | SIf c t f => olet a := all t in olet b := all f in Ok (SIf c a b)
    | SSwitch e cs d =>
        olet cs' := (fix cases (l : list (Z * list stmt)) : outcome (list (Z * list stmt)) :=
          match l with [] => Ok [] | c :: r => olet a := all (snd c) in olet b := cases r in Ok ((fst c, a) :: b) end) cs in
        match d with
        | None => Ok (SSwitch e cs' None)
        | Some b => olet b' := all b in Ok (SSwitch e cs' (Some b'))
        end
    | SFor i a b st body => olet x := all body in Ok (SFor i a b st x)
    | SBlock body => olet x := all body in Ok (SBlock x)
    | s => Ok s
    end.
  Fixpoint fix_stmts (l : list stmt) : outcome (list stmt) :=
    match l with [] => Ok [] | s :: r => olet a := fix_stmt s in olet b := fix_stmts r in Ok (a :: b) end.
  Fixpoint fix_cases (l : list (Z * list stmt)) : outcome (list (Z * list stmt)) :=
    match l with [] => Ok [] | c :: r => olet a := fix_stmts (snd c) in olet b := fix_cases r in Ok ((fst c, a) :: b) end.
End fix_type.
Definition with_body (b : block) (body : list stmt) : block :=
  {| b_kind := b_kind b; b_events := b_events b; b_unchecked := b_unchecked b; b_body := body |}.
(* src/transform.cc:41-65 AssignmentTypeBlockVisitor *)
Definition fix_block (i : item) : outcome item :=
  match i with
  | IBlock b =>
      match b_kind b with
      | KComb | KFunc => olet x := fix_stmts Blocking true (b_body b) in Ok (IBlock (with_body b x))
      | KSeq => if b_unchecked b then Ok i else olet x := fix_stmts NonBlocking true (b_body b) in Ok (IBlock (with_body b x))
      | _ => Ok i
      end
  | _ => Ok i
  end.
Definition fix_rest (i : item) : outcome item :=
  match i with
  | IAssign k l e => olet k' := fix_kind Blocking false k in Ok (IAssign k' l e)
  | IBlock b => olet x := fix_stmts Blocking false (b_body b) in Ok (IBlock (with_body b x))
  | _ => Ok i
  end.
(* src/transform.cc:67-75 *)
Definition fix_assignment_type (m : list item) : outcome (list item) :=
  olet m1 := omapM fix_block m in omapM fix_rest m1.

(* src/transform.cc:922-966; the size checks cannot fail *)
Definition sortable (i : item) : bool :=
  match i with
  | IAssign _ _ _ | IInst _ => true
  | IBlock b => match b_kind b with KComb | KSeq | KLatch => true | _ => false end
  | IOther _ => false
  end.
Definition is_kind (k : bkind) (i : item) : bool :=
  match i with IBlock b => match b_kind b, k with KComb, KComb | KSeq, KSeq | KLatch, KLatch => true | _, _ => false end | _ => false end.
Definition sort_stmts (m : list item) : outcome (list item) :=
  if forallb sortable m then
    Ok (filter (fun i => match i with IAssign _ _ _ => true | _ => false end) m
        ++ filter (fun i => match i with IInst _ => true | _ => false end) m
        ++ filter (is_kind KLatch) m ++ filter (is_kind KComb) m ++ filter (is_kind KSeq) m)
  else Throw.
(* src/transform.cc:973-994; std::stable_sort as an insertion sort *)
Definition get_order (i : item) : nat :=
  match i with IBlock b => match b_kind b with KInit => 1%nat | _ => O end | _ => O end.
Fixpoint insert_item (x : item) (l : list item) : list item :=
  match l with
  | [] => [x]
  | y :: r => if Nat.ltb (get_order y) (get_order x) then y :: insert_item x r else x :: l
  end.
Fixpoint sort_initial (m : list item) : list item :=
  match m with [] => [] | x :: r => insert_item x (sort_initial r) end.

(* removing from a block: the statements of the block, then the nested blocks
   (src/ir.cc:24-40).  The empty blocks are removed by another pass (RemoveEmpty_model.v). *)
Section strip.
  Variable p : stmt -> bool.
  Fixpoint strip_stmt (s : stmt) : stmt :=
    let fix all (l : list stmt) : list stmt :=
      match l with [] => [] | s :: r => if p s then all r else strip_stmt s :: all r end in
    match s with
    | SIf c t f => SIf c (all t) (all f)
    | SSwitch e cs d => SSwitch e (map (fun c => (fst c, all (snd c))) cs) (match d with Some b => Some (all b) | None => None end)
    | SFor i a b st body => SFor i a b st (all body)
    | SBlock body => SBlock (all body)
    | s => s
    end.
  Fixpoint strip_body (l : list stmt) : list stmt :=
    match l with [] => [] | s :: r => if p s then strip_body r else strip_stmt s :: strip_body r end.
  (* blocks of the kinds the visitor handles lose their own statements; in the others only the
     nested blocks are handled *)
  Definition strip_block (b : block) : block :=
    match b_kind b with
    | KComb | KSeq => with_body b (strip_body (b_body b))
    | _ => with_body b (map strip_stmt (b_body b))
    end.
  Definition strip_items (m : list item) : list item :=
    map (fun i => match i with IBlock b => IBlock (strip_block b) | i => i end)
      (filter (fun i => match i with IOther o => negb (p (SOther o)) | _ => true end) m).
End strip.
(* src/event.cc:67-104 *)
Definition remove_events (m : list item) : list item := strip_items is_event m.
(* src/debug.cc:565-595.  For a sequential block child_count() includes the event controls, and
   their variables are used as statements: undefined. *)
Definition remove_assertions (m : list item) : outcome (list item) :=
  if existsb (fun i => match i with IBlock b => match b_kind b, b_events b with KSeq, _ :: _ => true | _, _ => false end | _ => false end) m
  then UB else Ok (strip_items is_assertion m).

(* src/formal.cc:7-45 *)
Definition remove_async (m : list item) : list item :=
  map (fun i => match i with
                | IBlock b => match b_kind b with
                              | KSeq => IBlock {| b_kind := b_kind b; b_events := filter (fun e => negb (e_async e)) (b_events b);
                                                  b_unchecked := b_unchecked b; b_body := b_body b |}
                              | _ => i
                              end
                | _ => i
                end) m.

(* src/generator.cc:545-548, 623-645 with the cache switched on: add_stmt and remove_stmt calls,
   then clear_remove_stmt_cache *)
Definition memb (x : nat) (l : list nat) : bool := existsb (Nat.eqb x) l.
Definition edit_cached (s : list nat * list nat) (o : edit) : list nat * list nat :=
  match o with Add x => (fst s ++ [x], snd s) | Remove x => (fst s, x :: snd s) end.
Definition clear_cache (s : list nat * list nat) : list nat := filter (fun x => negb (memb x (snd s))) (fst s).
