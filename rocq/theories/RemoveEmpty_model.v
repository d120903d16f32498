(* Model of the empty-block removal pass, src/optimize.cc:926-1014. *)
From Verif Require Import Base IR.
Local Open Scope Z_scope.

(* src/optimize.cc:997-1008 dispatch_node and the three process overloads (941-995).
   Ok None: nullptr (the statement is to be removed); UB: null dereference. *)
Fixpoint reb (s : stmt) : outcome (option stmt) :=
  (* 961-981 process(StmtBlock): returns the block with the removed statements gone; the
     caller tests emptiness, which is when the C++ returns nullptr *)
  let fix blk (l : list stmt) : outcome (list stmt) :=
    match l with
    | [] => Ok []
    | s :: r =>
        olet x := reb s in
        olet r' := blk r in
        Ok (match x with None => r' | Some s' => s' :: r' end)
    end in
  match s with
  | SIf c t f =>
      (* 941-959; else_body is nullptr when empty, so else_body->empty() is a null
         dereference when both are empty *)
      olet t' := blk t in
      olet f' := blk f in
      match t' with
      | [] => match f' with
              | [] => UB
              | _ => Ok (Some (SIf (EUn UInvert c) f' []))
              end
      | _ => Ok (Some (SIf c t' f'))
      end
  | SSwitch e cs d =>
      (* 983-995; cases and default are entries of one map *)
      olet cs' := (fix goc (l : list (Z * list stmt)) : outcome (list (Z * list stmt)) :=
                     match l with
                     | [] => Ok []
                     | cb :: r =>
                         olet b' := blk (snd cb) in
                         olet r' := goc r in
                         Ok (match b' with [] => r' | _ => (fst cb, b') :: r' end)
                     end) cs in
      olet d' := match d with
                 | None => Ok None
                 | Some b => olet b' := blk b in
                             Ok (match b' with [] => None | _ => Some b' end)
                 end in
      match cs', d' with
      | [], None => Ok None
      | _, _ => Ok (Some (SSwitch e cs' d'))
      end
  | SBlock b =>
      olet b' := blk b in
      Ok (match b' with [] => None | _ => Some (SBlock b') end)
  | _ => Ok (Some s)
  end.

(* src/optimize.cc:961-981 process(StmtBlock) *)
Fixpoint reb_block (l : list stmt) : outcome (list stmt) :=
  match l with
  | [] => Ok []
  | s :: r =>
      olet x := reb s in
      olet r' := reb_block r in
      Ok (match x with None => r' | Some s' => s' :: r' end)
  end.
Fixpoint reb_cases (l : list (Z * list stmt)) : outcome (list (Z * list stmt)) :=
  match l with
  | [] => Ok []
  | cb :: r =>
      olet b' := reb_block (snd cb) in
      olet r' := reb_cases r in
      Ok (match b' with [] => r' | _ => (fst cb, b') :: r' end)
  end.
(* src/optimize.cc:928-938 visit(Generator): a process whose body became empty is removed;
   None stands for that *)
Definition remove_empty_process (body : list stmt) : outcome (option (list stmt)) :=
  olet b := reb_block body in Ok (match b with [] => None | _ => Some b end).
