(* Copying the parametrisation of a variable to another generator, and moving what is linked to a variable. *)
From Coq Require Import ZArith List Bool Arith.
From Verif Require Import Base Lnk_spec.
Import ListNotations.

(* -- copying a parametrised width: src/expr.cc:403-473 ------------------------------------------------------------ *)

(* The parameters of the design: the value each has, the parameter of the parent generator its value comes from
   (Param::parent_param), and the generator it belongs to. *)
Record params := mkP { pval : nat -> Z; pparent : nat -> option nat; powner : nat -> nat }.

(* src/expr.cc:403-412  check_parent_param *)
Definition check_parent_param (P : params) (q : option nat) (parent : nat) (check : bool) : outcome bool :=
  let correct := match q with Some q => Nat.eqb (powner P q) parent | None => false end in
  if negb correct && check then Throw else Ok correct.

(* src/expr.cc:414-445  copy_var_const_parm.  Only values are kept of constants: their width and sign are not
   modelled, and a parameter's current value is taken to fit its own width.  An operator that was a ternary is
   rebuilt by Generator::expr from its left and right alone (src/generator.cc:208-212), as operator number
   [cond_op], and has lost its condition. *)
Definition cond_op : nat := 0.

Fixpoint copy_width (P : params) (parent : nat) (check : bool) (e : wexpr) : outcome wexpr :=
  match e with
  | WParam p =>
      olet correct := check_parent_param P (pparent P p) parent check in
      if correct then match pparent P p with Some q => Ok (WParam q) | None => UB end
      else Ok (WConst (pval P p))
  | WConst v => Ok (WConst v)
  | WOp op l None => olet l' := copy_width P parent check l in Ok (WOp op l' None)
  | WOp op l (Some r) =>
      olet l' := copy_width P parent check l in
      olet r' := copy_width P parent check r in
      Ok (WOp op l' (Some r'))
  | WTern c l r =>
      olet l' := copy_width P parent check l in
      olet r' := copy_width P parent check r in
      Ok (WOp cond_op l' (Some r'))
  | WVar _ => Throw
  end.

(* A variable: its generator, its width, the expression its width is tied to, and the same for the size of each of
   its dimensions. *)
Record pvar := mkV { vgen : nat; vwidth : Z; vwparam : option wexpr; vsizes : list (Z * option wexpr) }.

Definition copy_opt (P : params) (parent : nat) (check : bool) (e : option wexpr) : outcome (option wexpr) :=
  match e with
  | None => Ok None
  | Some e => olet e' := copy_width P parent check e in Ok (Some e')
  end.

Section Copy.
  (* Simulator::static_evaluate_expr: the value of an expression of constants and parameters *)
  Variable evaluate : wexpr -> outcome Z.

  (* src/expr.cc:325-350  Var::set_width_param, with an expression (the null case is Param_model's) *)
  Definition set_width (v : pvar) (e : wexpr) : outcome pvar :=
    olet w := evaluate e in Ok (mkV (vgen v) w (Some e) (vsizes v)).

  (* src/expr.cc:354-402  Var::set_size_param on a fresh variable, which nothing slices yet; [i] is its dimension *)
  Fixpoint put_size (l : list (Z * option wexpr)) (i : nat) (s : Z) (e : wexpr) : list (Z * option wexpr) :=
    match l, i with
    | [], _ => []
    | _ :: l, O => (s, Some e) :: l
    | d :: l, S i => d :: put_size l i s e
    end.

  Definition set_size (v : pvar) (i : nat) (e : wexpr) : outcome pvar :=
    if Nat.ltb i (List.length (vsizes v)) then
      olet s := evaluate e in Ok (mkV (vgen v) (vwidth v) (vwparam v) (put_size (vsizes v) i s e))
    else Throw.

  (* src/expr.cc:447-473  Var::copy_meta_data without the raw type (463-472); the sizes in the order of their
     dimensions, as size_param_ is a map *)
  Fixpoint copy_sizes (P : params) (check : bool) (l : list (Z * option wexpr)) (i : nat) (v : pvar) : outcome pvar :=
    match l with
    | [] => Ok v
    | (_, None) :: l => copy_sizes P check l (S i) v
    | (_, Some e) :: l =>
        olet e' := copy_width P (vgen v) check e in
        olet v' := set_size v i e' in
        copy_sizes P check l (S i) v'
    end.

  Definition copy_meta_data (P : params) (check : bool) (this new : pvar) : outcome pvar :=
    olet v := match vwparam this with
              | Some e => olet e' := copy_width P (vgen new) check e in set_width new e'
              | None => Ok new end in
    copy_sizes P check (vsizes this) 0 v.

  (* src/generator.cc:106-114  Generator::var(v, name) for a name the generator does not have: a variable of the
     same width and sizes, on which copy_meta_data is called with itself *)
  Definition var_like (P : params) (g : nat) (v : pvar) : outcome pvar :=
    let fresh := mkV g (vwidth v) None (map (fun d => (fst d, None)) (vsizes v)) in
    copy_meta_data P true fresh fresh.
End Copy.

(* -- moving what hangs off a variable: src/expr.cc:1679-1716 ------------------------------------------------------ *)

(* An object of the IR: its width and sign; the slices, concatenations and casts that were taken of it; for a slice
   or a cast, what it was taken of; for a concatenation, its pieces. *)
Record obj := mkO {
  owidth : Z; osigned : bool;
  oslices : list nat; oconcats : list nat; ocasts : list nat;
  oparent : nat; opieces : list nat }.

Definition heap := nat -> obj.
Definition upd (h : heap) (x : nat) (o : obj) : heap := fun y => if Nat.eqb x y then o else h y.

Definition set_parent (h : heap) (x p : nat) : heap :=
  let o := h x in upd h x (mkO (owidth o) (osigned o) (oslices o) (oconcats o) (ocasts o) p (opieces o)).
Definition set_slices (h : heap) (x : nat) (l : list nat) : heap :=
  let o := h x in upd h x (mkO (owidth o) (osigned o) l (oconcats o) (ocasts o) (oparent o) (opieces o)).
Definition set_concats (h : heap) (x : nat) (l : list nat) : heap :=
  let o := h x in upd h x (mkO (owidth o) (osigned o) (oslices o) l (ocasts o) (oparent o) (opieces o)).
Definition set_casts (h : heap) (x : nat) (l : list nat) : heap :=
  let o := h x in upd h x (mkO (owidth o) (osigned o) (oslices o) (oconcats o) l (oparent o) (opieces o)).

Fixpoint insert (x : nat) (l : list nat) : list nat :=       (* casted_ is a set *)
  match l with
  | [] => [x]
  | y :: l' => if Nat.eqb x y then l else y :: insert x l'
  end.

(* src/expr.cc:1322-1327  VarConcat::replace_var: the first piece that is the target *)
Fixpoint replace_first (l : list nat) (v w : nat) : list nat :=
  match l with
  | [] => []
  | y :: l => if Nat.eqb y v then w :: l else y :: replace_first l v w
  end.
Definition replace_var (h : heap) (c v w : nat) : heap :=
  let o := h c in
  upd h c (mkO (owidth o) (osigned o) (oslices o) (oconcats o) (ocasts o) (oparent o) (replace_first (opieces o) v w)).

(* src/expr.cc:1679-1716  Var::move_linked_to, on the variable [v] and its new variable [w] whose root is [root]
   (the code asks get_var_root_parent, which is the same throughout).  [n] bounds the nesting of concatenations. *)
Fixpoint move_linked (n : nat) (h : heap) (root v w : nat) : outcome heap :=
  match n with
  | O => UB
  | S n =>
      if Nat.eqb v root then Ok h
      else if negb (Z.eqb (owidth (h w)) (owidth (h v))) then Throw
      else if negb (Bool.eqb (osigned (h w)) (osigned (h v))) then Throw
      else
        let h := fold_left (fun h s => set_parent h s w) (oslices (h v)) h in
        let h := set_slices h w (oslices (h v)) in
        let h := set_slices h v [] in
        olet h := fold_left (fun a c => olet h := a in
                                        olet h := move_linked n h root c w in
                                        Ok (replace_var h c v w)) (oconcats (h v)) (Ok h) in
        let h := set_concats h w (oconcats (h v)) in
        let h := set_concats h v [] in
        let h := fold_left (fun h x => let h := set_parent h x root in
                                       set_casts h root (insert x (ocasts (h root)))) (ocasts (h v)) h in
        Ok (set_casts h v [])
  end.
