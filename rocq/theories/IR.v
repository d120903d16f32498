(* The statement and expression trees that kratos passes work on.
   Syntax only; the meaning is in IRSem_spec.v. *)
From Verif Require Import Base.
Local Open Scope Z_scope.

(* src/expr.hh:73-330 struct Var: a variable is identified by its object identity;
   here by a number.  Names are modelled separately (Namespace_model.v). *)
Definition var := nat.

(* src/expr.hh:73-330, 442-470, 545-620: the expression nodes built by the overloaded
   operators.  Simplifications: VarConcat is binary (n-ary concatenation is nested);
   array dimensions are flattened to one bit vector; casts, function calls and
   enumerations are not represented; ConditionalExpr is ECond; VarExtend is EExtend. *)
Inductive expr : Type :=
| EVar (x : var)
| EConst (v w : Z) (s : bool)           (* Const: value, width, signed *)
| EUn (op : expr_op) (e : expr)
| EBin (op : expr_op) (a b : expr)
| ECond (c a b : expr)
| ESlice (e : expr) (hi lo : Z)
| EConcat (a b : expr)
| EExtend (e : expr) (w : Z).

Definition expr_eq_dec (a b : expr) : {a = b} + {a <> b}.
Proof.
  decide equality; try apply Z.eq_dec; try apply Nat.eq_dec; try apply bool_dec;
    apply expr_op_eq_dec.
Defined.
Definition expr_eqb (a b : expr) : bool := if expr_eq_dec a b then true else false.
Lemma expr_eqb_eq a b : expr_eqb a b = true <-> a = b.
Proof. unfold expr_eqb; destruct (expr_eq_dec a b); split; congruence. Qed.
Lemma expr_eqb_refl a : expr_eqb a a = true.
Proof. now apply expr_eqb_eq. Qed.

(* src/stmt.hh:13 enum class AssignmentType { Blocking, NonBlocking, Undefined } *)
Inductive akind : Type := Blocking | NonBlocking | Undefined.
Definition akind_eq_dec (a b : akind) : {a = b} + {a <> b}.
Proof. decide equality. Defined.

(* what an assignment may have on its left: a variable, a constant slice of one, or
   an element selected by an expression (src/expr.hh:352-440 VarSlice, VarVarSlice) *)
Inductive lhs : Type :=
| LVar (x : var)
| LSlice (x : var) (hi lo : Z)
| LDyn (x : var) (idx : expr) (w : Z).
Definition lhs_var (l : lhs) : var :=
  match l with LVar x => x | LSlice x _ _ => x | LDyn x _ _ => x end.

(* statements without an effect on variables (src/stmt.hh: CommentStmt, RawStringStmt,
   AssertBase; src/event.hh: EventTracingStmt) *)
Inductive other_kind : Type := OComment | ORaw | OAssertValue | OAssertProperty | OEvent.

(* src/stmt.hh:15-29 enum StatementType and the Stmt classes.  Function calls and
   module instantiations are not statements of this tree.  The case list of a switch
   is the std::map body_ without its nullptr entry; the default is that entry. *)
Inductive stmt : Type :=
| SAssign (k : akind) (l : lhs) (e : expr)
| SIf (c : expr) (t f : list stmt)
| SSwitch (e : expr) (cs : list (Z * list stmt)) (d : option (list stmt))
| SFor (i : var) (start stop step : Z) (body : list stmt)
| SBlock (body : list stmt)             (* ScopedStmtBlock used as a statement *)
| SReturn (e : expr)
| SBreak
| SOther (k : other_kind).

Arguments EVar x%nat_scope.
Arguments LVar x%nat_scope.
Arguments LSlice x%nat_scope (hi lo)%Z_scope.
Arguments LDyn x%nat_scope idx w%Z_scope.
Arguments SFor i%nat_scope (start stop step)%Z_scope body.

(* induction with hypotheses for every nested statement *)
Section StmtInd.
  Variable P : stmt -> Prop.
  Hypothesis Hassign : forall k l e, P (SAssign k l e).
  Hypothesis Hif : forall c t f, Forall P t -> Forall P f -> P (SIf c t f).
  Hypothesis Hswitch : forall e cs d,
      Forall (fun cb => Forall P (snd cb)) cs ->
      (forall b, d = Some b -> Forall P b) -> P (SSwitch e cs d).
  Hypothesis Hfor : forall i a b s body, Forall P body -> P (SFor i a b s body).
  Hypothesis Hblock : forall body, Forall P body -> P (SBlock body).
  Hypothesis Hret : forall e, P (SReturn e).
  Hypothesis Hbreak : P SBreak.
  Hypothesis Hother : forall k, P (SOther k).

  Fixpoint stmt_ind' (s : stmt) : P s :=
    let fix all (l : list stmt) : Forall P l :=
      match l with
      | [] => Forall_nil _
      | s :: r => Forall_cons s (stmt_ind' s) (all r)
      end in
    match s with
    | SAssign k l e => Hassign k l e
    | SIf c t f => Hif c t f (all t) (all f)
    | SSwitch e cs d =>
        Hswitch e cs d
          ((fix allc (l : list (Z * list stmt)) : Forall (fun cb => Forall P (snd cb)) l :=
              match l with
              | [] => Forall_nil _
              | cb :: r => Forall_cons cb (all (snd cb)) (allc r)
              end) cs)
          (match d as d0 return (forall b, d0 = Some b -> Forall P b) with
           | None => fun b H => False_ind _ (eq_ind (@None (list stmt))
                       (fun o => match o with None => True | Some _ => False end) I _ H)
           | Some b0 => fun b H => eq_ind b0 (Forall P) (all b0) b
                       (f_equal (fun o => match o with Some y => y | None => b0 end) H)
           end)
    | SFor i a b st body => Hfor i a b st body (all body)
    | SBlock body => Hblock body (all body)
    | SReturn e => Hret e
    | SBreak => Hbreak
    | SOther k => Hother k
    end.
End StmtInd.

(* number of statement nodes; the passes' recursion bound *)
Fixpoint ssize (s : stmt) : nat :=
  let fix sum (l : list stmt) : nat :=
    match l with [] => O | s :: r => (ssize s + sum r)%nat end in
  match s with
  | SIf _ t f => S (sum t + sum f)
  | SSwitch _ cs d =>
      S ((fix sumc (l : list (Z * list stmt)) : nat :=
            match l with [] => O | cb :: r => (sum (snd cb) + sumc r)%nat end) cs
         + match d with None => O | Some b => sum b end)
  | SFor _ _ _ _ body => S (sum body)
  | SBlock body => S (sum body)
  | _ => 1%nat
  end.
Fixpoint bsize (l : list stmt) : nat :=
  match l with [] => O | s :: r => (ssize s + bsize r)%nat end.
