(* Shared vocabulary of the whole development: the possible outcomes of a C++
   call, fixed-width machine words, and the operator enumeration. *)
From Coq Require Export String Ascii.
From Coq Require Export List ZArith NArith Lia Bool.
From Coq Require Export ZifyBool ZifyNat ZifyN.
Export ListNotations.
Local Open Scope Z_scope.

(* Outcome of a C++ call: a value, a thrown exception, or undefined behaviour
   (shift by >= 64, division by zero, null dereference, out-of-range read, ...).
   UB is a distinct outcome so that no theorem is true by totalisation. *)
Inductive outcome (A : Type) : Type :=
| Ok (a : A)
| Throw
| UB.
Arguments Ok {A} a.
Arguments Throw {A}.
Arguments UB {A}.

Lemma Ok_inj A (a b : A) : Ok a = Ok b -> a = b.
Proof. intros H; injection H; trivial. Qed.

Definition obind {A B} (x : outcome A) (f : A -> outcome B) : outcome B :=
  match x with Ok a => f a | Throw => Throw | UB => UB end.
Notation "'olet' x := a 'in' b" := (obind a (fun x => b))
  (at level 200, x name, a at level 100, b at level 200).

Definition omap {A B} (f : A -> B) (x : outcome A) : outcome B :=
  match x with Ok a => Ok (f a) | Throw => Throw | UB => UB end.

(* uint64_t: integers modulo 2^64 *)
Definition u64 (z : Z) : Z := z mod 2 ^ 64.
(* uint32_t: integers modulo 2^32 *)
Definition u32 (z : Z) : Z := z mod 2 ^ 32.

(* src/expr.hh:17-59  enum class ExprOp *)
Inductive expr_op : Type :=
| UInvert | UMinus | UPlus | UOr | UNot | UAnd | UXor
| Add | Minus | Divide | Multiply | Mod | LogicalShiftRight | SignedShiftRight
| ShiftLeft | Or | And | Xor | Power | LAnd | LOr
| LessThan | GreaterThan | LessEqThan | GreaterEqThan | Eq | Neq
| Conditional | Concat | Extend | Duplicate.

Definition expr_op_eq_dec (a b : expr_op) : {a = b} + {a <> b}.
Proof. decide equality. Defined.
Definition expr_op_eqb (a b : expr_op) : bool :=
  if expr_op_eq_dec a b then true else false.
Lemma expr_op_eqb_eq a b : expr_op_eqb a b = true <-> a = b.
Proof. unfold expr_op_eqb; destruct (expr_op_eq_dec a b); split; congruence. Qed.

(* std::vector loop calling something that can fail on each element *)
Fixpoint omapM {A B} (f : A -> outcome B) (l : list A) : outcome (list B) :=
  match l with
  | [] => Ok []
  | a :: r => olet b := f a in olet s := omapM f r in Ok (b :: s)
  end.

Lemma obind_Ok {A B} (x : outcome A) (f : A -> outcome B) b :
  obind x f = Ok b -> exists a, x = Ok a /\ f a = Ok b.
Proof. destruct x; cbn; intros H; try discriminate. eauto. Qed.

Lemma omapM_Forall2 {A B} (f : A -> outcome B) l l' :
  omapM f l = Ok l' -> Forall2 (fun a b => f a = Ok b) l l'.
Proof.
  revert l'; induction l as [|a r IH]; intros l' H; cbn in H.
  - apply Ok_inj in H; subst; constructor.
  - apply obind_Ok in H as (b & Hb & H). apply obind_Ok in H as (s & Hs & H).
    apply Ok_inj in H; subst. constructor; auto.
Qed.

Lemma omapM_Ok {A B} (f : A -> outcome B) l :
  (forall a, In a l -> exists b, f a = Ok b) -> exists l', omapM f l = Ok l'.
Proof.
  induction l as [|a r IH]; intros H; cbn; [eauto|].
  destruct (H a) as [b Hb]; [now left|]. rewrite Hb.
  destruct IH as [s Hs]; [intros; apply H; now right|]. rewrite Hs. cbn. eauto.
Qed.
