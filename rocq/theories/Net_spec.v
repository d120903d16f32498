(* Who assigns a signal and who uses it. *)
From Verif Require Import Base IR.
Local Open Scope nat_scope.

(* expressions as far as signals are concerned *)
Inductive nexp : Type :=
| NVar (x : var)
| NConst
| NSlice (e : nexp)             (* e[hi:lo], e[3], e.member *)
| NIndex (e i : nexp)           (* e[i] *)
| NOp (a b : nexp) | NUn (a : nexp) | NCond (c a b : nexp)
| NCat (a b : nexp) | NExt (e : nexp) | NDup (e : nexp) | NCast (e : nexp).
(* signal x is somewhere in e *)
Inductive occurs (x : var) : nexp -> Prop :=
| oc_var : occurs x (NVar x)
| oc_slice e : occurs x e -> occurs x (NSlice e)
| oc_index_e e i : occurs x e -> occurs x (NIndex e i)
| oc_index_i e i : occurs x i -> occurs x (NIndex e i)
| oc_op_l a b : occurs x a -> occurs x (NOp a b) | oc_op_r a b : occurs x b -> occurs x (NOp a b)
| oc_un a : occurs x a -> occurs x (NUn a)
| oc_cond_c c a b : occurs x c -> occurs x (NCond c a b) | oc_cond_l c a b : occurs x a -> occurs x (NCond c a b) | oc_cond_r c a b : occurs x b -> occurs x (NCond c a b)
| oc_cat_l a b : occurs x a -> occurs x (NCat a b) | oc_cat_r a b : occurs x b -> occurs x (NCat a b)
| oc_ext e : occurs x e -> occurs x (NExt e) | oc_dup e : occurs x e -> occurs x (NDup e) | oc_cast e : occurs x e -> occurs x (NCast e).
(* an assignment to l changes x; an index in l uses x *)
Inductive drives (x : var) : nexp -> Prop :=
| dr_var : drives x (NVar x)
| dr_slice e : drives x e -> drives x (NSlice e) | dr_index e i : drives x e -> drives x (NIndex e i)
| dr_cat_l a b : drives x a -> drives x (NCat a b) | dr_cat_r a b : drives x b -> drives x (NCat a b)
| dr_cast e : drives x e -> drives x (NCast e).
Inductive indexes (x : var) : nexp -> Prop :=
| ix_here e i : occurs x i -> indexes x (NIndex e i)
| ix_slice e : indexes x e -> indexes x (NSlice e) | ix_index e i : indexes x e -> indexes x (NIndex e i)
| ix_cat_l a b : indexes x a -> indexes x (NCat a b) | ix_cat_r a b : indexes x b -> indexes x (NCat a b)
| ix_cast e : indexes x e -> indexes x (NCast e).
(* an assignment: left side, right side *)
Definition asg : Type := nexp * nexp.
Definition uses (x : var) (a : asg) : Prop := occurs x (snd a) \/ indexes x (fst a).
(* what can be assigned to *)
Inductive target : nexp -> Prop :=
| tg_var x : target (NVar x) | tg_slice e : target e -> target (NSlice e) | tg_index e i : target e -> target (NIndex e i)
| tg_cat a b : target a -> target b -> target (NCat a b) | tg_cast e : target e -> target (NCast e).
(* no part of a signal is selected *)
Fixpoint whole (e : nexp) : Prop :=
  match e with
  | NVar _ | NConst => True
  | NSlice _ | NIndex _ _ => False
  | NOp a b | NCat a b => whole a /\ whole b
  | NUn a | NExt a | NDup a | NCast a => whole a
  | NCond c a b => whole c /\ whole a /\ whole b
  end.
(* x is in e, not only in what slices and indices select from *)
Inductive open (x : var) : nexp -> Prop :=
| op_var : open x (NVar x)
| op_index e i : open x i -> open x (NIndex e i)
| op_op_l a b : open x a -> open x (NOp a b) | op_op_r a b : open x b -> open x (NOp a b)
| op_un a : open x a -> open x (NUn a)
| op_cond_c c a b : open x c -> open x (NCond c a b) | op_cond_l c a b : open x a -> open x (NCond c a b) | op_cond_r c a b : open x b -> open x (NCond c a b)
| op_cat_l a b : open x a -> open x (NCat a b) | op_cat_r a b : open x b -> open x (NCat a b)
| op_ext e : open x e -> open x (NExt e) | op_dup e : open x e -> open x (NDup e) | op_cast e : open x e -> open x (NCast e).
