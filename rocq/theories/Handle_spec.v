(* Hierarchical names: the names between dots, from the top or from an instance (IEEE 1800-2017, 23.6). *)
From Verif Require Import Base.
Local Open Scope nat_scope.

Definition text := list nat.
Definition dot : nat := 46.
(* the names a text is read as *)
Fixpoint split_from (acc : text) (t : text) : list text :=
  match t with [] => [rev acc] | c :: r => if Nat.eqb c dot then rev acc :: split_from [] r else split_from (c :: acc) r end.
Definition split (t : text) : list text := split_from [] t.
Definition plain (n : text) : Prop := n <> [] /\ ~ In dot n.
(* a variable: the instances from the top, and its name *)
Record var := { v_path : list text; v_name : text }.
Definition plain_var (v : var) : Prop := v_path v <> [] /\ Forall plain (v_path v) /\ plain (v_name v).
(* the instance of the variable is the scope or below it; [rest] leads from the scope to it *)
Definition below (scope : list text) (v : var) (rest : list text) : Prop := v_path v = scope ++ rest.
(* expressions; an operator is its number in the enumeration of operators; EExt: an extension or repetition *)
Inductive expr := EVar (v : var) | EUn (op : nat) (a : expr) | EBin (op : nat) (a b : expr) | ECat (a b : expr) | ECond (c a b : expr) | EExt (w : text) (a : expr).
Fixpoint vars (e : expr) : list var :=
  match e with EVar v => [v] | EUn _ a | EExt _ a => vars a | EBin _ a b | ECat a b => vars a ++ vars b | ECond c a b => vars c ++ vars a ++ vars b end.
(* an expression with other names for its variables *)
Fixpoint rename (f : var -> text) (e : expr) : expr :=
  match e with
  | EVar v => EVar {| v_path := v_path v; v_name := f v |}
  | EUn o a => EUn o (rename f a) | EBin o a b => EBin o (rename f a) (rename f b)
  | ECat a b => ECat (rename f a) (rename f b) | ECond c a b => ECond (rename f c) (rename f a) (rename f b)
  | EExt w a => EExt w (rename f a)
  end.
Definition is_var (e : expr) : bool := match e with EVar _ => true | _ => false end.
(* no extension, and the condition of every ?: is a variable *)
Fixpoint simple (e : expr) : bool :=
  match e with
  | EVar _ => true | EUn _ a => simple a | EBin _ a b | ECat a b => simple a && simple b
  | ECond c a b => is_var c && simple a && simple b | EExt _ _ => false
  end.
(* variables and concatenations of such *)
Fixpoint no_operator (e : expr) : bool := match e with EVar _ => true | ECat a b => no_operator a && no_operator b | _ => false end.
