(* Reading procedural SystemVerilog: the statement grammar on tokens. *)
From Verif Require Import Base IR.
From Coq Require Import Permutation.

Inductive tok : Type :=
| TAsg (k : akind) (l : lhs) (e : expr) | TReturn (e : expr) | TBreak | TAssert
| TIf (c : expr) | TElse | TBegin | TEnd
| TCase (e : expr) | TLabel (v : Z) | TDefault | TEndcase
| TFor (i : var) (start stop step : Z).
(* parse trees *)
Inductive ptree : Type :=
| PLeaf (t : tok)
| PIf (c : expr) (t : ptree) (e : option ptree)
| PBlock (l : list ptree)
| PCase (e : expr) (items : list (option Z * ptree))     (* None: default *)
| PFor (i : var) (start stop step : Z) (b : ptree).
Definition leaf (t : tok) : bool := match t with TAsg _ _ _ | TReturn _ | TBreak | TAssert => true | _ => false end.
Definition no_else (r : list tok) : Prop := forall r', r <> TElse :: r'.
(* parses i t r: the text i starts with the statement t and goes on with r.  An else belongs to
   the nearest if that can have it. *)
Inductive parses : list tok -> ptree -> list tok -> Prop :=
| ps_leaf t r : leaf t = true -> parses (t :: r) (PLeaf t) r
| ps_if_else c i t e r1 r : parses i t (TElse :: r1) -> parses r1 e r -> parses (TIf c :: i) (PIf c t (Some e)) r
| ps_if c i t r : parses i t r -> no_else r -> parses (TIf c :: i) (PIf c t None) r
| ps_block i l r : parses_list i l r -> parses (TBegin :: i) (PBlock l) r
| ps_case e i l r : parses_items i l r -> parses (TCase e :: i) (PCase e l) r
| ps_for v a b s i t r : parses i t r -> parses (TFor v a b s :: i) (PFor v a b s t) r
(* statements up to an end *)
with parses_list : list tok -> list ptree -> list tok -> Prop :=
| pl_end r : parses_list (TEnd :: r) [] r
| pl_cons i t r1 l r : parses i t r1 -> parses_list r1 l r -> parses_list i (t :: l) r
with parses_items : list tok -> list (option Z * ptree) -> list tok -> Prop :=
| pi_end r : parses_items (TEndcase :: r) [] r
| pi_label v i t r1 l r : parses i t r1 -> parses_items r1 l r -> parses_items (TLabel v :: i) ((Some v, t) :: l) r
| pi_default i t r1 l r : parses i t r1 -> parses_items r1 l r -> parses_items (TDefault :: i) ((None, t) :: l) r.

(* statements without text that is part of the grammar: comments, and event tracing *)
Definition silent (s : stmt) : bool := match s with SOther OComment | SOther OEvent => true | _ => false end.
(* no raw text, no property and no undefined assignment anywhere *)
Inductive plain : stmt -> Prop :=
| pn_asg k l e : k <> Undefined -> plain (SAssign k l e)
| pn_if c t f : Forall plain t -> Forall plain f -> plain (SIf c t f)
| pn_switch e cs d : Forall (fun c => Forall plain (snd c)) cs -> (forall b, d = Some b -> Forall plain b) -> plain (SSwitch e cs d)
| pn_for i a b s body : Forall plain body -> plain (SFor i a b s body)
| pn_block body : Forall plain body -> plain (SBlock body)
| pn_return e : plain (SReturn e)
| pn_break : plain SBreak
| pn_other k : k = OComment \/ k = OEvent \/ k = OAssertValue -> plain (SOther k).

(* the parse tree t is the statement s; a list of statements is a block, or the statement alone *)
Inductive same : ptree -> stmt -> Prop :=
| sm_asg k l e : same (PLeaf (TAsg k l e)) (SAssign k l e)
| sm_return e : same (PLeaf (TReturn e)) (SReturn e)
| sm_break : same (PLeaf TBreak) SBreak
| sm_assert : same (PLeaf TAssert) (SOther OAssertValue)
| sm_if c t th e el : same_body t th -> same_body e el -> same (PIf c t (Some e)) (SIf c th el)
| sm_if_no c t th : same_body t th -> same (PIf c t None) (SIf c th [])
| sm_case e items cs cs' d : Permutation cs cs' -> same_items items cs' d -> same (PCase e items) (SSwitch e cs d)
| sm_for i a b s t body : same_body t body -> same (PFor i a b s t) (SFor i a b s body)
| sm_block l body : same_list l body -> same (PBlock l) (SBlock body)
with same_body : ptree -> list stmt -> Prop :=
| sb_block l body : same_list l body -> same_body (PBlock l) body
| sb_one t s : same t s -> same_body t [s]
with same_list : list ptree -> list stmt -> Prop :=
| sl_nil : same_list [] []
| sl_silent l s body : silent s = true -> same_list l body -> same_list l (s :: body)
| sl_cons t s l body : same t s -> same_list l body -> same_list (t :: l) (s :: body)
with same_items : list (option Z * ptree) -> list (Z * list stmt) -> option (list stmt) -> Prop :=
| si_none : same_items [(None, PBlock [])] [] None
| si_default t b : same_body t b -> same_items [(None, t)] [] (Some b)
| si_cons v t b l cs d : same_body t b -> same_items l cs d -> same_items ((Some v, t) :: l) ((v, b) :: cs) d.
