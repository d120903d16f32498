(* Structural hashing: what a copy of a module is, and which differences matter. *)
From Verif Require Import Base IR IRSem_spec.
From Coq Require Import Permutation.
Local Open Scope Z_scope.

(* the event controls of a sequential block: is it a positive edge, and the signal *)
Definition event := (bool * var)%type.
(* the statements at the top of a module *)
Inductive top : Type :=
| TAssign (k : akind) (l : lhs) (e : expr)
| TComb (body : list stmt)
| TSeq (evs : list event) (body : list stmt)
| TInit (body : list stmt)
| TInst (h : Z)                       (* an instance; h is the hash of the instantiated module *).
(* a module: name, names of its variables, top-level statements and child modules *)
Inductive gen : Type := Gen (name : string) (vars : list string) (body : list top) (kids : list gen).

(* the same expression, statement and module over other variable identities *)
Fixpoint ren_e (f : var -> var) (e : expr) : expr :=
  match e with
  | EVar x => EVar (f x)
  | EConst v w s => EConst v w s
  | EUn op a => EUn op (ren_e f a)
  | EBin op a b => EBin op (ren_e f a) (ren_e f b)
  | ECond c a b => ECond (ren_e f c) (ren_e f a) (ren_e f b)
  | ESlice a hi lo => ESlice (ren_e f a) hi lo
  | EConcat a b => EConcat (ren_e f a) (ren_e f b)
  | EExtend a w => EExtend (ren_e f a) w
  end.
Definition ren_l (f : var -> var) (l : lhs) : lhs :=
  match l with
  | LVar x => LVar (f x)
  | LSlice x hi lo => LSlice (f x) hi lo
  | LDyn x i w => LDyn (f x) (ren_e f i) w
  end.
Fixpoint ren_s (f : var -> var) (s : stmt) : stmt :=
  match s with
  | SAssign k l e => SAssign k (ren_l f l) (ren_e f e)
  | SIf c t e => SIf (ren_e f c) (map (ren_s f) t) (map (ren_s f) e)
  | SSwitch e cs d =>
      SSwitch (ren_e f e) (map (fun c => (fst c, map (ren_s f) (snd c))) cs)
        (match d with Some b => Some (map (ren_s f) b) | None => None end)
  | SFor i a b st body => SFor (f i) a b st (map (ren_s f) body)
  | SBlock body => SBlock (map (ren_s f) body)
  | SReturn e => SReturn (ren_e f e)
  | SBreak => SBreak
  | SOther k => SOther k
  end.
Definition ren_t (f : var -> var) (t : top) : top :=
  match t with
  | TAssign k l e => TAssign k (ren_l f l) (ren_e f e)
  | TComb b => TComb (map (ren_s f) b)
  | TSeq evs b => TSeq (map (fun v => (fst v, f (snd v))) evs) (map (ren_s f) b)
  | TInit b => TInit (map (ren_s f) b)
  | TInst h => TInst h
  end.

(* Differences the hash should see but does not: operand order, the condition of a ternary
   operator, the width of an extension, case labels, loop bounds, kinds of assignment. *)
Inductive blind_e : expr -> expr -> Prop :=
| be_refl e : blind_e e e
| be_trans a b c : blind_e a b -> blind_e b c -> blind_e a c
| be_un op a a' : blind_e a a' -> blind_e (EUn op a) (EUn op a')
| be_bin op a a' b b' : blind_e a a' -> blind_e b b' -> blind_e (EBin op a b) (EBin op a' b')
| be_swap op a b : blind_e (EBin op a b) (EBin op b a)
| be_cond c c' a a' b b' : blind_e a a' -> blind_e b b' -> blind_e (ECond c a b) (ECond c' a' b')
| be_mux c a b : blind_e (ECond c a b) (ECond c b a)
| be_const v w w' s s' : blind_e (EConst v w s) (EConst v w' s')
| be_cat a b : blind_e (EConcat a b) (EConcat b a)
| be_ext a a' w w' : blind_e a a' -> blind_e (EExtend a w) (EExtend a' w').
Inductive blind_s : stmt -> stmt -> Prop :=
| bs_refl s : blind_s s s
| bs_assign k k' l e e' : blind_e e e' -> blind_s (SAssign k l e) (SAssign k' l e')
| bs_if c t t' f f' : blind_l t t' -> blind_l f f' -> blind_s (SIf c t f) (SIf c t' f')
| bs_switch e cs cs' : blind_c cs cs' -> blind_s (SSwitch e cs None) (SSwitch e cs' None)
| bs_default e cs cs' d d' : blind_c cs cs' -> blind_l d d' -> blind_s (SSwitch e cs (Some d)) (SSwitch e cs' (Some d'))
| bs_for i i' a a' b b' s s' body body' : blind_l body body' -> blind_s (SFor i a b s body) (SFor i' a' b' s' body')
| bs_block body body' : blind_l body body' -> blind_s (SBlock body) (SBlock body')
with blind_l : list stmt -> list stmt -> Prop :=
| bl_nil : blind_l [] []
| bl_cons s s' l l' : blind_s s s' -> blind_l l l' -> blind_l (s :: l) (s' :: l')
with blind_c : list (Z * list stmt) -> list (Z * list stmt) -> Prop :=
| bc_nil : blind_c [] []
| bc_cons v v' b b' l l' : blind_l b b' -> blind_c l l' -> blind_c ((v, b) :: l) ((v', b') :: l').
Inductive blind_t : top -> top -> Prop :=
| bt_refl t : blind_t t t
| bt_assign k k' l e e' : blind_e e e' -> blind_t (TAssign k l e) (TAssign k' l e')
| bt_comb b b' : blind_l b b' -> blind_t (TComb b) (TComb b')
| bt_seq evs b b' : blind_l b b' -> blind_t (TSeq evs b) (TSeq evs b')
| bt_init b b' : blind_l b b' -> blind_t (TInit b) (TInit b').
(* a copy of a module over other variable objects, its variables declared in another order *)
Inductive copy_of (f : var -> var) : gen -> gen -> Prop :=
| copy_gen name vars vars' body kids kids' :
    Permutation vars vars' -> copies_of f kids kids' ->
    copy_of f (Gen name vars body kids) (Gen name vars' (map (ren_t f) body) kids')
with copies_of (f : var -> var) : list gen -> list gen -> Prop :=
| copies_nil : copies_of f [] []
| copies_cons g g' l l' : copy_of f g g' -> copies_of f l l' -> copies_of f (g :: l) (g' :: l').
(* the number of statements that count: assignments, ifs, switches, processes, instances *)
Fixpoint count_s (s : stmt) : nat :=
  let fix all (l : list stmt) : nat := match l with [] => 0 | s :: r => count_s s + all r end%nat in
  match s with
  | SAssign _ _ _ => 1
  | SIf _ t f => S (all t + all f)
  | SSwitch _ cs d => S ((fix cases (l : list (Z * list stmt)) : nat := match l with [] => 0 | c :: r => all (snd c) + cases r end%nat) cs
                         + match d with Some b => all b | None => 0 end)
  | SFor _ _ _ _ b => all b
  | SBlock b => all b
  | _ => 0
  end%nat.
Fixpoint count_b (l : list stmt) : nat := match l with [] => 0 | s :: r => count_s s + count_b r end%nat.
Definition count_t (t : top) : nat :=
  match t with TAssign _ _ _ => 1 | TComb b => S (count_b b) | TSeq _ b => S (count_b b) | TInit b => count_b b | TInst _ => 1 end%nat.
Fixpoint count_ts (l : list top) : nat := match l with [] => 0 | t :: r => count_t t + count_ts r end%nat.
(* two texts that differ in one character *)
Definition one_change (a b : string) : Prop := exists s c d t, a = (s ++ String c t)%string /\ b = (s ++ String d t)%string /\ c <> d.
(* t comes after the last whole group of four counted statements: always so in a module with at most three *)
Definition in_tail (pre : list top) (t : top) (post : list top) : Prop :=
  exists whole rest, pre = (whole ++ rest)%list /\ Nat.modulo (count_ts whole) 4 = 0%nat /\ (count_ts (rest ++ t :: post) < 4)%nat.
