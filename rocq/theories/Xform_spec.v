(* Passes over the statement list of a module: what they should and should not change. *)
From Verif Require Import Base IR IRSem_spec.
From Coq Require Import Permutation Sorted.
Local Open Scope Z_scope.

(* ---- the items of a module ---- *)
Inductive bkind : Type := KComb | KSeq | KLatch | KInit | KFunc.
(* an event control: is the signal an asynchronous reset, and the signal *)
Record ectl := { e_async : bool; e_sig : var; e_pos : bool }.
Record block := { b_kind : bkind; b_events : list ectl; b_unchecked : bool (* attribute check_assignment=false *); b_body : list stmt }.
Inductive item : Type :=
| IAssign (k : akind) (l : lhs) (e : expr)
| IBlock (b : block)
| IInst (m : nat)
| IOther (o : other_kind).

(* ---- kinds of assignments ---- *)
(* the kinds in textual order *)
Fixpoint kinds_s (s : stmt) : list akind :=
  match s with
  | SAssign k _ _ => [k]
  | SIf _ t f => flat_map kinds_s t ++ flat_map kinds_s f
  | SSwitch _ cs d => flat_map (fun c => flat_map kinds_s (snd c)) cs ++ match d with Some b => flat_map kinds_s b | None => [] end
  | SFor _ _ _ _ b | SBlock b => flat_map kinds_s b
  | _ => []
  end.
Definition kinds (l : list stmt) : list akind := flat_map kinds_s l.
(* the same statement with the kinds forgotten *)
Fixpoint forget (s : stmt) : stmt :=
  match s with
  | SAssign _ l e => SAssign Undefined l e
  | SIf c t f => SIf c (map forget t) (map forget f)
  | SSwitch e cs d => SSwitch e (map (fun c => (fst c, map forget (snd c))) cs) (match d with Some b => Some (map forget b) | None => None end)
  | SFor i a b st body => SFor i a b st (map forget body)
  | SBlock body => SBlock (map forget body)
  | s => s
  end.
Definition item_kinds (i : item) : list akind := match i with IAssign k _ _ => [k] | IBlock b => kinds (b_body b) | _ => [] end.
Definition item_forget (i : item) : item :=
  match i with
  | IAssign _ l e => IAssign Undefined l e
  | IBlock b => IBlock {| b_kind := b_kind b; b_events := b_events b; b_unchecked := b_unchecked b; b_body := map forget (b_body b) |}
  | i => i
  end.
(* blocks in which a kind is required, and which *)
Definition required (i : item) : option akind :=
  match i with
  | IBlock b => match b_kind b with
                | KComb | KFunc => Some Blocking
                | KSeq => if b_unchecked b then None else Some NonBlocking
                | _ => None
                end
  | _ => None
  end.
(* an explicit kind that is not the required one *)
Definition conflict (i : item) : Prop :=
  exists ty k, required i = Some ty /\ In k (item_kinds i) /\ k <> Undefined /\ k <> ty.
Definition resolve (ty k : akind) : akind := match k with Undefined => ty | _ => k end.

(* ---- sorting ---- *)
(* l' is l sorted by rank, equal ranks in the old order *)
Definition stably_sorted {A} (rank : A -> nat) (l l' : list A) : Prop :=
  Permutation l l' /\ StronglySorted (fun a b => (rank a <= rank b)%nat) l' /\
  forall r, filter (fun a => Nat.eqb (rank a) r) l' = filter (fun a => Nat.eqb (rank a) r) l.
Definition item_rank (i : item) : nat :=
  match i with
  | IAssign _ _ _ => 0
  | IInst _ => 1
  | IBlock b => match b_kind b with KLatch => 2 | KComb => 3 | KSeq => 4 | _ => 5 end
  | IOther _ => 5
  end.
Definition initial_rank (i : item) : nat :=
  match i with IBlock b => match b_kind b with KInit => 1 | _ => 0 end | _ => 0 end.

(* ---- removing statements ---- *)
(* l' is l without the statements satisfying p, at any depth *)
Inductive stripped (p : stmt -> bool) : list stmt -> list stmt -> Prop :=
| st_nil : stripped p [] []
| st_drop s l l' : p s = true -> stripped p l l' -> stripped p (s :: l) l'
| st_keep s s' l l' : p s = false -> strip_in p s s' -> stripped p l l' -> stripped p (s :: l) (s' :: l')
with strip_in (p : stmt -> bool) : stmt -> stmt -> Prop :=
| si_if c t t' f f' : stripped p t t' -> stripped p f f' -> strip_in p (SIf c t f) (SIf c t' f')
| si_switch e cs cs' : strip_cs p cs cs' -> strip_in p (SSwitch e cs None) (SSwitch e cs' None)
| si_default e cs cs' d d' : strip_cs p cs cs' -> stripped p d d' -> strip_in p (SSwitch e cs (Some d)) (SSwitch e cs' (Some d'))
| si_for i a b st body body' : stripped p body body' -> strip_in p (SFor i a b st body) (SFor i a b st body')
| si_block body body' : stripped p body body' -> strip_in p (SBlock body) (SBlock body')
| si_assign k l e : strip_in p (SAssign k l e) (SAssign k l e)
| si_ret e : strip_in p (SReturn e) (SReturn e)
| si_break : strip_in p SBreak SBreak
| si_other o : strip_in p (SOther o) (SOther o)
with strip_cs (p : stmt -> bool) : list (Z * list stmt) -> list (Z * list stmt) -> Prop :=
| sc_nil : strip_cs p [] []
| sc_cons v b b' l l' : stripped p b b' -> strip_cs p l l' -> strip_cs p ((v, b) :: l) ((v, b') :: l').
Definition is_assertion (s : stmt) : bool := match s with SOther OAssertValue | SOther OAssertProperty => true | _ => false end.
Definition is_event (s : stmt) : bool := match s with SOther OEvent => true | _ => false end.
Definition item_stmt (i : item) : option stmt := match i with IOther o => Some (SOther o) | _ => None end.
(* a module without the items and statements satisfying p *)
Inductive items_stripped (p : stmt -> bool) : list item -> list item -> Prop :=
| is_nil : items_stripped p [] []
| is_drop o l l' : p (SOther o) = true -> items_stripped p l l' -> items_stripped p (IOther o :: l) l'
| is_other o l l' : p (SOther o) = false -> items_stripped p l l' -> items_stripped p (IOther o :: l) (IOther o :: l')
| is_assign k x e l l' : items_stripped p l l' -> items_stripped p (IAssign k x e :: l) (IAssign k x e :: l')
| is_inst m l l' : items_stripped p l l' -> items_stripped p (IInst m :: l) (IInst m :: l')
| is_block b body l l' : stripped p (b_body b) body -> items_stripped p l l' ->
    items_stripped p (IBlock b :: l)
      (IBlock {| b_kind := b_kind b; b_events := b_events b; b_unchecked := b_unchecked b; b_body := body |} :: l').

(* ---- removing statements from a list, one at a time ---- *)
Inductive edit : Type := Add (s : nat) | Remove (s : nat).
Fixpoint remove_first (x : nat) (l : list nat) : list nat :=
  match l with [] => [] | y :: r => if Nat.eqb x y then r else y :: remove_first x r end.
Definition edit_now (l : list nat) (o : edit) : list nat :=
  match o with Add s => l ++ [s] | Remove s => remove_first s l end.
