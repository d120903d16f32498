(* Declared state machines and what they are supposed to do. *)
From Verif Require Import Base SV_spec IR IRSem_spec.
Local Open Scope Z_scope.

(* a declared state: the FSM it belongs to, its name, its transitions in the order of the
   next() calls (None: unconditional), its outputs in the order of the output() calls (None: the
   variable keeps its value) *)
Record fstate := { f_fsm : nat; f_name : string; f_next : list (option expr * nat);
                   f_out : list (var * option expr) }.
(* a family of FSMs nested by add_child_fsm; states are numbered 0 .. fam_n - 1
   and FSMs 0 .. fam_fsms - 1.  fam_outs: the declared outputs with their default values *)
Record family := { fam_n : nat; fam_state : nat -> fstate; fam_fsms : nat;
                   fam_parent : nat -> option nat; fam_name : nat -> string;
                   fam_outs : nat -> list (var * option expr) }.

(* g is f or nested in f *)
Inductive nested (F : family) (f : nat) : nat -> Prop :=
| ne_self : nested F f f
| ne_up g p : fam_parent F g = Some p -> nested F f p -> nested F f g.
(* the states of the machine f: its own and those of nested machines it can get to *)
Inductive member (F : family) (f : nat) : nat -> Prop :=
| me_own s : (s < fam_n F)%nat -> f_fsm (fam_state F s) = f -> member F f s
| me_next s c t : member F f s -> In (c, t) (f_next (fam_state F s)) ->
    nested F f (f_fsm (fam_state F t)) -> member F f t.
(* from s under the inputs r: the first transition whose condition holds, else the
   unconditional one, else no move *)
Definition next_state (G : tenv) (F : family) (r : venv) (s : nat) : nat :=
  let ts := f_next (fam_state F s) in
  match find (fun ct => match fst ct with Some c => truth G r c | None => false end) ts with
  | Some ct => snd ct
  | None => match find (fun ct => match fst ct with Some _ => false | None => true end) ts with
            | Some ct => snd ct
            | None => s
            end
  end.
(* one clock cycle, and a history of inputs *)
Definition cycle (G : tenv) (F : family) (start : nat) (in_reset : venv -> bool) (s : nat) (r : venv) : nat :=
  if in_reset r then start else next_state G F r s.
Definition history (G : tenv) (F : family) (start : nat) (in_reset : venv -> bool) (s : nat)
    (h : list venv) : nat := fold_left (cycle G F start in_reset) h s.
(* the value given for output x in state s: its own, else the default *)
Definition assoc {A : Type} (x : var) (l : list (var * A)) : option A :=
  option_map snd (find (fun p => Nat.eqb (fst p) x) l).
Definition declared (F : family) (s : nat) (x : var) : option expr :=
  match assoc x (f_out (fam_state F s)) with
  | Some v => v
  | None => match assoc x (fam_outs F (f_fsm (fam_state F s))) with Some v => v | None => None end
  end.
(* how often a state has an unconditional transition *)
Definition unconditional (F : family) (s : nat) : nat :=
  length (filter (fun ct => match fst ct with Some _ => false | None => true end) (f_next (fam_state F s))).

(* the family is the result of API calls: transitions lead to existing states, FSM parents are
   not cyclic, and an output is given once per state and declared once per FSM *)
Definition wf_family (F : family) : Prop :=
  (forall s c t, In (c, t) (f_next (fam_state F s)) -> (t < fam_n F)%nat)
  /\ (exists rank : nat -> nat, forall g, (rank g <= fam_fsms F)%nat
       /\ forall p, fam_parent F g = Some p -> (rank p < rank g)%nat)
  /\ (forall g p, fam_parent F g = Some p -> (g < fam_fsms F)%nat)
  /\ (forall s, NoDup (map fst (f_out (fam_state F s))))
  /\ (forall g, NoDup (map fst (fam_outs F g))).
(* the states of the machine are told apart by FSM name and state name joined by "_" *)
Definition qualified (F : family) (s : nat) : string :=
  (fam_name F (f_fsm (fam_state F s)) ++ "_" ++ f_name (fam_state F s))%string.
Definition distinct_labels (F : family) (f : nat) : Prop :=
  forall a b, member F f a -> member F f b -> qualified F a = qualified F b -> a = b.
(* x is not used by the machine's conditions and outputs *)
Definition unused (F : family) (f : nat) (x : var) : Prop :=
  forall s, member F f s ->
    (forall c t, In (Some c, t) (f_next (fam_state F s)) -> ~ In x (evars c))
    /\ (forall y v, In (y, v) (f_out (fam_state F s)) \/ In (y, v) (fam_outs F (f_fsm (fam_state F s))) ->
          y <> x /\ forall e, v = Some e -> ~ In x (evars e)).
(* the reset is asserted *)
Definition asserted (G : tenv) (x : var) (active_high : bool) (r : venv) : bool :=
  if active_high then negb (ev G r (EVar x) =? 0) else ev G r (EVar x) =? 0.
(* the value of a variable *)
Definition val (G : tenv) (r : venv) (x : var) : Z := ev G r (EVar x).
(* one clock cycle of hardware made of a combinational process and a register process: the
   register cur holds c, the other variables are as in ins; the result is the new contents *)
Definition hw_cycle (G : tenv) (comb regs : list stmt) (cur : var) (c : Z) (ins : venv) : Z :=
  val G (activate G regs (st_cur (run G comb (start_state (upd ins cur c))))) cur.
(* cur and nxt are fresh variables of the width w of the state enum; the reset rst is neither of
   them and is not an output of the machine *)
Definition wired (G : tenv) (F : family) (f : nat) (rst cur nxt : var) (w : Z) : Prop :=
  (forall x, 0 < d_width (G x)) /\ d_width (G cur) = w /\ d_width (G nxt) = w
  /\ cur <> nxt /\ unused F f cur /\ unused F f nxt /\ rst <> cur /\ rst <> nxt
  /\ forall t y v, member F f t -> In (y, v) (fam_outs F (f_fsm (fam_state F t))) -> y <> rst.
(* output values may read the output they are for, but no other output of the state *)
Definition quiet (F : family) (s : nat) : Prop :=
  forall x y e, declared F s x = Some e -> In x (map fst (fam_outs F (f_fsm (fam_state F s)))) ->
    In y (evars e) -> y = x \/ ~ In y (map fst (fam_outs F (f_fsm (fam_state F s)))).
