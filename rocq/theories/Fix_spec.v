(* Expressions over loop variables that are assigned to a signal. *)
From Verif Require Import Base Const_spec Const_model.
Local Open Scope Z_scope.
Local Open Scope list_scope.

(* a loop variable takes the values from l_min up to l_max, which it does not take; it has 32 bits *)
Record loop := { l_id : nat; l_min : Z; l_max : Z; l_signed : bool }.
Inductive op := Add | Sub | Mul | Shr | Div | Lt.
(* a loop variable; a constant or parameter, by what holds it; a signal; a resized expression; the low bits of an expression; an operator,
   signed or not *)
Inductive sig := Loop (i : loop) | Lit (c : nat) | Signal (x : nat) (w : Z) | Sized (w : Z) (s : sig) | Part (w : Z) (s : sig) | Op2 (o : op) (sg : bool) (a b : sig).
Definition store := nat -> const.
Definition signed (st : store) (s : sig) : bool :=
  match s with Loop i => l_signed i | Lit c => c_signed (st c) | Signal _ _ | Sized _ _ | Part _ _ => false | Op2 _ sg _ _ => sg end.
(* a loop over words: a loop variable without a sign has no negative values *)
Definition ordinary (i : loop) : Prop := l_min i < l_max i /\ int64 (l_min i) /\ int64 (l_max i) /\ (l_signed i = false -> 0 <= l_min i).
(* the loop variables of an expression *)
Inductive over : sig -> loop -> Prop :=
| O_loop i : over (Loop i) i
| O_part w s i : over s i -> over (Part w s) i
| O_left o sg a b i : over a i -> over (Op2 o sg a b) i
| O_right o sg a b i : over b i -> over (Op2 o sg a b) i.
(* an expression made of loop variables and constants, and such an expression with sums, differences and products only *)
Inductive closed : sig -> Prop := C_loop i : closed (Loop i) | C_lit c : closed (Lit c) | C_op o sg a b : closed a -> closed b -> closed (Op2 o sg a b).
Inductive ring : sig -> Prop :=
| R_loop i : ring (Loop i) | R_lit c : ring (Lit c) | R_op o sg a b : o = Add \/ o = Sub \/ o = Mul -> ring a -> ring b -> ring (Op2 o sg a b).
Inductive uses : sig -> nat -> Prop :=
| U_lit c : uses (Lit c) c | U_sized w s c : uses s c -> uses (Sized w s) c | U_part w s c : uses s c -> uses (Part w s) c
| U_left o sg a b c : uses a c -> uses (Op2 o sg a b) c | U_right o sg a b c : uses b c -> uses (Op2 o sg a b) c.
Fixpoint loops (s : sig) : list loop := match s with Loop i => [i] | Op2 _ _ a b => loops a ++ loops b | _ => [] end.
Definition taken (l : list Z) (s : sig) : Prop := Forall2 (fun v i => l_min i <= v < l_max i) l (loops s).
(* the width of an expression: an operator has that of both its operands, a comparison one bit *)
Inductive has_width (st : store) : sig -> Z -> Prop :=
| W_loop i : has_width st (Loop i) 32
| W_lit c : has_width st (Lit c) (c_width (st c))
| W_signal x w : has_width st (Signal x w) w
| W_sized w s : has_width st (Sized w s) w
| W_part w s : has_width st (Part w s) w
| W_lt sg a b : has_width st (Op2 Lt sg a b) 1
| W_op o sg a b w : o <> Lt -> has_width st a w -> has_width st b w -> has_width st (Op2 o sg a b) w.
(* the bits of an expression without signs: every operand is computed in its own width *)
Definition apply (o : op) (x y : Z) : Z :=
  match o with Add => x + y | Sub => x - y | Mul => x * y | Shr => x / 2 ^ y | Div => x / y | Lt => if x <? y then 1 else 0 end.
Inductive bits (st : store) (env : loop -> Z) (sv : nat -> Z) : sig -> Z -> Prop :=
| B_loop i : bits st env sv (Loop i) (env i mod 2 ^ 32)
| B_lit c : bits st env sv (Lit c) (c_value (st c) mod 2 ^ c_width (st c))
| B_signal x w : bits st env sv (Signal x w) (sv x mod 2 ^ w)
| B_sized w s v : bits st env sv s v -> bits st env sv (Sized w s) (v mod 2 ^ w)
| B_part w s v : bits st env sv s v -> bits st env sv (Part w s) (v mod 2 ^ w)
| B_op o sg a b w x y : has_width st (Op2 o sg a b) w -> bits st env sv a x -> bits st env sv b y -> bits st env sv (Op2 o sg a b) (apply o x y mod 2 ^ w).
(* the constants are unsigned words that fit their widths *)
Definition sound (st : store) : Prop := forall c, c_signed (st c) = false /\ 0 <= c_value (st c) < 2 ^ c_width (st c) /\ int64 (c_value (st c)).
