(* Loops: the values declared, and how SystemVerilog runs a printed header. *)
From Verif Require Import Base.
Local Open Scope Z_scope.

(* Python's range(start, stop, step): start + k step for all k before stop is reached *)
Definition before (step v stop : Z) : Prop := if 0 <? step then v < stop else stop < v.
Inductive range (stop step : Z) : Z -> list Z -> Prop :=
| rg_nil v : ~ before step v stop -> range stop step v []
| rg_cons v l : before step v stop -> range stop step (v + step) l -> range stop step v (v :: l).

(* for (<type> i = start; i <cmp> stop; i <op>= step).  Loop variables have 32 bits; a comparison or
   a sum with an unsigned operand is unsigned *)
Inductive ltype : Type := TInt | TUnsigned | TGenvar.
Record header := { h_type : ltype; h_start : Z; h_less : bool; h_stop : Z; h_plus : bool; h_step : Z }.
Definition as_type (t : ltype) (v : Z) : Z :=
  match t with
  | TUnsigned => v mod 2 ^ 32
  | TInt | TGenvar => (v + 2 ^ 31) mod 2 ^ 32 - 2 ^ 31
  end.
Definition goes_on (h : header) (v : Z) : Prop :=
  if h_less h then v < as_type (h_type h) (h_stop h) else as_type (h_type h) (h_stop h) < v.
Definition advance (h : header) (v : Z) : Z := as_type (h_type h) (if h_plus h then v + h_step h else v - h_step h).
(* the values of the loop variable the body runs for *)
Inductive iterates (h : header) : Z -> list Z -> Prop :=
| it_nil v : ~ goes_on h v -> iterates h v []
| it_cons v l : goes_on h v -> iterates h (advance h v) l -> iterates h v (v :: l).
Definition runs (h : header) (l : list Z) : Prop := iterates h (as_type (h_type h) (h_start h)) l.
(* values the loop variable can hold *)
Definition fits (t : ltype) (v : Z) : Prop := match t with TUnsigned => 0 <= v < 2 ^ 32 | _ => - 2 ^ 31 <= v < 2 ^ 31 end.
(* the value a run of the range ends with *)
Inductive ends (stop step : Z) : Z -> Z -> Prop :=
| en_nil v : ~ before step v stop -> ends stop step v v
| en_cons v w : before step v stop -> ends stop step (v + step) w -> ends stop step v w.

