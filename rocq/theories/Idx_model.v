(* Indexing a variable by a variable: src/expr.cc:648-701. *)
From Verif Require Import Base Util_model.
Local Open Scope Z_scope.

(* a variable: the width and the sizes; the values of its width parameter and of the parameter of its first size, if it has them *)
Record shape := { v_width : Z; v_size : list Z; v_explicit : bool; v_wparam : option Z; v_sparam : option Z }.
(* src/expr.cc:53-58: width() *)
Definition total (s : shape) : Z := v_width s * fold_right Z.mul 1 (v_size s).
(* src/expr.cc:656 *)
Definition scalar (s : shape) : bool := match v_size s with [n] => (n =? 1) && negb (v_explicit s) | _ => false end.
(* src/expr.cc:657-684: the width the index may have *)
Definition required (s : shape) : outcome Z :=
  if scalar s then match v_wparam s with Some v => Ok v | None => clog2 (total s) end
  else match v_sparam s with Some v => clog2 v | None => clog2 (hd 0 (v_size s)) end.
(* src/expr.cc:657-679: what is selected *)
Definition selected (s : shape) : Z * list Z :=
  if scalar s then (1, [1]) else (v_width s, match v_size s with _ :: x :: r => x :: r | _ => [1] end).
(* src/expr.cc:685-700 for an index of w bits without loop variables (with them: Loop_model.v) *)
Definition index (s : shape) (w : Z) : outcome (Z * list Z) := olet r := required s in if r <? w then Throw else Ok (selected s).
