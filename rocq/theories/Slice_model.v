(* Model of slicing, src/expr.cc:185-232, 476-580 (no packed structs, no width parameters).
   Sizes and bit positions are mathematical integers: the C++ uses uint32_t, so this is
   the code as long as the variable has fewer than 2^32 bits. *)
From Verif Require Import Base Slice_spec.
Local Open Scope Z_scope.

(* what the constructor reads of a variable or slice; v_dec is num_size_decrease of it
   (expr.cc:476-490), v_pdec that of its parent, v_root the size of the root variable *)
Record view := {
  v_size : list Z; v_vw : Z; v_low : Z; v_high : Z;
  v_slice : bool; v_explicit : bool; v_dec : Z; v_pdec : Z; v_root : list Z }.

Fixpoint prod_z (l : list Z) : Z := match l with [] => 1 | a :: r => a * prod_z r end.
(* src/expr.cc:53-59  Var::width *)
Definition v_width (v : view) : Z := v_vw v * prod_z (v_size v).
(* a variable declared with this size and element width; var_low/var_high of a variable are
   0 and width()-1 (src/expr.hh:204-205) *)
Definition declare (size : list Z) (w : Z) (explicit : bool) : view :=
  {| v_size := size; v_vw := w; v_low := 0; v_high := w * prod_z size - 1;
     v_slice := false; v_explicit := explicit; v_dec := 0; v_pdec := 0; v_root := size |}.

Definition scalar (v : view) : bool :=
  match v_size v with [d] => d =? 1 | _ => false end.
Definition front (l : list Z) : Z := match l with [] => 0 | a :: _ => a end.
Definition set_back (l : list Z) (x : Z) : list Z :=
  match l with [] => [] | _ => removelast l ++ [x] end.

(* src/expr.cc:502-510 *)
Definition dropped_dim (p : view) (high low : Z) : bool :=
  (low =? 0) && (high =? 0) && (1 <? Z.of_nat (length (v_root p)))
  && (last (v_root p) 0 =? 1)
  && (if v_slice p then negb (v_dec p =? v_pdec p) else true)
  && (v_dec p =? Z.of_nat (length (v_root p)) - 1).

(* src/expr.cc:492-580  VarSlice::VarSlice *)
Definition make_slice (p : view) (high low : Z) : outcome view :=
  let dd := dropped_dim p high low in
  olet sw := (* size, var_width *)
    if scalar p && v_explicit p then
      if negb (high =? 0) || negb (low =? 0) then Throw else Ok ([1], v_vw p)
    else if scalar p && negb dd then Ok ([1], high - low + 1)
    else if scalar p && dd then Ok ([1], v_vw p)
    else if high =? low then
      match v_size p with
      | [_] => Ok ([1], v_vw p)
      | l => Ok (tl l, v_vw p)
      end
    else Ok (set_back (v_size p) (high - low + 1), v_vw p) in
  let '(size, vw) := sw in
  let base := v_vw p * prod_z (tl (v_size p)) in
  let '(lo, hi) :=
    if negb (v_slice p) then
      if scalar p && v_explicit p then (0, vw - 1)
      else if scalar p then (low, high)
      else (low * base, (high + 1) * base - 1)
    else
      if scalar p && negb dd then (low + v_low p, high + 1 + v_low p - 1)
      else if scalar p && dd then (v_low p, v_high p)
      else (v_low p + low * base, v_low p + (high + 1) * base - 1) in
  Ok {| v_size := size; v_vw := vw; v_low := lo; v_high := hi; v_slice := true;
        (* a slice is constructed with the default explicit_array_ = false *)
        v_explicit := false;
        v_dec := Z.of_nat (length (v_size p)) - Z.of_nat (length size) + v_dec p;
        v_pdec := v_dec p; v_root := v_root p |}.

(* src/expr.cc:185-232  Var::operator[](std::pair): the range checks; the arguments are
   unsigned.  An existing equal slice is returned instead of a new one, which is not
   observable here. *)
Definition select (p : view) (high low : Z) : outcome view :=
  if low >? high then Throw
  else if scalar p then if high >=? v_width p then Throw else make_slice p high low
  else if high >=? front (v_size p) then Throw else make_slice p high low.
Fixpoint selects (p : view) (ix : list (Z * Z)) : outcome view :=
  match ix with
  | [] => Ok p
  | (h, l) :: r => olet q := select p h l in selects q r
  end.

(* reading a view as a region of Slice_spec: a scalar has no dimensions *)
Definition dims_of (v : view) : list Z := if scalar v then [] else v_size v.
Definition region_of (v : view) : region :=
  {| r_off := v_low v; r_dims := dims_of v; r_elem := v_vw v |}.

