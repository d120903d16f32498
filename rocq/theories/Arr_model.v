(* Values of arrays in the simulator: src/sim.cc:350-476, 554-592. *)
From Verif Require Import Base Eval_model.
Local Open Scope Z_scope.

(* an array: the width of an element, the dimensions, whether it is packed *)
Record array := { a_width : Z; a_size : list Z; a_packed : bool }.
Definition count (v : array) : Z := fold_left Z.mul (a_size v) 1.
(* src/sim.cc:441-447: one number for a packed array *)
Fixpoint spread (w v : Z) (i : Z) (n : nat) : outcome (list Z) :=
  match n with
  | O => Ok []
  | S m => olet a := shr64 v (w * i) in olet b := shl64 UINT64_MASK w in olet r := spread w v (i + 1) m in Ok (Z.land a (not64 b) :: r)
  end.
(* src/sim.cc:459-464: the bits of one element; the mask has 32 bits, and shifting it by more is undefined *)
Fixpoint bits_of (w mask i : Z) (fill : bool) (bit : Z) (n : nat) : outcome (list Z) :=
  match n with
  | O => Ok []
  | S m => if 32 <=? bit then UB else
           olet r := bits_of w mask i fill (bit + 1) m in
           Ok (if Z.testbit mask bit || fill then u32 (bit + w * i) :: r else r)
  end.
(* src/sim.cc:455-468: element by element, the stored values and the bits that changed *)
Fixpoint store (w : Z) (fill : bool) (i : Z) (cur new : list Z) : outcome (list Z * list Z) :=
  match cur, new with
  | c :: cur', n :: new' =>
      olet bs := (if negb (c =? n) || fill then bits_of w (u32 (Z.lxor c n)) i fill 0 (Z.to_nat w) else Ok []) in
      olet r := store w fill (i + 1) cur' new' in
      Ok (n :: fst r, bs ++ snd r)
  | _, _ => Ok ([], [])
  end.
(* src/sim.cc:385-476 set_complex_value_ of a whole array (size() is not {1}); the values it has afterwards, and the bits that
   changed if it returned.  Filling in zeros comes before the checks *)
Definition set_array (v : array) (old : option (list Z)) (value : list Z) : option (list Z) * outcome (list Z) :=
  let n := Z.to_nat (count v) in
  let cur := match old with Some l => l | None => repeat 0 n end in
  let fill := match old with Some _ => false | None => true end in
  let full := if Nat.eqb (length cur) (length value) then Ok value
              else if a_packed v then
                match value with [] => UB | [x] => spread (a_width v) x 0 (length cur) | _ => Throw end
              else Throw in
  match (olet val := full in store (a_width v) fill 0 cur val) with
  | Ok (l, bits) => (Some l, Ok bits)
  | Throw => (Some cur, Throw)
  | UB => (Some cur, UB)
  end.
(* src/sim.cc:375-378, 550-552 *)
Definition get_array (old : option (list Z)) : option (list Z) := old.
(* src/sim.cc:359-374: the elements var_low / width to var_high / width of the root; the range ends at values.end() + high + 1,
   which is not in the vector *)
Definition get_part (v : array) (old : option (list Z)) (var_high var_low : Z) : outcome (option (list Z)) :=
  if negb (var_low mod a_width v =? 0) || negb (var_high mod a_width v =? a_width v - 1) then Throw
  else match old with
       | None => Ok None
       | Some _ => UB
       end.
(* src/sim.cc:398-419, 434-468 set_complex_value_ of a part of an array: values is the whole array, low and high are bits *)
Fixpoint store_range (w : Z) (l value : list Z) (i : Z) (n : nat) : outcome (list Z) :=
  match n with
  | O => Ok l
  | S m => match nth_error l (Z.to_nat i), nth_error value (Z.to_nat i) with
           | Some c, Some x =>
               olet _ := (if c =? x then Ok [] else bits_of w (u32 (Z.lxor c x)) i false 0 (Z.to_nat w)) in
               store_range w (firstn (Z.to_nat i) l ++ x :: skipn (S (Z.to_nat i)) l) value (i + 1) m
           | _, _ => UB
           end
  end.
Definition set_part (v : array) (old : option (list Z)) (var_high var_low : Z) (value : list Z) : outcome (list Z) :=
  if negb (var_low mod a_width v =? 0) || negb (var_high mod a_width v =? a_width v - 1) then Throw
  else match old with
       | None => Throw (* at() *)
       | Some l =>
           olet full := (if Nat.eqb (length l) (length value) then Ok value
                         else if a_packed v then
                           match value with [] => UB | [x] => spread (a_width v) x 0 (length l) | _ => Throw end
                         else Throw) in
           store_range (a_width v) l full var_low (Z.to_nat (var_high - var_low + 1))
       end.
(* src/sim.cc:559-567 set_i of a scalar: what is stored *)
Definition set_i (width v : Z) : outcome Z := truncate (u64 v) width.
(* src/sim.cc:575-592 set_i of an array: every value is taken for an address *)
Definition set_i_array (value : list Z) : outcome (list Z) := match value with [] => Ok [] | _ => UB end.
