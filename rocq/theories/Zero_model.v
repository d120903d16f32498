(* Model of zeroing the unconnected inputs of an instance, src/transform.cc:121-224 and
   src/analysis.cc:1503-1540, for one input port.  The port is a declared variable as in Slice_model
   (no width parameter, no packed struct).  Bit positions are mathematical integers: the C++ uses
   uint32_t and only subtracts a smaller from a larger one. *)
From Verif Require Import Base Slice_spec Slice_model Const_model Zero_spec.
Local Open Scope Z_scope.

Definition range (l h : Z) : list Z := map (fun i => l + Z.of_nat i) (seq 0 (Z.to_nat (h - l + 1))).
(* src/analysis.cc:1503-1540 connected: result and the set of bits.  The sources are a set; the bits do
   not depend on the order they are visited in, as a source of the whole port adds all bits *)
Fixpoint connected (w : Z) (ds : list drive) : bool * list Z :=
  match ds with
  | [] => (false, [])
  | Whole :: _ => (true, range 0 (w - 1))
  | Bits l h :: r => let '(b, s) := connected w r in (b, range l h ++ s)
  | Indexed :: r => let '(b, s) := connected w r in (b, range 0 (w - 1) ++ s)
  end.

(* src/transform.cc:168-204 wire_zero; the statement is added to the child (gen), line 203.
   constant(0, width) of src/expr.cc:935-953 calls is_legal *)
Definition wire_zero (p : view) (signed : bool) (h l : Z) : outcome zero :=
  olet hl := if scalar p then Ok (h, l)
             else if negb (l mod v_vw p =? 0) || negb ((h + 1) mod v_vw p =? 0) then Throw
             else Ok (h / v_vw p, l / v_vw p) in
  let '(hh, ll) := hl in
  if (ll =? 0) && (hh =? v_width p - 1) then
    olet _ := is_legal 0 (v_width p) signed in
    Ok {| z_owner := Child; z_high := v_high p; z_low := v_low p |}
  else
    olet s := select p hh ll in
    olet _ := is_legal 0 (v_width s) signed in
    Ok {| z_owner := Child; z_high := v_high s; z_low := v_low s |}.

(* src/transform.cc:206-219 the loop over the unconnected bits *)
Fixpoint runs (low high pre_high : Z) (bits : list Z) : list (Z * Z) :=
  match bits with
  | [] => [(high, low)]
  | b :: r => if b - pre_high >? 1 then (pre_high, low) :: runs b b b r else runs low b b r
  end.

(* src/transform.cc:147-220.  diff_bits[0] of an empty vector is undefined behaviour *)
Definition zero_input (p : view) (signed : bool) (ds : list drive) : outcome (list zero) :=
  let '(c, bits) := connected (v_width p) ds in
  if c && (Z.of_nat (length (nodup Z.eq_dec bits)) =? v_width p) then Ok []
  else
    let diff := filter (fun i => negb (existsb (Z.eqb i) bits)) (range 0 (v_width p - 1)) in
    match diff with
    | [] => UB
    | d :: _ => omapM (fun hl => wire_zero p signed (fst hl) (snd hl)) (runs d d d diff)
    end.
