(* Model of src/eval.cc: constant evaluation on 64-bit words.

   A word is a Z in [0, 2^64); every C++ operation that can leave that range is
   wrapped in u64.  Shifts whose amount is >= 64 are UB in C++ and are UB here. *)
From Verif Require Import Base.
Local Open Scope Z_scope.

(* src/eval.hh:7  UINT64_MASK *)
Definition UINT64_MASK : Z := 2 ^ 64 - 1.

(* C++ `value << n` on uint64_t; UB when n >= 64 (n is unsigned, so n >= 0). *)
Definition shl64 (v n : Z) : outcome Z :=
  if (0 <=? n) && (n <? 64) then Ok (u64 (Z.shiftl v n)) else UB.
(* C++ `value >> n` on uint64_t *)
Definition shr64 (v n : Z) : outcome Z :=
  if (0 <=? n) && (n <? 64) then Ok (Z.shiftr v n) else UB.
(* C++ `~value` on uint64_t *)
Definition not64 (v : Z) : Z := Z.lxor v UINT64_MASK.

(* src/eval.cc:8-12 *)
Definition invert (value width : Z) : outcome Z :=
  olet m := shl64 UINT64_MASK width in
  Ok (Z.lxor (not64 value) m).

(* UINT64_MASK >> (64 - width); 64 - width is computed in uint32_t *)
Definition low_mask (width : Z) : outcome Z :=
  shr64 UINT64_MASK (u32 (64 - width)).

(* src/eval.cc:14-17 *)
Definition two_complement (value width : Z) : outcome Z :=
  olet i := invert value width in
  let inverted := u64 (i + 1) in
  olet m := low_mask width in
  Ok (Z.land inverted m).

(* src/eval.cc:19-21 *)
Definition truncate (value width : Z) : outcome Z :=
  olet m := low_mask width in
  Ok (Z.land value m).

Definition b2z (b : bool) : Z := if b then 1 else 0.

(* number of set bits of a non-negative integer *)
Fixpoint pos_popcount (p : positive) : Z :=
  match p with
  | xH => 1
  | xO q => pos_popcount q
  | xI q => 1 + pos_popcount q
  end.
Definition popcount (z : Z) : Z :=
  match z with Zpos p => pos_popcount p | _ => 0 end.
(* __builtin_popcount takes an unsigned int: the argument is truncated to 32 bits *)
Definition builtin_popcount (v : Z) : Z := popcount (u32 v).

(* src/eval.cc:23-42 *)
Definition eval_unary_op (value : Z) (op : expr_op) (width : Z) : outcome Z :=
  match op with
  | UMinus => two_complement value width
  | UAnd => Ok (b2z (builtin_popcount value =? width))
  | UInvert => invert value width
  | UNot => Ok (b2z (value =? 0))
  | UOr => Ok (b2z (negb (value =? 0)))
  | UPlus => Ok value
  | UXor => Ok (builtin_popcount value mod 2)
  | _ => Throw
  end.

Section BinOp.
  (* static_cast<uint64_t>(std::pow(l, r)) goes through double precision; it is
     left as an oracle (the cast is UB when the double is out of range). *)
  Variable pow_oracle : Z -> Z -> outcome Z.

  (* left_abs_value / right_abs_value, src/eval.cc:48-49 *)
  Definition abs_value (neg : bool) (v width : Z) : outcome Z :=
    if neg then two_complement v width else Ok v.

  (* `signed_ && v >> (width - 1)`, src/eval.cc:46-47; width - 1 is uint32_t *)
  Definition is_negative (signed_ : bool) (v width : Z) : outcome bool :=
    if signed_ then olet s := shr64 v (u32 (width - 1)) in Ok (negb (s =? 0))
    else Ok false.

  (* the common shape of the four relational cases, src/eval.cc:83-106 *)
  Definition relational (ln rn : bool) (if_ln if_rn cmp : bool) : Z :=
    b2z (if ln && negb rn then if_ln
         else if negb ln && rn then if_rn
         else xorb cmp ln).

  (* the switch of src/eval.cc:53-117, before the final mask *)
  Definition bin_switch (l r la ra : Z) (ln rn : bool) (sb mask : Z)
             (op : expr_op) (width : Z) : outcome Z :=
    match op with
    | Add => Ok (u64 (l + r))
    | Minus => Ok (Z.land (u64 (l - r)) mask)
    | Multiply =>
        let result := u64 (la * ra) in
        if negb (sb =? 0) then two_complement result width else Ok result
    | Divide =>
        if ra =? 0 then UB else
        let result := la / ra in
        if negb (sb =? 0) then two_complement result width else Ok result
    | And => Ok (Z.land l r)
    | Or => Ok (Z.lor l r)
    | Xor => Ok (Z.lxor l r)
    | Eq => Ok (b2z (l =? r))
    | Power => pow_oracle l r
    | GreaterEqThan => Ok (relational ln rn false true (la >=? ra))
    | LessEqThan => Ok (relational ln rn true false (la <=? ra))
    | LessThan => Ok (relational ln rn true false (la <? ra))
    | GreaterThan => Ok (relational ln rn false true (la >? ra))
    | SignedShiftRight =>
        olet result := shr64 la r in
        if ln then
          (* width - 1 - right_value: uint32_t minus uint64_t, i.e. modulo 2^64 *)
          olet hi := shl64 UINT64_MASK (u64 (u32 (width - 1) - r)) in
          Ok (Z.lor result hi)
        else Ok result
    | LogicalShiftRight => shr64 l r
    | _ => Throw
    end.

  (* src/eval.cc:44-120 *)
  Definition eval_bin_op (l r : Z) (op : expr_op) (width : Z) (signed_ : bool)
    : outcome Z :=
    olet ln := is_negative signed_ l width in
    olet rn := is_negative signed_ r width in
    olet la := abs_value ln l width in
    olet ra := abs_value rn r width in
    olet sb := shl64 (b2z (xorb ln rn)) (u32 (width - 1)) in
    olet mask := low_mask width in
    olet result := bin_switch l r la ra ln rn sb mask op width in
    olet mask2 := low_mask width in
    Ok (Z.land result mask2).
End BinOp.

(* src/eval.cc:122-127 *)
Definition eval_ternary_op (predicate : bool) (l r width : Z) : outcome Z :=
  let result := if predicate then l else r in
  olet m := low_mask width in
  Ok (Z.land result m).
