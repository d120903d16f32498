(* Model of the SRAM generators, src/lib.cc:14-160, at the level of clock edges: the statements they
   build are executed on one edge each.  Memory words and pins are their unsigned values. *)
From Verif Require Import Base SV_spec Const_model Sram_spec.
Local Open Scope Z_scope.

Record macro := { m_aw : Z; m_dw : Z; m_partial : bool }.
(* the register array and the output register of one SRAM *)
Record bank := { b_data : Z -> Z; b_q : Z }.

(* src/lib.cc:66-74 data[addr][index] = data_in[index] for every bit whose mask bit is 0 *)
Definition set_bit (v i : Z) (b : bool) : Z := if b then Z.setbit v i else Z.clearbit v i.
Definition write_bits (dw old new mask : Z) : Z :=
  fold_left (fun v k => let i := Z.of_nat k in if negb (Z.testbit mask i) then set_bit v i (Z.testbit new i) else v)
            (seq 0 (Z.to_nat dw)) old.
(* src/lib.cc:39-84: on the edge, if (~CEB) { Q = data[A]; if (~WEB) data[A] = ... }, blocking *)
Definition bank_edge (m : macro) (s : bank) (ceb web : bool) (a d k : Z) : bank :=
  if negb ceb then
    let q := b_data s a in
    let data := if negb web
                then fun x => if x =? a then (if m_partial m then write_bits (m_dw m) (b_data s x) d k else d) else b_data s x
                else b_data s in
    {| b_data := data; b_q := q |}
  else s.

(* src/lib.cc:25 capacity, in bits; a shift by 32 or more is undefined *)
Definition capacity (m : macro) : outcome Z :=
  if m_aw m <? 32 then Ok (u32 (u32 (2 ^ m_aw m) * m_dw m)) else UB.
(* src/lib.cc:86-160: the generator with n banks *)
Record array := { a_bank : macro; a_n : Z; a_sel : Z (* bits of memory_select *) }.
(* the values rejected or undefined on the way: lines 90-96 and the variables of width 0 (109) *)
Definition build (cap : Z) (m : macro) : outcome array :=
  olet c := capacity m in
  if c =? 0 then UB (* division by zero *)
  else if negb (cap mod c =? 0) then Throw
  else
    let n := cap / c in
    if n =? 0 then UB (* ceil(log2(0)) is converted to an integer *)
    else
      let bits := Z.log2_up n in
      if bits =? 0 then Throw (* src/expr.cc:874 *)
      else olet _ := is_legal 1 n false in (* constant(1, num_sram), src/expr.cc:935 *)
           Ok {| a_bank := m; a_n := n; a_sel := bits |}.

Record astate := { s_banks : Z -> bank; s_sel : Z }.
(* src/lib.cc:109-113 the address is split *)
Definition mem_select (r : array) (a : Z) : Z := Z.land (Z.shiftr a (m_aw (a_bank r))) (Z.ones (a_sel r)).
Definition addr_to_mem (r : array) (a : Z) : Z := Z.land a (Z.ones (m_aw (a_bank r))).
(* src/lib.cc:115-119 WEB_array: one bit per bank *)
Definition web_array (r : array) (web : bool) (sel : Z) : Z :=
  if negb web then enc (a_n r) (Z.lnot (enc (a_n r) (Z.shiftl 1 sel))) else enc (a_n r) (Z.lnot 0).
(* one edge: src/lib.cc:121-128 output_select, 140-156 the banks *)
Definition edge (r : array) (s : astate) (c : cycle) : astate :=
  let sel := mem_select r (addr c) in
  let wa := web_array r (web c) sel in
  {| s_banks := fun i => bank_edge (a_bank r) (s_banks s i) (ceb c) (Z.testbit wa i) (addr_to_mem r (addr c)) (din c) (mask c);
     s_sel := if negb (ceb c) && web c then sel else s_sel s |}.
(* src/lib.cc:130-134 the output: Q_array[output_select] *)
Definition output (r : array) (s : astate) : Z := b_q (s_banks s (s_sel s)).
Definition edges (r : array) (s : astate) (h : list cycle) : astate := fold_left (edge r) h s.
(* the words of all banks in order of the addresses *)
Definition words (r : array) (s : astate) (a : Z) : Z :=
  b_data (s_banks s (a / 2 ^ m_aw (a_bank r))) (a mod 2 ^ m_aw (a_bank r)).
