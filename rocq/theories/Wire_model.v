(* src/generator.cc:481-483, 815-952, kratos/generator.py:695-707 *)
From Verif Require Import Base Wire_spec.
From Coq Require Import String.
Local Open Scope nat_scope.

Definition dir_eqb (a b : dir) : bool := match a, b with DIn, DIn | DOut, DOut | DInOut, DInOut => true | _, _ => false end.
(* src/generator.cc:481-483  children are found by their instance name *)
Definition has_child (h : hier) (m g : nat) : bool := existsb (fun c => String.eqb (h_inst h c) (h_inst h g)) (h_kids h m).
Definition onat_eqb (a b : option nat) : bool := match a, b with Some x, Some y => Nat.eqb x y | None, None => true | _, _ => false end.

(* src/generator.cc:815-829 check_direction *)
Definition check_direction (d1 d2 : dir) (same : bool) : bool :=
  dir_eqb d2 (if same then d1 else if dir_eqb d1 DIn then DOut else DIn).
Definition is_iface (x : signal) : bool := match x_iface x with Some _ => true | None => false end.
Definition iface_is_port (x : signal) : bool := match x_iface x with Some b => b | None => false end.
(* src/generator.cc:831-884 correct_port_direction and wire_ports on two ports with directions d1,
   d2; true: the first is the target *)
Definition port_direction (h : hier) (top : nat) (x1 : signal) (d1 : dir) (x2 : signal) (d2 : dir) : outcome bool :=
  let p1 := x_owner x1 in
  let p2 := x_owner x2 in
  if Nat.eqb p1 p2 && Nat.eqb p1 top then
    let w := if is_iface x1 && negb (is_iface x2) then negb (iface_is_port x1)
             else if is_iface x2 && negb (is_iface x1) then negb (iface_is_port x2) else false in
    if check_direction d1 d2 w then Ok (Bool.eqb w (dir_eqb d1 DIn)) else Throw
  else if Nat.eqb p1 top && has_child h top p2 then
    if check_direction d1 d2 true then Ok (negb (dir_eqb d1 DIn)) else Throw
  else if Nat.eqb p2 top && has_child h top p1 then
    if check_direction d1 d2 true then Ok (dir_eqb d1 DIn) else Throw
  else if onat_eqb (h_parent h p1) (h_parent h p2) && onat_eqb (h_parent h p1) (Some top) then
    if check_direction d1 d2 false then Ok (dir_eqb d1 DIn) else Throw
  else Throw.
(* src/generator.cc:886-952 correct_wire_direction with slices already replaced by their roots *)
Definition wire_direction (h : hier) (top : nat) (x1 x2 : signal) : outcome bool :=
  match x_port x1, x_port x2 with
  | None, None => Ok true
  | Some d1, None =>
      if Nat.eqb (x_owner x1) top then
        let flip := is_iface x1 && negb (iface_is_port x1 && Nat.eqb (x_owner x2) top) in
        Ok (if negb flip then dir_eqb d1 DOut else dir_eqb d1 DIn)
      else if has_child h top (x_owner x1) then Ok (dir_eqb d1 DIn) else Throw
  | None, Some d2 =>
      if Nat.eqb (x_owner x2) top then
        let flip := is_iface x2 && negb (iface_is_port x2 && Nat.eqb (x_owner x1) top) in
        Ok (if negb flip then dir_eqb d2 DIn else dir_eqb d2 DOut)
      else if has_child h top (x_owner x2) then Ok (dir_eqb d2 DOut) else Throw
  | Some d1, Some d2 => port_direction h top x1 d1 x2 d2
  end.
(* kratos/generator.py:695-707: the (target, source) of the statement that is added *)
Definition wire (h : hier) (top : nat) (x1 x2 : signal) : outcome (signal * signal) :=
  olet d := wire_direction h top x1 x2 in Ok (if d : bool then (x1, x2) else (x2, x1)).
