(* Which bits a selection of a packed array denotes: a region of the variable seen as an
   array of dimensions ds of w-bit elements starting at bit off; row-major, element 0 of
   every dimension lowest. *)
From Verif Require Import Base.
Local Open Scope Z_scope.

Record region := { r_off : Z; r_dims : list Z; r_elem : Z }.
Fixpoint prod (l : list Z) : Z := match l with [] => 1 | a :: r => a * prod r end.
Definition r_len (g : region) : Z := prod (r_dims g) * r_elem g.

(* selecting [high:low]: of elements while dimensions are left, then of bits.  One element
   drops the dimension; a range keeps it. *)
Definition sel (g : region) (high low : Z) : option region :=
  if (0 <=? low) && (low <=? high) then
    match r_dims g with
    | [] => if high <? r_elem g
            then Some {| r_off := r_off g + low; r_dims := []; r_elem := high - low + 1 |}
            else None
    | d :: ds =>
        if high <? d then
          let step := prod ds * r_elem g in
          Some {| r_off := r_off g + low * step;
                  r_dims := if high =? low then ds else high - low + 1 :: ds;
                  r_elem := r_elem g |}
        else None
    end
  else None.
Fixpoint sels (g : region) (ix : list (Z * Z)) : option region :=
  match ix with
  | [] => Some g
  | (h, l) :: r => match sel g h l with Some g' => sels g' r | None => None end
  end.
(* the element at the full index tuple is ... *)
Fixpoint linear (dims : list Z) (idx : list Z) : Z :=
  match dims, idx with
  | d :: ds, i :: r => i * prod ds + linear ds r
  | _, _ => 0
  end.
(* positive dimensions and element width *)
Definition rok (g : region) : Prop := Forall (fun d => 0 < d) (r_dims g) /\ 0 < r_elem g.
(* ranges along the chain, only of bits or of the last remaining dimension *)
Fixpoint simple_chain (g : region) (ix : list (Z * Z)) : Prop :=
  match ix with
  | [] => True
  | (h, l) :: r => 0 <= l /\ (h = l \/ (length (r_dims g) <= 1)%nat) /\
                   match sel g h l with Some g' => simple_chain g' r | None => True end
  end.
