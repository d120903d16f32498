(* Var::concat and Var::extend: src/expr.cc:249-275, 1292-1341 with src/expr.hh:685, 706.  Of the signals only the width and the sign are modelled:
   arrays, which cannot be extended (src/expr.cc:1338-1342), are left out. *)
From Verif Require Import Base Cat_spec.
Local Open Scope Z_scope.
Local Open Scope list_scope.

(* a variable, VarConcat::vars_, VarExtend::parent_ *)
Inductive kind := KVar | KCat (l : list nat) | KExt (x : nat).
(* objects from 0 to s_n; s_cats is concat_vars_, s_exts is extended_ *)
Record state := { s_n : nat; s_kind : nat -> kind; s_width : nat -> Z; s_signed : nat -> bool; s_cats : nat -> list nat; s_exts : nat -> list (Z * nat) }.
Definition start : state := {| s_n := 0; s_kind := fun _ => KVar; s_width := fun _ => 0; s_signed := fun _ => false; s_cats := fun _ => []; s_exts := fun _ => [] |}.
Definition set {A} (f : nat -> A) (x : nat) (v : A) : nat -> A := fun y => if Nat.eqb y x then v else f y.
Definition u32 (x : Z) : Z := x mod 2 ^ 32.
(* std::make_shared *)
Definition make (s : state) (k : kind) (w : Z) (sg : bool) : state :=
  {| s_n := S (s_n s); s_kind := set (s_kind s) (s_n s) k; s_width := set (s_width s) (s_n s) w; s_signed := set (s_signed s) (s_n s) sg;
     s_cats := set (s_cats s) (s_n s) []; s_exts := set (s_exts s) (s_n s) [] |}.
(* src/expr.hh:165 add_concat_var, src/expr.cc:262 *)
Definition add_cat (s : state) (x c : nat) : state :=
  {| s_n := s_n s; s_kind := s_kind s; s_width := s_width s; s_signed := s_signed s; s_cats := set (s_cats s) x (s_cats s x ++ [c]); s_exts := s_exts s |}.
(* src/expr.cc:255-260 *)
Definition is_pair (s : state) (y c : nat) : bool := match s_kind s c with KCat [_; z] => Nat.eqb z y | _ => false end.
(* src/expr.cc:249-264 and 1304-1313 for a signal, 1292-1302 and 1315-1320 for a concatenation *)
Definition concat (s : state) (x y : nat) : state * outcome nat :=
  match s_kind s x with
  | KCat l =>
      if negb (Bool.eqb (s_signed s x) (s_signed s y)) then (s, Throw)
      else match l with
           | [] => (s, UB)
           | f :: _ => (add_cat (make s (KCat (l ++ [y])) (u32 (s_width s x + s_width s y)) (s_signed s x)) f (s_n s), Ok (s_n s))
           end
  | _ =>
      match find (is_pair s y) (s_cats s x) with
      | Some c => (s, Ok c)
      | None =>
          if negb (Bool.eqb (s_signed s x) (s_signed s y)) then (s, Throw)
          else (add_cat (make s (KCat [x; y]) (u32 (s_width s x + s_width s y)) (s_signed s x)) x (s_n s), Ok (s_n s))
      end
  end.
(* src/expr.cc:266-275, 1329-1337 *)
Definition extend (s : state) (x : nat) (w : Z) : state * outcome nat :=
  match find (fun e => fst e =? w) (s_exts s x) with
  | Some e => (s, Ok (snd e))
  | None =>
      if w <? s_width s x then (s, Throw)
      else let s' := make s (KExt x) w (s_signed s x) in
           ({| s_n := s_n s'; s_kind := s_kind s'; s_width := s_width s'; s_signed := s_signed s'; s_cats := s_cats s';
               s_exts := set (s_exts s') x (s_exts s' x ++ [(w, s_n s)]) |}, Ok (s_n s))
  end.
(* src/expr.cc:1322-1327 *)
Fixpoint replace_first (l : list nat) (t n : nat) : list nat :=
  match l with [] => [] | x :: l => if Nat.eqb x t then n :: l else x :: replace_first l t n end.
Definition run (s : state) (a : act) : state * outcome nat :=
  match a with
  | New w sg => (make s KVar w sg, Ok (s_n s))
  | Cat x y => if Nat.ltb x (s_n s) && Nat.ltb y (s_n s) then concat s x y else (s, UB)
  | Ext x w => if Nat.ltb x (s_n s) then extend s x w else (s, UB)
  | Resize x w => (* src/expr.cc:1186-1189 *)
      ({| s_n := s_n s; s_kind := s_kind s; s_width := set (s_width s) x w; s_signed := s_signed s; s_cats := s_cats s; s_exts := s_exts s |}, Ok x)
  | Move c t n => (* src/expr.cc:1540-1543 *)
      match s_kind s c with
      | KCat [x; y] => ({| s_n := s_n s; s_kind := set (s_kind s) c (KCat (replace_first [x; y] t n)); s_width := s_width s; s_signed := s_signed s;
                           s_cats := s_cats s; s_exts := s_exts s |}, Ok c)
      | _ => (s, Ok c)
      end
  end.
(* a caller that goes on after an exception *)
Definition after (h : list act) : state := fold_left (fun s a => fst (run s a)) h start.
(* what VarConcat::to_string goes through, src/expr.cc:1267-1290; a signal is one part *)
Definition parts (s : state) (x : nat) : list nat := match s_kind s x with KCat l => l | _ => [x] end.
Definition is_cat (s : state) (x : nat) : bool := match s_kind s x with KCat _ => true | _ => false end.
(* VarExtend::parent_var *)
Definition extended (s : state) (x : nat) : option nat := match s_kind s x with KExt p => Some p | _ => None end.
