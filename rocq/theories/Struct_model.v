(* Model of packed structs: src/expr.cc:1834-1970 and their typedefs, src/analysis.cc:1091-1123.
   Widths are mathematical integers (the code: uint32_t, total below 2^32). *)
From Verif Require Import Base Num_model Struct_spec.
Local Open Scope Z_scope.

(* src/expr.cc:1835-1841, 1876-1882  PackedStructFieldDef::bitwidth, PackedStruct::bitwidth *)
Fixpoint bitwidth (f : field) : Z :=
  match f with
  | FLeaf _ w _ => w
  | FSub _ l => fold_left (fun a d => a + bitwidth d) l 0
  end.
Definition struct_width (s : list field) : Z := fold_left (fun a d => a + bitwidth d) s 0.

(* a PackedSlice: its bits in the root variable and the definition it came from *)
Record pslice := { ps_low : Z; ps_high : Z; ps_def : field }.

(* src/expr.cc:1916-1940  PackedSlice::set_up; base is parent_var->var_low(), off is low_ *)
Fixpoint set_up (s : list field) (base off : Z) (n : string) : outcome pslice :=
  match s with
  | [] => Throw
  | d :: r =>
      if String.eqb (fname d) n then
        let high := bitwidth d + off - 1 in
        Ok {| ps_low := off + base; ps_high := high + base; ps_def := d |}
      else set_up r base (off + bitwidth d) n
  end.

(* src/expr.cc:1952-1970  PackedSlice::slice_member (slice of a scalar struct variable, so no
   original_struct_): the struct of the field if it is one, else that of the root variable *)
Definition slice_member (root : list field) (p : pslice) (n : string) : outcome pslice :=
  let st := match ps_def p with FSub _ l => l | FLeaf _ _ _ => root end in
  set_up st (ps_low p) 0 n.
Fixpoint slice_members (root : list field) (p : pslice) (path : list string) : outcome pslice :=
  match path with
  | [] => Ok p
  | n :: r => olet q := slice_member root p n in slice_members root q r
  end.
(* var["a"]["b"]...; src/expr.cc:1980-1987 then slice_member; var_low() of the variable is 0 *)
Definition access (s : list field) (path : list string) : outcome pslice :=
  match path with
  | [] => Throw
  | n :: r => olet q := set_up s 0 0 n in slice_members s q r
  end.

(* src/expr.cc:1843-1850, 1884-1890  PackedStructFieldDef::same, PackedStruct::same *)
Fixpoint same_field (a b : field) : bool :=
  match a, b with
  | FSub _ l, FSub _ m =>
      (fix go l m := match l, m with
                     | [], [] => true
                     | x :: l', y :: m' => same_field x y && go l' m'
                     | _, _ => false
                     end) l m
  | FLeaf n w s, FLeaf n' w' s' => String.eqb n n' && (w =? w') && Bool.eqb s s'
  | _, _ => false
  end.
Fixpoint same_struct (l m : list field) : bool :=
  match l, m with
  | [], [] => true
  | x :: l', y :: m' => same_field x y && same_struct l' m'
  | _, _ => false
  end.

(* src/analysis.cc:1106-1117  the members of the typedef, in the order they are printed, and
   the words of one vector member *)
Definition typedef_members (s : list field) : list (string * Z) :=
  map (fun d => (fname d, bitwidth d)) s.
Definition member_words (n : string) (w : Z) (sg : bool) : list string :=
  ["logic"%string]
  ++ (if 1 <? w then [("[" ++ print_num 10 (w - 1) ++ ":0]")%string] else [])
  ++ (if sg then ["signed"%string] else []) ++ [n].
