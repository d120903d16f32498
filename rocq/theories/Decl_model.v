(* Model of the declarations src/codegen.cc prints, as tokens. *)
From Verif Require Import Base IR Print_spec Print_model Num_model Decl_spec.
Local Open Scope string_scope.
Local Open Scope Z_scope.
Local Open Scope list_scope.

Definition one_tok : tok := TAtom one.
Definition num_tok (n : Z) : tok := TAtom (EConst n 32 true).
Definition is_param (e : expr) : bool := match e with EVar _ => true | _ => false end.
(* src/codegen.cc:256-266  get_var_width_str *)
Definition get_var_width_str (g : sig) : list dtok :=
  let width := match g_width_of g with Some e => to_string e ++ [TSym YMinus; one_tok] | None => [num_tok (g_width g - 1)] end%list in
  let st := match g_kind g with Struct _ => true | _ => false end in
  if (1 <? g_width g) && negb st || match g_width_of g with Some _ => true | None => false end then [DRange width] else [].
(* src/codegen.cc:268-279  get_width_str *)
Definition get_width_str_n (n : Z) : dtok := DRange [num_tok (n - 1)].
Definition get_width_str_v (e : expr) : dtok :=
  DRange ((if is_param e then to_string e else paren (to_string e)) ++ [TSym YMinus; one_tok])%list.
(* src/codegen.cc:1005-1015  get_var_size_str *)
Fixpoint get_var_size_str_from (i : nat) (l : list Z) (f : nat -> option expr) : list dtok :=
  match l with
  | [] => []
  | n :: r => match f i with Some e => get_width_str_v e | None => get_width_str_n n end :: get_var_size_str_from (S i) r f
  end.
Definition get_var_size_str (g : sig) : list dtok := get_var_size_str_from 0 (g_size g) (g_size_of g).
Definition front (g : sig) : Z := match g_size g with n :: _ => n | [] => 0 end.
(* src/codegen.cc:1017-1055  get_port_str; the test for an array includes the parameter of the first dimension *)
Definition port_array (g : sig) : bool :=
  (1 <? front g) || Nat.ltb 1 (List.length (g_size g)) || g_explicit g || match g_size_of g 0%nat with Some _ => true | None => false end.
Definition get_port_str (d : dir) (g : sig) : list dtok :=
  [DDir d; DType (type_of (g_kind g))]
    ++ (if g_signed g then [DSigned] else [])
    ++ (if port_array g && g_packed g then get_var_size_str g else [])
    ++ (match g_kind g with Logic => get_var_width_str g | _ => [] end)
    ++ [DName (g_name g)]
    ++ (if port_array g && negb (g_packed g) then get_var_size_str g else []).
(* src/codegen.cc:117-156  get_var_decl: a type given by a parameter is not looked at *)
Definition var_array (g : sig) : bool := (1 <? front g) || Nat.ltb 1 (List.length (g_size g)) || g_explicit g.
Definition get_var_decl (g : sig) : list dtok :=
  let ty := match g_kind g with TypeParam _ => "logic" | k => type_of k end in
  let width := get_var_width_str g in
  [DType ty] ++ (if g_signed g then [DSigned] else []) ++
    if var_array g then
      if g_packed g then get_var_size_str g ++ width ++ [DName (g_name g)]
      else width ++ [DName (g_name g)] ++ get_var_size_str g
    else (match g_kind g with EnumOf _ => [] | _ => width end) ++ [DName (g_name g)].

(* src/codegen.cc:281-340  generate_ports: names in order, then a stable sort that puts inputs before outputs.
   A comparison that is no strict weak order on the elements is undefined. *)
Record pinfo := { p_name : string; p_dir : dir; p_iface : option (string * string) }.   (* definition, instance *)
Fixpoint str_ltb (a b : string) : bool :=
  match a, b with
  | EmptyString, String _ _ => true
  | String x a, String y b => let i := Ascii.nat_of_ascii x in let j := Ascii.nat_of_ascii y in Nat.ltb i j || Nat.eqb i j && str_ltb a b
  | _, EmptyString => false
  end.
Fixpoint sinsert {A} (lt : A -> A -> bool) (a : A) (l : list A) : list A :=
  match l with [] => [a] | b :: r => if lt a b then a :: l else b :: sinsert lt a r end.
Definition ssort {A} (lt : A -> A -> bool) (l : list A) : list A := fold_left (fun acc a => sinsert lt a acc) l [].
Definition in_before_out (a b : pinfo) : bool := match p_dir a, p_dir b with In_, Out_ => true | _, _ => false end.
Definition has_dir (d : dir) (l : list pinfo) : bool :=
  existsb (fun p => match p_dir p, d with In_, In_ | Out_, Out_ | Inout_, Inout_ => true | _, _ => false end) l.
Definition stable_sort_ports (l : list pinfo) : outcome (list pinfo) :=
  if has_dir In_ l && has_dir Out_ l && has_dir Inout_ l then UB
  else Ok (ssort in_before_out l).
Definition port_order (l : list pinfo) : outcome (list pinfo) :=
  stable_sort_ports (ssort (fun a b => str_ltb (p_name a) (p_name b)) l).
(* interfaces once each, then the other ports; a comma after each but the last *)
Fixpoint ifaces (seen : list string) (l : list pinfo) : list (string * string) :=
  match l with
  | [] => []
  | p :: r =>
      match p_iface p with
      | Some (d, n) => if existsb (String.eqb n) seen then ifaces seen r else (d, n) :: ifaces (n :: seen) r
      | None => ifaces seen r
      end
  end.
Inductive entry := EIface (def inst : string) | EPort (n : string).
Definition entries (l : list pinfo) : list entry :=
  map (fun i => EIface (fst i) (snd i)) (ifaces [] l)
  ++ map (fun p => EPort (p_name p)) (filter (fun p => match p_iface p with None => true | _ => false end) l).
Fixpoint with_commas (count size : nat) (l : list entry) : list (ltok entry) :=
  match l with
  | [] => []
  | e :: r => LItem e :: (if Nat.eqb (S count) size then [] else [LComma]) ++ with_commas (S count) size r
  end.
Definition generate_ports (l : list pinfo) : outcome (list (ltok entry)) :=
  olet o := port_order l in let es := entries o in Ok (with_commas 0 (List.length es) es).

(* parameters.  src/expr.hh:476-535: the value, the initial value, the parameter it was set from *)
Inductive ptype := PIntegral | PParameter | PEnum.
Record par := { a_name : string; a_type : ptype; a_value : Z; a_has : bool; a_init : option Z; a_parent : option string }.
Inductive ptext := TNum (z : Z) | TRef (n : string).
(* src/expr.cc:1201-1215  value_str; the name of an enum parameter is the number it was made with, 0 (src/expr.cc:936, 1161) *)
Definition value_str (p : par) : ptext :=
  match a_type p with
  | PIntegral => TNum (a_value p)
  | _ => match a_parent p with Some n => TRef n | None => match a_type p with PEnum => TNum 0 | _ => TNum 1 end end
  end.
(* src/codegen.cc:352-387  generate_parameters: the default in the module header *)
Definition default_of (p : par) : option ptext :=
  match a_init p with
  | Some v => Some (TNum v)
  | None => match a_type p with
            | PEnum | PParameter => None
            | PIntegral => if a_has p then Some (value_str p) else None
            end
  end.
(* src/codegen.cc:820-858  the overrides of an instance *)
Definition skipped (p : par) : bool :=
  match a_parent p, a_init p with None, Some v => Z.eqb v (a_value p) | _, _ => false end.
Definition override_of (p : par) : option ptext := if skipped p then None else Some (value_str p).

(* src/codegen.cc:1186-1210  enum_code_: labels sorted by value, one per line *)
Definition enum_text (values : list (string * Z)) : list (ltok (string * Z)) :=
  let l := ssort (fun a b => snd a <? snd b) values in
  (fix go (count : nat) (l : list (string * Z)) :=
     match l with
     | [] => []
     | e :: r => LItem e :: (if Nat.eqb (S count) (List.length values) then [] else [LComma]) ++ go (S count) r
     end) 0%nat l.
(* src/expr.cc:2053-2085  verify_naming_conflict, src/generator.cc:261-267, src/context.cc:112-119; [width_ok] is the check of
   the constants (src/expr.cc:936-953).  Checks of the name of the type are not modelled. *)
Definition enums := list (string * list (string * Z)).
Definition fits (w : Z) (v : Z) : bool := (0 <=? v) && (v <? 2 ^ w).
Definition define_enum (es : enums) (name : string) (values : list (string * Z)) (w : Z) : outcome enums :=
  if negb (forallb (fun e => fits w (snd e)) values) then Throw
  else if existsb (fun e => String.eqb (fst e) name) es then Throw
  else if existsb (fun v => existsb (fun e => existsb (fun u => String.eqb (fst u) (fst v)) (snd e)) es) values then Throw
  else Ok (es ++ [(name, values)])%list.

(* src/codegen.cc:749-764  stmt_code(AssertPropertyStmt), from the action on; [act]: 0 none, 1 assert, 2 assume, 3 cover *)
Definition property_text (assert_ : bool) (p : string) (els : option string) : list atok :=
  match els with
  | Some s => if assert_ then [AAssert p; AStmt s] else [AAssert p; ASemi]
  | None => [AAssert p; ASemi]
  end.
(* src/codegen.cc:710-729  stmt_code(AssertBase) for an assertion on a value *)
Definition value_text (p : string) (els : option string) : list atok :=
  match els with Some s => [AAssert p; AElse; AStmt s] | None => [AAssert p; ASemi] end.

(* src/codegen.cc:1288-1334  generate_sv_package_header; the definitions are lists of lines *)
Definition package_header (guard : bool) (defs : list (list string)) : list hline :=
  (if guard then [HIfndef; HDefine; HPackage] else [])
  ++ flat_map (fun d => map HText d ++ [HText ""]) defs
  ++ [HEndpackage] ++ (if guard then [HEndif] else []).

(* src/codegen.cc:1240-1286  create_wrapper_flatten: the names of the ports of the wrapper *)
Definition slice_name (n : string) (ix : list nat) : string :=
  fold_left (fun s i => (s ++ "_" ++ dec (Z.of_nat i))%string) ix n.
(* get_flatten_slices, src/util.cc:348-371 *)
Fixpoint indices (size : list nat) : list (list nat) :=
  match size with [] => [[]] | n :: r => flat_map (fun i => map (cons i) (indices r)) (seq 0 n) end.
Definition wrapper_names (p : string * list nat) : list string :=
  match snd p with [1%nat] => [fst p] | sz => map (slice_name (fst p)) (indices sz) end.
(* gen.port throws when the name is taken (src/generator.cc:136-142, add_port_name) *)
Fixpoint add_names (taken : list string) (l : list string) : outcome (list string) :=
  match l with [] => Ok taken | n :: r => if existsb (String.eqb n) taken then Throw else add_names (taken ++ [n])%list r end.
Definition create_wrapper (ports : list (string * list nat)) : outcome (list string) := add_names [] (flat_map wrapper_names ports).

(* src/codegen.cc:1477-1527  generate_verilog_pkg: files are written unless they hold the text already.
   [stamp] counts writes. *)
Record file := { f_text : string; f_stamp : nat }.
Definition fsys := string -> option file.
Definition write (now : nat) (fs : fsys) (path text : string) : fsys :=
  match fs path with
  | Some f => if String.eqb (f_text f) text then fs else fun p => if String.eqb p path then Some {| f_text := text; f_stamp := now |} else fs p
  | None => fun p => if String.eqb p path then Some {| f_text := text; f_stamp := now |} else fs p
  end.
(* modules are a map from names, written in order, then the header; verilog_fn is set for those written *)
Definition written (fs : fsys) (path text : string) : bool :=
  match fs path with Some f => negb (String.eqb (f_text f) text) | None => true end.
Definition sv (n : string) : string := (n ++ ".sv")%string.
Definition svh (n : string) : string := (n ++ ".svh")%string.
Fixpoint write_all (now : nat) (fs : fsys) (l : list (string * string)) : fsys * list string :=
  match l with
  | [] => (fs, [])
  | (n, t) :: r => let p := write_all now (write now fs (sv n) t) r in (fst p, if written fs (sv n) t then n :: snd p else snd p)
  end.
Definition generate_pkg (now : nat) (fs : fsys) (mods : list (string * string)) (pkg header : string) : fsys * list string :=
  let p := write_all now fs mods in (write now (fst p) (svh pkg) header, snd p).
