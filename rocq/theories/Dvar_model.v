(* The variables that the debug database holds for a signal. *)
From Coq Require Import String.
From Verif Require Import Base Num_model Util_spec Util_model.
Local Open Scope string_scope.
Local Open Scope Z_scope.

Inductive kind := KBase | KPort | KSlice | KOther.
(* what create_variables looks at in a Var: its text, type and dimensions; the members of its struct (is_struct, src/expr.hh:172, 389,
   611, src/port.hh:98); and for a slice by a variable the first dimension and the text of the variable sliced and the text of the
   index (src/expr.hh:400-423) *)
Record dvar := mkV {
  v_text : string; v_kind : kind; v_dims : list Z;
  v_struct : option (list string);
  v_sel : option (Z * string * string) }.
Definition entry := (string * string * string)%type.     (* name, value, condition *)
Definition e_name (e : entry) : string := fst (fst e).
Definition e_value (e : entry) : string := snd (fst e).
Definition e_cond (e : entry) : string := snd e.

(* src/debug.cc:239-241 and 242-243 *)
Definition dotted (name : string) (ix : list Z) : string := fold_left (fun s i => s ++ "." ++ dec i) ix name.
Definition indexed (value : string) (ix : list Z) : string := fold_left (fun s i => s ++ "[" ++ dec i ++ "]") ix value.
(* src/debug.cc:282-283  names[0]; undefined when there is none *)
Definition root_name (name : string) : outcome string :=
  match get_tokens (list_ascii_of_string name) (list_ascii_of_string "[].") with
  | t :: _ => Ok (string_of_list_ascii t)
  | [] => UB
  end.
(* src/debug.cc:235 *)
Definition is_array (dims : list Z) : bool :=
  match dims with [] => false | d :: ds => negb (match ds with [] => true | _ => false end) || (1 <? d) end.

(* src/debug.cc:232-308 *)
Definition create_variables (v : dvar) (name : string) : outcome (list entry) :=
  if is_array (v_dims v) then
    Ok (map (fun ix => (dotted name ix, indexed (v_text v) ix, "")) (get_flatten_slices (v_dims v)))
  else
    match v_struct v with
    | Some members =>
        match v_kind v with
        | KPort | KBase => Ok (map (fun m => (name ++ "." ++ m, v_text v ++ "." ++ m, "")) members)
        | _ => Ok []
        end
    | None =>
        match v_kind v, v_sel v with
        | KSlice, Some (size, base, sel) =>
            olet root := root_name name in
            Ok (map (fun i => (root ++ "." ++ dec (Z.of_nat i), base ++ "[" ++ dec (Z.of_nat i) ++ "]", sel ++ " == " ++ dec (Z.of_nat i)))
                    (seq 0 (Z.to_nat size)))
        | _, _ => Ok [(name, v_text v, "")]
        end
    end.

(* src/debug.cc:198-214  set_variable_mapping for one generator: emplace *)
Definition vmap := list (string * string).
Definition find_name (m : vmap) (n : string) : option string :=
  option_map snd (find (fun e => String.eqb (fst e) n) m).
Definition set_mapping (m new : vmap) : vmap :=
  fold_left (fun m e => match find_name m (fst e) with Some _ => m | None => (m ++ [e])%list end) new m.
