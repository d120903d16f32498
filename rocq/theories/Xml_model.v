(* src/fault.cc:200-303 class XMLWriter *)
From Verif Require Import Base Xml_spec.
From Coq Require Import String Ascii.
Local Open Scope string_scope.

(* src/fault.cc:279-301 *)
Fixpoint write_escape (s : string) : string :=
  match s with
  | EmptyString => ""
  | String c r =>
      (if Ascii.eqb c "&" then "&amp;" else if Ascii.eqb c "<" then "&lt;" else if Ascii.eqb c ">" then "&gt;"
       else if Ascii.eqb c "'" then "&apos;" else if Ascii.eqb c """" then "&quot;" else String c "") ++ write_escape r
  end.
(* the stream, tag_open_, new_line_ and elt_stack_ *)
Record writer := { w_out : string; w_tag_open : bool; w_new_line : bool; w_stack : list string }.
Definition endl : string := String (ascii_of_nat 10) "".
(* src/fault.cc:205-208; both parts of the header are text before the document *)
Definition new_writer : writer := {| w_out := ""; w_tag_open := false; w_new_line := true; w_stack := [] |}.
(* src/fault.cc:264-269 *)
Definition close_tag (w : writer) : writer :=
  if w_tag_open w then {| w_out := w_out w ++ ">"; w_tag_open := false; w_new_line := w_new_line w; w_stack := w_stack w |} else w.
(* src/fault.cc:271-275 *)
Fixpoint spaces (n : nat) : string := match n with O => "" | S k => "    " ++ spaces k end.
Definition indent (w : writer) : string := spaces (List.length (w_stack w)).
(* src/fault.cc:210-219 *)
Definition open_elt (w0 : writer) (tag : string) : writer :=
  let w := close_tag w0 in
  {| w_out := w_out w ++ (match w_stack w with [] => "" | _ => endl end) ++ indent w ++ "<" ++ tag;
     w_tag_open := true; w_new_line := false; w_stack := tag :: w_stack w |}.
(* src/fault.cc:221-232; top() of an empty stack is undefined.  indent() runs after the pop. *)
Definition close_elt (w0 : writer) : outcome writer :=
  let w := close_tag w0 in
  match w_stack w with
  | [] => UB
  | elt :: r =>
      Ok {| w_out := w_out w ++ (if w_new_line w then endl ++ spaces (List.length r) else "") ++ "</" ++ elt ++ ">";
            w_tag_open := w_tag_open w; w_new_line := true; w_stack := r |}
  end.
(* src/fault.cc:239-244 *)
Definition attr (w : writer) (k v : string) : writer :=
  {| w_out := w_out w ++ " " ++ k ++ "=""" ++ write_escape v ++ """"; w_tag_open := w_tag_open w; w_new_line := w_new_line w; w_stack := w_stack w |}.
(* src/fault.cc:251-255 *)
Definition content (w0 : writer) (s : string) : writer :=
  let w := close_tag w0 in
  {| w_out := w_out w ++ write_escape s; w_tag_open := w_tag_open w; w_new_line := w_new_line w; w_stack := w_stack w |}.
Definition do_wop (w : writer) (o : wop) : outcome writer :=
  match o with
  | OpenElt t => Ok (open_elt w t)
  | Attr k v => Ok (attr w k v)
  | Content s => Ok (content w s)
  | CloseElt => close_elt w
  end.
Fixpoint do_wops (w : writer) (l : list wop) : outcome writer :=
  match l with [] => Ok w | o :: r => olet w' := do_wop w o in do_wops w' r end.
(* src/fault.cc:234-237 *)
Fixpoint close_n (n : nat) (w : writer) : outcome writer :=
  match n with O => Ok w | S k => olet w' := close_elt w in close_n k w' end.
Definition close_all (w : writer) : outcome writer := close_n (List.length (w_stack w)) w.
Definition write_document (l : list wop) : outcome string :=
  olet w := do_wops new_writer l in olet w' := close_all w in Ok (w_out w').

(* src/fault.cc:413-424: coverage[fn][ln] = stmt, first the lines and then the blocks, both in the
   order of their hash sets; the maps are sorted by key, here only the entries kept matter *)
Record entry := { e_file : string; e_line : Z; e_gen : string; e_hits : Z }.
Definition same_line (a b : entry) : bool := String.eqb (e_file a) (e_file b) && (e_line a =? e_line b)%Z.
Fixpoint listed (l : list entry) : list entry :=
  match l with
  | [] => []
  | e :: r => if existsb (same_line e) r then listed r else e :: listed r
  end.
(* src/fault.cc:434-508: the calls for the report; the numbers of the attributes as text, the
   classes with their file name and lines *)
Definition report_line (n h : string) : list wop := [OpenElt "line"; Attr "number" n; Attr "hits" h; Attr "branch" "false"; CloseElt].
Definition report_class (c : string * string * list (string * string)) : list wop :=
  let '(name, file, lines) := c in
  ([OpenElt "class"; Attr "name" name; Attr "filename" file; Attr "line-rate" "1"; Attr "branch-rate" "1"; Attr "complexity" "1";
    OpenElt "methods"; CloseElt; OpenElt "lines"] ++ flat_map (fun l => report_line (fst l) (snd l)) lines ++ [CloseElt; CloseElt])%list.
Definition report_ops (stats : list (string * string)) (root : string) (cs : list (string * string * list (string * string))) : list wop :=
  ([OpenElt "coverage"] ++ map (fun s => Attr (fst s) (snd s)) stats ++
   [OpenElt "sources"; OpenElt "source"; Content root; CloseElt; CloseElt;
    OpenElt "packages"; OpenElt "package"; OpenElt "classes"; Attr "line-rate" "1"; Attr "branch-rate" "1"; Attr "complexity" "1"] ++
   flat_map report_class cs)%list.
