(* XML text. *)
From Verif Require Import Base.
From Coq Require Import String Ascii.
Local Open Scope string_scope.

(* the five predefined entities *)
Inductive entity : string -> ascii -> Prop :=
| ent_amp : entity "&amp;" "&"
| ent_lt : entity "&lt;" "<"
| ent_gt : entity "&gt;" ">"
| ent_apos : entity "&apos;" "'"
| ent_quot : entity "&quot;" """".
Definition markup (c : ascii) : Prop := c = "&"%char \/ c = "<"%char \/ c = ">"%char \/ c = "'"%char \/ c = """"%char.
(* escaped text x stands for text s *)
Inductive stands_for : string -> string -> Prop :=
| sf_nil : stands_for "" ""
| sf_char c x s : ~ markup c -> stands_for x s -> stands_for (String c x) (String c s)
| sf_entity e c x s : entity e c -> stands_for x s -> stands_for (e ++ x) (String c s).

(* element and attribute names *)
Definition name_char (c : ascii) : Prop := ~ markup c /\ c <> " "%char /\ c <> "="%char /\ c <> "/"%char /\ c <> ascii_of_nat 10.
Fixpoint name_chars (s : string) : Prop := match s with EmptyString => True | String c r => name_char c /\ name_chars r end.
Definition xname (s : string) : Prop := s <> "" /\ name_chars s.
(* attributes: key="text" *)
Inductive attrs : list (string * string) -> string -> Prop :=
| at_nil : attrs [] ""
| at_add l a k v x : attrs l a -> xname k -> stands_for x v -> attrs (l ++ [(k, v)]) (a ++ " " ++ k ++ "=""" ++ x ++ """").
(* an element with its tag, attributes and content; text as content *)
Inductive xml : Type := Elem (tag : string) (l : list (string * string)) (c : list xml) | Text (s : string).
Inductive content : list xml -> string -> Prop :=
| ct_nil : content [] ""
| ct_text c a s x : content c a -> stands_for x s -> content (c ++ [Text s]) (a ++ x)
| ct_elem c a tag l la k ka : content c a -> xname tag -> attrs l la -> content k ka ->
    content (c ++ [Elem tag l k]) (a ++ "<" ++ tag ++ la ++ ">" ++ ka ++ "</" ++ tag ++ ">").
(* without the text that is only blank *)
Definition blank (c : ascii) : bool := Ascii.eqb c " " || Ascii.eqb c (ascii_of_nat 10).
Fixpoint blanks (s : string) : bool := match s with EmptyString => true | String c r => blank c && blanks r end.
Fixpoint strip_blanks (x : xml) : list xml :=
  match x with
  | Text s => if blanks s then [] else [x]
  | Elem t l c => [Elem t l (flat_map strip_blanks c)]
  end.
(* the documents a sequence of writer calls describes: the open elements with their content so
   far, innermost first, around the finished top-level nodes *)
Inductive wop : Type := OpenElt (tag : string) | Attr (k v : string) | Content (s : string) | CloseElt.
Definition frame : Type := string * list (string * string) * list xml.
Definition put (x : xml) (st : list frame * list xml) : list frame * list xml :=
  match st with
  | ((t, l, c) :: r, top) => ((t, l, (c ++ [x])%list) :: r, top)
  | ([], top) => ([], (top ++ [x])%list)
  end.
Definition describe (st : list frame * list xml) (o : wop) : list frame * list xml :=
  match o, st with
  | OpenElt t, (r, top) => ((t, [], []) :: r, top)
  | Attr k v, ((t, l, c) :: r, top) => ((t, (l ++ [(k, v)])%list, c) :: r, top)
  | Content s, _ => put (Text s) st
  | CloseElt, ((t, l, c) :: r, top) => put (Elem t l c) (r, top)
  | _, _ => st
  end.
Fixpoint close_frames (n : nat) (st : list frame * list xml) : list xml :=
  match n with O => snd st | S k => close_frames k (describe st CloseElt) end.
Definition described (ops : list wop) : list xml :=
  let st := fold_left describe ops ([], []) in close_frames (List.length (fst st)) st.
(* calls in a sensible order: attributes only right after an element was opened, no more closing
   than opening; op: the tag is still open, n: open elements *)
Fixpoint sensible (op : bool) (n : nat) (l : list wop) : Prop :=
  match l with
  | [] => True
  | OpenElt t :: r => xname t /\ sensible true (S n) r
  | Attr k v :: r => op = true /\ xname k /\ sensible true n r
  | Content s :: r => sensible false n r
  | CloseElt :: r => match n with O => False | S m => sensible false m r end
  end.
(* the coverage report: its statistics, the root path, and the classes with name, file and lines *)
Definition line_elem (l : string * string) : xml := Elem "line" [("number", fst l); ("hits", snd l); ("branch", "false")] [].
Definition class_elem (c : string * string * list (string * string)) : xml :=
  Elem "class" [("name", fst (fst c)); ("filename", snd (fst c)); ("line-rate", "1"); ("branch-rate", "1"); ("complexity", "1")]
    [Elem "methods" [] []; Elem "lines" [] (map line_elem (snd c))].
Definition report_tree (stats : list (string * string)) (root : string) (cs : list (string * string * list (string * string))) : xml :=
  Elem "coverage" stats
    [Elem "sources" [] [Elem "source" [] [Text root]];
     Elem "packages" [] [Elem "package" [] [Elem "classes" [("line-rate", "1"); ("branch-rate", "1"); ("complexity", "1")] (map class_elem cs)]]].
