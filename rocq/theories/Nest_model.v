(* src/codegen.cc:781-972 on tokens; expressions and loop headers are single tokens.  Line numbers,
   indentation, comments and block labels are not modelled. *)
From Verif Require Import Base IR Nest_spec.
Local Open Scope Z_scope.

(* src/codegen.cc:897-903: the labels sorted by value *)
Fixpoint ins {A} (c : Z * A) (l : list (Z * A)) : list (Z * A) :=
  match l with [] => [c] | d :: r => if fst c <? fst d then c :: l else d :: ins c r end.
Definition sort_cases {A} (l : list (Z * A)) : list (Z * A) := fold_left (fun acc c => ins c acc) l [].
Definition wrap (b : list tok) : list tok := TBegin :: b ++ [TEnd].
(* what a block with the statements l looks like when the statement alone may stand for it *)
Definition direct_else (l : list stmt) : bool := match l with [SAssign _ _ _] | [SIf _ _ _] | [SReturn _] => true | _ => false end.
Definition direct_case (l : list stmt) : bool := match l with [SAssign _ _ _] => true | _ => false end.
(* src/codegen.cc:905-927 for the label v *)
Definition case_text (v : Z) (body : list stmt) (b : list tok) : outcome (list tok) :=
  match body with [] => Throw | _ => Ok (TLabel v :: if direct_case body then b else wrap b) end.
Fixpoint items_text (l : list (Z * outcome (list tok))) : outcome (list tok) :=
  match l with [] => Ok [] | (_, o) :: r => olet t := o in olet u := items_text r in Ok (t ++ u) end.
Fixpoint toks (s : stmt) : outcome (list tok) :=
  let fix all (l : list stmt) : outcome (list tok) :=
    match l with [] => Ok [] | s :: r => olet t := toks s in olet u := all r in Ok (t ++ u) end in
  match s with
  | SAssign Undefined _ _ => Throw                          (* src/codegen.cc:59-62 *)
  | SAssign k l e => Ok [TAsg k l e]
  | SIf c t f =>                                            (* src/codegen.cc:781-808 *)
      olet th := all t in
      olet el := all f in
      Ok (TIf c :: wrap th ++ match f with [] => [] | _ => TElse :: if direct_else f then el else wrap el end)
  | SSwitch e cs d =>                                       (* src/codegen.cc:890-930 *)
      let fix cases (l : list (Z * list stmt)) : list (Z * outcome (list tok)) :=
        match l with
        | [] => []
        | (v, b) :: r => (v, olet t := all b in case_text v b t) :: cases r
        end in
      olet items := items_text (sort_cases (cases cs)) in
      olet def := match d with
                  | None | Some [] => Ok [TBegin; TEnd]
                  | Some b => olet t := all b in Ok (if direct_case b then t else wrap t)
                  end in
      Ok (TCase e :: items ++ TDefault :: def ++ [TEndcase])
  | SFor i a b st body => olet t := all body in Ok (TFor i a b st :: wrap t)     (* src/codegen.cc:944-972 *)
  | SBlock body => olet t := all body in Ok (wrap t)        (* src/codegen.cc:625-640 *)
  | SReturn e => Ok [TReturn e]
  | SBreak => Ok [TBreak]
  | SOther OAssertValue => Ok [TAssert]
  | SOther _ => Ok []
  end.
(* the statements of a block *)
Fixpoint toks_all (l : list stmt) : outcome (list tok) :=
  match l with [] => Ok [] | s :: r => olet t := toks s in olet u := toks_all r in Ok (t ++ u) end.
