(* Reading the ports of a Verilog module: src/util.cc:269-347. *)
From Coq Require Import Ascii String.
From Verif Require Import Base Util_spec Util_model Vport_spec.
Local Open Scope Z_scope.

(* -- the regular expression (input|output)(\s|\[)\s?([\w,\s_$\[\]:])+ of src/util.cc:273 --------------------------- *)
Definition white_b (c : ascii) : bool := (code c =? 32) || ((9 <=? code c) && (code c <=? 13)).
Definition word_b (c : ascii) : bool :=
  ((48 <=? code c) && (code c <=? 57)) || ((65 <=? code c) && (code c <=? 90)) || ((97 <=? code c) && (code c <=? 122))
  || (code c =? 95) || (code c =? 36).
(* [\w,\s_$\[\]:] *)
Definition class_b (c : ascii) : bool :=
  word_b c || white_b c || (code c =? 44) || (code c =? 91) || (code c =? 93) || (code c =? 58).

Fixpoint take_run (s : list ascii) : list ascii * list ascii :=
  match s with
  | [] => ([], [])
  | c :: s' => if class_b c then let '(r, t) := take_run s' in (c :: r, t) else ([], s)
  end.
Fixpoint after_prefix (p s : list ascii) : option (list ascii) :=
  match p, s with
  | [], _ => Some s
  | x :: p, y :: s => if Ascii.eqb x y then after_prefix p s else None
  | _ :: _, [] => None
  end.
(* a match that starts here: the keyword, one blank or bracket, and the longest run of the class, which may start with
   the optional \s as the class has it too *)
Definition match_kw (k s : list ascii) : option (list ascii * list ascii) :=
  match after_prefix k s with
  | Some (c :: s') =>
      if white_b c || (code c =? 91) then
        let '(r, t) := take_run s' in
        match r with [] => None | _ => Some (k ++ c :: r, t) end
      else None
  | _ => None
  end.
Definition match_here (s : list ascii) : option (list ascii * list ascii) :=
  match match_kw (chars "input") s with Some m => Some m | None => match_kw (chars "output") s end.
(* std::regex_search: the first match and what follows it *)
Fixpoint search (s : list ascii) : option (list ascii * list ascii) :=
  match match_here s with
  | Some m => Some m
  | None => match s with [] => None | _ :: s' => search s' end
  end.

(* -- one match ---------------------------------------------------------------------------------------------------- *)
(* std::stoi: white space, a sign, digits; the rest is ignored; throws if there are no digits or the number does not
   fit an int.  Assigned to a uint32_t. *)
Fixpoint skip_white (s : list ascii) : list ascii :=
  match s with c :: s' => if white_b c then skip_white s' else s | [] => [] end.
Definition digit_b (c : ascii) : bool := (48 <=? code c) && (code c <=? 57).
Fixpoint take_digits (s : list ascii) : list ascii :=
  match s with c :: s' => if digit_b c then c :: take_digits s' else [] | [] => [] end.
Definition stoi (s : list ascii) : outcome Z :=
  let s := skip_white s in
  let '(neg, s) := match s with
                   | c :: s' => if code c =? 45 then (true, s') else if code c =? 43 then (false, s') else (false, s)
                   | [] => (false, []) end in
  match take_digits s with
  | [] => Throw
  | ds => let v := if neg : bool then - dec ds else dec ds in
          if (- 2 ^ 31 <=? v) && (v <? 2 ^ 31) then Ok (v mod 2 ^ 32) else Throw
  end.

Definition ports := list (list ascii * (dir * Z)).
Definition name_eqb (a b : list ascii) : bool := if list_eq_dec ascii_dec a b then true else false.
(* std::map::emplace; the order of the map is not kept *)
Definition emplace (r : ports) (n : list ascii) (p : dir * Z) : ports :=
  if existsb (fun e => name_eqb (fst e) n) r then r else r ++ [(n, p)].

Definition opens (t : list ascii) : bool := match t with c :: _ => code c =? 91 | [] => false end.
Definition closes (t : list ascii) : bool := match rev t with c :: _ => code c =? 93 | [] => false end.

(* src/util.cc:306-339  a token, after 303-305; [k] goes on with the next token *)
Definition one (t : list ascii) (k : dir -> Z -> Z -> ports -> outcome ports) (d : dir) (hi lo : Z) (r : ports) : outcome ports :=
  if opens t && closes t then
    match get_tokens t (chars "[:] ") with
    | [h; l] =>
        olet h := stoi h in
        olet l := stoi l in
        if h <? l then Throw else k d h l r
    | _ => Throw
    end
  else if opens t then Throw
  else if name_eqb t (chars "input") then k DIn hi lo r
  else if name_eqb t (chars "output") then k DOut hi lo r
  else if name_eqb t (chars "inout") then k DInOut hi lo r
  else k d hi lo (emplace r t (d, (hi - lo + 1) mod 2 ^ 32)).

(* src/util.cc:297-340  the loop over the tokens; tokens[++i] past the end is undefined *)
Fixpoint token_loop (ts : list (list ascii)) (d : dir) (hi lo : Z) (r : ports) : outcome ports :=
  match ts with
  | [] => Ok r
  | t :: rest =>
      match t with
      | [] => token_loop rest d hi lo r
      | _ =>
          if opens t && negb (closes t) then
            match rest with
            | [] => UB
            | t2 :: rest2 => one (t ++ t2) (token_loop rest2) d hi lo r
            end
          else one t (token_loop rest) d hi lo r
      end
  end.

(* src/util.cc:278-296 *)
Definition declaration (m : list ascii) (r : ports) : outcome ports :=
  match get_tokens m (chars ", ") with
  | t0 :: ((_ :: _) as ts) =>
      if name_eqb t0 (chars "input") then token_loop ts DIn 0 0 r
      else if name_eqb t0 (chars "output") then token_loop ts DOut 0 0 r
      else Throw
  | _ => Throw
  end.

(* src/util.cc:269-347  get_port_from_mod_def; each match is at least a character shorter than what is left *)
Fixpoint mod_loop (fuel : nat) (s : list ascii) (r : ports) : outcome ports :=
  match fuel with
  | O => UB
  | S f =>
      match search s with
      | None => Ok r
      | Some (m, rest) => olet r := declaration m r in mod_loop f rest r
      end
  end.
Definition get_ports (s : list ascii) : outcome ports := mod_loop (S (length s)) s [].
