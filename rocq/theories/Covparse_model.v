(* src/fault.cc:510-704 *)
From Verif Require Import Base Num_spec Covparse_spec.
From Coq Require Import String Ascii.
Local Open Scope Z_scope.

(* src/util.cc:590-604; std::isspace *)
Definition isspace (c : ascii) : bool :=
  let n := nat_of_ascii c in (n =? 32)%nat || ((9 <=? n)%nat && (n <=? 13)%nat).
Fixpoint ltrim (s : text) : text := match s with c :: r => if isspace c then ltrim r else s | [] => [] end.
Definition rtrim (s : text) : text := rev (ltrim (rev s)).
Definition trim (s : text) : text := rtrim (ltrim s).
(* std::stol and std::stoi: blanks, a sign, digits; what follows the digits is ignored *)
Definition sto (bits : Z) (s : text) : outcome Z :=
  let '(sign, d) := match ltrim s with
                    | c :: r => if Ascii.eqb c "-" then (-1, r) else if Ascii.eqb c "+" then (1, r) else (1, c :: r)
                    | [] => (1, []) end in
  match read_num 10 (string_of_list_ascii d) with
  | Some (n, _) => let v := sign * n in if (- 2 ^ (bits - 1) <=? v) && (v <? 2 ^ (bits - 1)) then Ok v else Throw
  | None => Throw
  end.
Definition stol := sto 64.
Definition stoi := sto 32.

Definition teqb (a b : text) : bool := if list_eq_dec ascii_dec a b then true else false.
Fixpoint get (d : list (text * text)) (k : text) : option text :=
  match d with [] => None | (k', v) :: r => if teqb k k' then Some v else get r k end.
(* unordered_map::emplace *)
Definition put (d : list (text * text)) (k v : text) : list (text * text) :=
  match get d k with Some _ => d | None => d ++ [(k, v)] end.

(* src/fault.cc:565-594: the loop over a line from index 2; the rest of the line after the quote
   that ends the last value, if there is one *)
Fixpoint fsm (state : nat) (key buf : text) (data : list (text * text)) (l : text) : outcome (list (text * text) * option text) :=
  match l with
  | [] => Ok (data, None)
  | c :: r =>
      match state with
      | 0%nat => fsm (if Ascii.eqb c soh then 1%nat else 0%nat) key buf data r
      | 1%nat => if Ascii.eqb c stx then fsm 2 buf [] data r else fsm 1 key (buf ++ [c]) data r
      | _ => if Ascii.eqb c quote || Ascii.eqb c soh
             then match key with
                  | [] => Throw
                  | _ => if Ascii.eqb c quote then Ok (put data key buf, Some r) else fsm 1 [] [] (put data key buf) r
                  end
             else fsm 2 key (buf ++ [c]) data r
      end
  end.
(* src/fault.cc:552-613 for one line: None when the line is skipped.  static_cast<uint64_t> of the
   count, then the conversion to the uint32_t of the tuple *)
Definition decode (line : text) : outcome (option hit) :=
  match line with
  | c :: _ =>
      if Ascii.eqb c "C" then
        olet st := fsm 0 [] [] [] (skipn 2 line) in
        match get (fst st) (chr "page") with
        | None => Throw
        | Some page =>
            if teqb (firstn 6 page) (chr "v_line") then
              match snd st with
              | None | Some [] => Throw
              | Some rest =>
                  olet count := stol (trim rest) in
                  match get (fst st) (chr "f"), get (fst st) (chr "l") with
                  | Some fn, Some l => olet ln := stoi l in Ok (Some (fn, u32 ln, u32 (u64 count)))
                  | _, _ => Throw
                  end
              end
            else Ok None
        end
      else Ok None
  | [] => Ok None
  end.
Fixpoint verilator (lines : list text) : outcome (list hit) :=
  match lines with
  | [] => Ok []
  | l :: r => olet h := decode l in olet hs := verilator r in Ok (match h with Some x => x :: hs | None => hs end)
  end.

(* src/util.cc:567-575 with std::filesystem: path::filename on POSIX *)
Fixpoint base_loop (acc s : text) : text :=
  match s with [] => acc | c :: r => if Ascii.eqb c "/" then base_loop [] r else base_loop (acc ++ [c]) r end.
Definition basename (s : text) : text := base_loop [] s.
(* src/fault.cc:510-526: the blocks with the file their generator was written to (none if empty)
   and their line, in the order of the visitor; emplace keeps the first *)
Definition same_key (f : text) (l : Z) (e : text * Z * nat) : bool := teqb f (fst (fst e)) && (l =? snd (fst e)).
Definition add_block (m : list (text * Z * nat)) (b : block) : list (text * Z * nat) :=
  let '(id, fn, ln) := b in
  match fn with
  | [] => m
  | _ => if existsb (same_key (basename fn) ln) m then m else m ++ [(basename fn, ln, id)]
  end.
Definition stmt_map (bs : list block) : list (text * Z * nat) := fold_left add_block bs [].
(* src/fault.cc:528-544 *)
Definition add_hit (m : list (text * Z * nat)) (res : list (nat * Z)) (h : hit) : list (nat * Z) :=
  let '(fn, ln, count) := h in
  if count =? 0 then res
  else match find (same_key (basename fn) ln) m with
       | Some (_, _, id) => if existsb (fun e => Nat.eqb id (fst e)) res then res else res ++ [(id, count)]
       | None => res
       end.
Definition reverse_map (bs : list block) (hits : list hit) : list (nat * Z) := fold_left (add_hit (stmt_map bs)) hits [].

(* src/fault.cc:615-635 get_icc_tokens; the loop keeps the rest of the string *)
Fixpoint icc_loop (buf : text) (res : list text) (s : text) : list text :=
  match s with
  | [] => match buf with [] => res | _ => res ++ [buf] end
  | c :: r =>
      match r with
      | d :: _ => if Ascii.eqb c " " && Ascii.eqb d " "
                  then icc_loop [] (match trim buf with [] => res | b => res ++ [b] end) r
                  else icc_loop (buf ++ [c]) res r
      | [] => icc_loop (buf ++ [c]) res r
      end
  end.
Definition icc_tokens (s : text) : list text := icc_loop [] [] (trim s).
(* std::string::find *)
Fixpoint is_prefix (p s : text) : bool :=
  match p, s with [], _ => true | a :: p', b :: s' => Ascii.eqb a b && is_prefix p' s' | _, [] => false end.
Fixpoint after (p s : text) : option text :=
  if is_prefix p s then Some (skipn (List.length p) s) else match s with [] => None | _ :: r => after p r end.
Definition allowed_kind (k : text) : bool := teqb k (chr "true part of") || teqb k (chr "false part of") || teqb k (chr "a case item of").
Definition starts_dash (l : text) : bool := match l with c :: _ => Ascii.eqb c "-" | [] => false end.
(* src/fault.cc:637-699 *)
Fixpoint icc (state : nat) (file : text) (lines : list text) : outcome (list hit) :=
  match lines with
  | [] => Ok []
  | line0 :: rest =>
      let line := trim line0 in
      if starts_dash line then icc state file rest
      else
          match state with
          | 0%nat => match after (chr "File name:") line with
                     | Some f => icc 1 (trim f) rest
                     | None => icc 0 file rest
                     end
          | 1%nat => match after (chr "Count  Block") line with
                     | Some _ => icc 2 file rest
                     | None => icc 1 file rest
                     end
          | _ =>
              match line with
              | [] => icc 0 [] rest
              | _ =>
                  match icc_tokens line with
                  | count :: _ :: ln :: kind :: _ :: _ :: _ =>
                      if allowed_kind kind then
                        olet c := stoi count in
                        olet l := stoi ln in
                        match file with
                        | [] => Throw
                        | _ => olet hs := icc 2 file rest in Ok ((file, u32 l, u32 c) :: hs)
                        end
                      else icc 2 file rest
                  | _ => Throw
                  end
              end
          end
  end.
