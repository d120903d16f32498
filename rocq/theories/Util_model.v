(* Models of helpers in src/util.cc. *)
From Verif Require Import Base Util_spec.
Local Open Scope Z_scope.

(* src/util.cc:232-234  clog2: ceil(log2(value)) is Z.log2_up value (the double logarithm of a
   32-bit integer is exact for powers of two and far from an integer otherwise; C12's last
   theorem ties Z.log2_up to the real logarithm).  log2(0) is -inf, whose conversion to
   uint32_t is undefined. *)
Definition clog2 (value : Z) : outcome Z :=
  if value =? 0 then UB else Ok (Z.max 1 (Z.log2_up value)).

(* src/util.cc:348-366  get_flatten_slices of a variable with size dims; width()/var_width()
   is the product of the sizes *)
Fixpoint flatten_loop (sizes : list Z) (value : Z) : list Z :=
  match sizes with
  | [] => []
  | l :: r => value mod l :: flatten_loop r (value / l)
  end.
Definition flatten_one (dims : list Z) (i : Z) : list Z := rev (flatten_loop (rev dims) i).
Definition num_slices (dims : list Z) : Z := fold_left Z.mul dims 1.
Definition get_flatten_slices (dims : list Z) : list (list Z) :=
  map (fun i => flatten_one dims (Z.of_nat i)) (seq 0 (Z.to_nat (num_slices dims))).

(* src/util.cc:606-624  string::get_tokens.  find_first_of(delimiter, prev): *)
Definition is_delim (delims : list ascii) (c : ascii) : bool := existsb (Ascii.eqb c) delims.
Fixpoint find_from (p : ascii -> bool) (s : list ascii) : option nat :=
  match s with
  | [] => None
  | c :: r => if p c then Some 0%nat else option_map S (find_from p r)
  end.
Definition find_first (p : ascii -> bool) (line : list ascii) (prev : nat) : option nat :=
  option_map (fun k => (prev + k)%nat) (find_from p (skipn prev line)).
Definition substr {A} (line : list A) (pos n : nat) : list A := firstn n (skipn pos line).
(* the while loop; prev grows by at least one, so length line + 1 rounds are enough *)
Fixpoint token_loop (fuel : nat) (p : ascii -> bool) (line : list ascii) (prev : nat)
  (tokens : list (list ascii)) : list (list ascii) :=
  match fuel with
  | O => tokens
  | S f =>
      match find_first p line prev with
      | Some pos =>
          token_loop f p line (S pos)
            (if (prev <? pos)%nat then tokens ++ [substr line prev (pos - prev)] else tokens)
      | None => if (prev <? length line)%nat then tokens ++ [skipn prev line] else tokens
      end
  end.
Definition get_tokens (line delims : list ascii) : list (list ascii) :=
  filter (fun t => match t with [] => false | _ => true end)
         (token_loop (S (length line)) (is_delim delims) line 0 []).

(* src/util.cc:390-413  line_wrap on the words operator>> reads; size_t arithmetic modulo 2^64.
   st = (finished lines, current line, space_left = space) *)
Definition wrap_step (width : Z) (st : list (list ascii) * list ascii * Z) (word : list ascii) :
  list (list ascii) * list ascii * Z :=
  let '(result, line, space) := st in
  if space <? u64 (zlen word + 1)
  then (result ++ [line], word, u64 (width - zlen word))
  else (result, line ++ " "%char :: word, u64 (space - (zlen word + 1))).
Definition line_wrap (words : list (list ascii)) (width : Z) : list (list ascii) :=
  match words with
  | [] => [[]]
  | w :: ws => let '(result, line, _) := fold_left (wrap_step width) ws ([], w, u64 (width - zlen w))
               in result ++ [line]
  end.

(* src/util.cc:226-230  strip_newline: the assignment in the loop condition stores the result
   of the comparison, so pos is 1 whenever the body runs; erase(1, 1) on a one-character
   string does nothing *)
Definition erase1 (s : list ascii) : list ascii :=
  match s with c :: _ :: r => c :: r | _ => s end.
Fixpoint strip_loop (fuel : nat) (s : list ascii) (pos : nat) : list ascii :=
  match fuel with
  | O => s
  | S f => match find_first (Ascii.eqb newline) s pos with
           | Some _ => strip_loop f (erase1 s) 1
           | None => s
           end
  end.
(* each round after the first shortens the string *)
Definition strip_newline (s : list ascii) : list ascii := strip_loop (S (length s)) s 0.
