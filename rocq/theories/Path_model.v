(* src/fault.cc:343-372 *)
From Verif Require Import Base Covparse_spec Path_spec.
From Coq Require Import String Ascii.

(* std::mismatch of the whole first string with the second, which must be long enough: reading past
   its end is undefined except for the terminating zero *)
Fixpoint mismatch (a b : text) : outcome nat :=
  match a, b with
  | [], _ => Ok O
  | c :: r, d :: s => if Ascii.eqb c d then olet n := mismatch r s in Ok (S n) else Ok O
  | c :: r, [] => if Ascii.eqb c zero then UB else Ok O
  end.
Fixpoint least (a : text) (m : nat) (l : list text) : outcome nat :=
  match l with
  | [] => Ok m
  | b :: r => olet n := mismatch a b in least a (if (n <? m)%nat then n else m) r
  end.
(* std::string::rfind(separator, pos) *)
Fixpoint rfind (s : text) (pos : nat) : option nat :=
  match nth_error s pos with
  | Some c => if Ascii.eqb c slash then Some pos else match pos with O => None | S p => rfind s p end
  | None => match pos with O => None | S p => rfind s p end
  end.
Definition longest_path (dirs : list text) : outcome text :=
  match dirs with
  | [] => Ok []
  | a :: r => olet m := least a (List.length a) r in
              match rfind a m with Some p => Ok (firstn p a) | None => Ok a end
  end.
Fixpoint is_prefix (p s : text) : bool :=
  match p, s with [], _ => true | a :: p', b :: s' => Ascii.eqb a b && is_prefix p' s' | _, [] => false end.
Fixpoint find_text (p s : text) : option nat :=
  if is_prefix p s then Some O else match s with [] => None | _ :: r => option_map S (find_text p r) end.
Fixpoint skip_slashes (s : text) : text := match s with c :: r => if Ascii.eqb c slash then skip_slashes r else s | [] => [] end.
(* npos + size wraps around to size - 1 (npos itself when the size is 0, but the empty string is
   always found); filename[pos] beyond the end is undefined *)
Definition after_root (root file : text) : outcome text :=
  let pos := match find_text root file with Some n => (n + List.length root)%nat | None => (List.length root - 1)%nat end in
  if (List.length file <? pos)%nat then UB else Ok (skip_slashes (skipn pos file)).
