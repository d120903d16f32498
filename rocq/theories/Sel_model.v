(* The signals that a simulation run is given by name. *)
From Coq Require Import Ascii String.
From Verif Require Import Base Util_spec Util_model Num_model Sel_spec.
Local Open Scope Z_scope.

Definition name_eqb (a b : name) : bool := if list_eq_dec ascii_dec a b then true else false.
Definition code (c : ascii) : Z := Z.of_nat (nat_of_ascii c).

(* std::stoi: blanks, a sign, digits; the rest is ignored.  [None] is std::invalid_argument, Throw is std::out_of_range *)
Fixpoint skip_white (s : name) : name :=
  match s with c :: s' => if (code c =? 32) || ((9 <=? code c) && (code c <=? 13)) then skip_white s' else s | [] => [] end.
Fixpoint take_digits (s : name) : list Z :=
  match s with c :: s' => if (48 <=? code c) && (code c <=? 57) then (code c - 48) :: take_digits s' else [] | [] => [] end.
Definition stoi (s : name) : outcome (option Z) :=
  let s := skip_white s in
  let '(neg, s) := match s with
                   | c :: s' => if code c =? 45 then (true, s') else if code c =? 43 then (false, s') else (false, s)
                   | [] => (false, []) end in
  match take_digits s with
  | [] => Ok None
  | ds => let m := fold_left (fun a d => 10 * a + d) ds 0 in
          let v := if neg : bool then - m else m in
          if (- 2 ^ 31 <=? v) && (v <? 2 ^ 31) then Ok (Some v) else Throw
  end.

Section Select.
  Variable V : Type.                              (* variables and their slices *)
  Variable inst : nat -> name.                    (* the instance name of a generator *)
  Variable child : nat -> name -> option nat.     (* get_child_generator *)
  Variable var : nat -> name -> option V.         (* get_var *)
  Variable packed_array : V -> bool.              (* is_packed() and more than one element *)
  Variable at_ : V -> Z -> outcome V.             (* operator[] of a variable *)
  Variable top : nat.

  (* src/fault.cc:47-59  select_gen: the generator and the tokens left; index 1 with no generator leaves the rest *)
  Fixpoint walk (g : nat) (tokens : list name) : nat * list name :=
    match tokens with
    | [] => (g, [])
    | t :: rest => match child g t with None => (g, tokens) | Some g' => walk g' rest end
    end.
  (* src/fault.cc:76-90  the loop over the indices *)
  Fixpoint index_loop (v : V) (tokens : list name) : outcome (option V) :=
    match tokens with
    | [] => Ok (Some v)
    | t :: rest =>
        olet n := stoi t in
        match n with
        | None => Ok None
        | Some n => if n <? 0 then Throw else olet v := at_ v n in index_loop v rest
        end
    end.
  (* src/fault.cc:61-92; tokens[0] of no tokens is undefined *)
  Definition select (n : name) : outcome (option V) :=
    match get_tokens n (chars ".") with
    | [] => UB
    | t :: rest =>
        if negb (name_eqb t (inst top)) then Ok None
        else
          match walk top rest with
          | (_, []) => Ok None
          | (g, v :: indices) =>
              match var g v with
              | None => Ok None
              | Some x => if packed_array x then Throw else index_loop x indices
              end
          end
    end.

  (* src/fault.cc:18-31  the states of a run, each a list of values set; the state is there before its values are, and stays
     when one is refused *)
  Definition states := list (list (V * Z)).
  Fixpoint set_all (values : list (name * Z)) (st : list (V * Z)) : list (V * Z) * outcome unit :=
    match values with
    | [] => (st, Ok tt)
    | (n, x) :: rest =>
        match select n with
        | Ok (Some v) => set_all rest (st ++ [(v, x)])
        | Ok None | Throw => (st, Throw)
        | UB => (st, UB)
        end
    end.
  Definition add_state (ss : states) (values : list (name * Z)) : states * outcome unit :=
    let (st, o) := set_all values [] in (ss ++ [st], o).

  (* src/fault.cc:33-39  mark_wrong_value: what is marked in the last state; a null pointer is used *)
  Definition mark_wrong (ss : states) (n : name) : outcome (nat * V) :=
    match ss with
    | [] => Throw
    | _ =>
        olet v := select n in
        match v with None => UB | Some v => Ok ((length ss - 1)%nat, v) end
    end.
End Select.
