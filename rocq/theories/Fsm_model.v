(* Model of the state machine generator, src/fsm.cc. *)
From Verif Require Import Base SV_spec IR IRSem_spec Fsm_spec.
Local Open Scope Z_scope.

(* src/util.hh:54  num && !(num & (num - 1)) *)
Definition is_2_power (n : Z) : bool := negb (n =? 0) && (Z.land n (n - 1) =? 0).

(* FSM::states_ is a std::map from names to states: the states of an FSM in name order
   (fsm.cc:463-471 add_state rejects a name used before) *)
Definition name_of (F : family) (s : nat) : string := f_name (fam_state F s).
Fixpoint insert_by_name (F : family) (s : nat) (l : list nat) : list nat :=
  match l with
  | [] => [s]
  | t :: r => if String.leb (name_of F s) (name_of F t) then s :: l else t :: insert_by_name F s r
  end.
Definition own (F : family) (f : nat) : list nat :=
  fold_right (insert_by_name F) [] (filter (fun s => Nat.eqb (f_fsm (fam_state F s)) f) (seq 0 (fam_n F))).

(* src/fsm.cc:74-77: walking up from a state's FSM (at most fam_fsms steps: the parent chain of
   nested FSMs is finite) *)
Fixpoint up_to (F : family) (fuel : nat) (f g : nat) : bool :=
  if Nat.eqb g f then true else
  match fuel with
  | O => false
  | S n => match fam_parent F g with Some p => up_to F n f p | None => false end
  end.
(* src/fsm.cc:57-88  get_all_child_states(false); [visited] is also the result, in order *)
Definition mem (s : nat) (l : list nat) : bool := existsb (Nat.eqb s) l.
Fixpoint bfs (F : family) (f : nat) (fuel : nat) (queue visited : list nat) : list nat :=
  match fuel, queue with
  | S n, s :: q =>
      if mem s visited then bfs F f n q visited
      else bfs F f n (q ++ filter (fun t => up_to F (fam_fsms F) f (f_fsm (fam_state F t)))
                                  (map snd (f_next (fam_state F s)))) (visited ++ [s])
  | _, _ => visited
  end.
Definition total_next (F : family) (l : list nat) : nat :=
  list_sum (map (fun s => length (f_next (fam_state F s))) l).
Definition all_states (F : family) (f : nat) : list nat :=
  bfs F f (length (own F f) + total_next F (seq 0 (fam_n F))) (own F f) [].

(* src/fsm.cc:104-118: enum names and values; std::map::emplace keeps an existing entry *)
Definition enum_name (F : family) (has_child : bool) (s : nat) : string :=
  if has_child then (fam_name F (f_fsm (fam_state F s)) ++ "_" ++ name_of F s)%string else name_of F s.
Definition lookup (m : list (string * Z)) (k : string) : option Z :=
  option_map snd (find (fun p => String.eqb (fst p) k) m).
Definition emplace (m : list (string * Z)) (k : string) (v : Z) : list (string * Z) :=
  match lookup m k with Some _ => m | None => m ++ [(k, v)] end.
Fixpoint raw_def (m : list (string * Z)) (names : list string) (count : Z) : list (string * Z) :=
  match names with [] => m | k :: r => raw_def (emplace m k count) r (count + 1) end.
(* src/fsm.cc:99 *)
Definition enum_width (n : Z) : Z := Z.max 1 (Z.log2_up n).

(* src/fsm.cc:728-748 FSMState::check_outputs; [outs] is an unordered map *)
Fixpoint fill_outputs (outs : list (var * option expr)) (vals : list (var * option expr))
    : outcome (list (var * option expr)) :=
  match outs with
  | [] => Ok vals
  | (x, d) :: r =>
      match assoc x vals with
      | Some _ => fill_outputs r vals
      | None => match d with
                | None => Throw
                | Some v => fill_outputs r (vals ++ [(x, Some v)])
                end
      end
  end.
Definition check_outputs (outs vals : list (var * option expr)) : outcome (list (var * option expr)) :=
  olet v := fill_outputs outs vals in
  if forallb (fun p => match assoc (fst p) outs with Some _ => true | None => false end) v
  then Ok v else Throw.

(* what realize has computed before generating code *)
Record encoded := { e_states : list nat; e_code : nat -> Z; e_width : Z; e_size : Z;
                    e_out : nat -> list (var * option expr) }.
(* get_enum of the mapped name of a state (fsm.cc:354-357): unmapped states throw *)
Definition enum_of (E : encoded) (s : nat) : outcome expr :=
  if mem s (e_states E) then Ok (EConst (e_code E s) (e_width E) false) else Throw.
Definition next_stmt (E : encoded) (nxt : var) (s : nat) : outcome stmt :=
  olet c := enum_of E s in Ok (SAssign Blocking (LVar nxt) c).
(* src/fsm.cc:218-235, 370-382: a call of the output function assigns every output its value in
   the given state.  The call is modelled by its body with the arguments in place. *)
Definition func_call (E : encoded) (s : nat) : stmt :=
  SBlock (map (fun p => SAssign Blocking (LVar (fst p)) (match snd p with Some e => e | None => EVar (fst p) end))
              (e_out E s)).
(* src/fsm.cc:274-318: the list of guarded then-branches, and the last unconditional target *)
Fixpoint guarded (E : encoded) (moore : bool) (nxt : var) (ts : list (option expr * nat))
    : outcome (list (expr * list stmt)) :=
  match ts with
  | [] => Ok []
  | (None, _) :: r => guarded E moore nxt r
  | (Some c, t) :: r =>
      olet a := next_stmt E nxt t in
      olet l := guarded E moore nxt r in
      Ok ((c, a :: (if moore then [] else [func_call E t])) :: l)
  end.
Fixpoint default_target (ts : list (option expr * nat)) (d : option nat) : option nat :=
  match ts with
  | [] => d
  | (None, t) :: r => default_target r (Some t)
  | (Some _, _) :: r => default_target r d
  end.
(* the if / else if chain *)
Fixpoint chain (l : list (expr * list stmt)) (e : list stmt) : list stmt :=
  match l with [] => e | (c, t) :: r => [SIf c t (chain r e)] end.
Fixpoint add_to_last (l : list (expr * list stmt)) (s : stmt) : list (expr * list stmt) :=
  match l with
  | [] => []
  | [(c, t)] => [(c, t ++ [s])]
  | a :: r => a :: add_to_last r s
  end.
(* src/fsm.cc:262-341: the body of the case of one state *)
Definition state_body (F : family) (E : encoded) (moore : bool) (nxt : var) (s : nat) : outcome (list stmt) :=
  match f_next (fam_state F s) with
  | [(None, t)] => olet a := next_stmt E nxt t in Ok [a]
  | ts =>
      olet l := guarded E moore nxt ts in
      match default_target ts None with
      | Some t =>
          olet a := next_stmt E nxt t in
          match l with
          | [] => UB (* if_ is null *)
          | _ => (* 331-334: the outputs of the default transition go to the then branch *)
                 Ok (chain (if moore then l else add_to_last l (func_call E t)) [a])
          end
      | None => match l with [] => Throw | _ => Ok (chain l []) end
      end
  end.
(* src/stmt.cc:547-574 add_switch_case: a case with the same value is extended *)
Fixpoint add_case (k : Z) (b : list stmt) (cs : list (Z * list stmt)) : list (Z * list stmt) :=
  match cs with
  | [] => [(k, b)]
  | cb :: r => if fst cb =? k then (fst cb, snd cb ++ b) :: r else cb :: add_case k b r
  end.
Fixpoint state_cases (F : family) (E : encoded) (moore : bool) (nxt : var) (l : list nat)
    (cs : list (Z * list stmt)) : outcome (list (Z * list stmt)) :=
  match l with
  | [] => Ok cs
  | s :: r => olet b := state_body F E moore nxt s in
              state_cases F E moore nxt r (add_case (e_code E s) b cs)
  end.
(* src/fsm.cc:244-352 generate_state_transition *)
Definition gen_transition (F : family) (E : encoded) (moore : bool) (cur nxt : var) : outcome (list stmt) :=
  olet cs := state_cases F E moore nxt (e_states E) [] in
  Ok [SAssign Blocking (LVar nxt) (EVar cur);
      SSwitch (EVar cur) cs
        (if is_2_power (Z.of_nat (length cs)) then None else Some [SAssign Blocking (LVar nxt) (EVar cur)])].
(* src/fsm.cc:384-441 generate_output *)
Definition out_stmts (l : list (var * option expr)) : list stmt :=
  flat_map (fun p => match snd p with
                     | Some e => if expr_eqb e (EVar (fst p)) then [] else [SAssign Undefined (LVar (fst p)) e]
                     | None => []
                     end) l.
Definition add_nonempty (k : Z) (b : list stmt) (cs : list (Z * list stmt)) : list (Z * list stmt) :=
  match b with [] => cs | _ => add_case k b cs end.
Fixpoint out_cases (E : encoded) (l : list nat) (cs : list (Z * list stmt)) : list (Z * list stmt) :=
  match l with
  | [] => cs
  | s :: r => out_cases E r (add_nonempty (e_code E s) (out_stmts (e_out E s)) cs)
  end.
Definition gen_output (E : encoded) (cur : var) (start : nat) : list stmt :=
  [SSwitch (EVar cur) (out_cases E (e_states E) [])
     (if is_2_power (e_size E) then None
      else match out_stmts (e_out E start) with [] => None | b => Some b end)].
(* the reset signal: the variable, Some (active_high) if it is a port, and set_reset_high *)
Record reset := { rs_var : var; rs_port : option (option bool); rs_high : bool }.
(* src/fsm.cc:156-168 *)
Definition reset_active_high (r : reset) : bool :=
  match rs_port r with
  | None => true
  | Some ah => negb (match ah with Some false => true | _ => false end || negb (rs_high r))
  end.
(* src/fsm.cc:173-203 *)
Definition gen_seq (E : encoded) (r : reset) (cur nxt : var) (start : nat) : outcome (list stmt) :=
  olet c := enum_of E start in
  Ok [SIf (if reset_active_high r then EVar (rs_var r) else EUn UNot (EVar (rs_var r)))
        [SAssign NonBlocking (LVar cur) c] [SAssign NonBlocking (LVar cur) (EVar nxt)]].
(* src/fsm.cc:93-118 *)
Fixpoint check_all (F : family) (l : list nat) : outcome unit :=
  match l with
  | [] => Ok tt
  | s :: r => olet _ := check_outputs (fam_outs F (f_fsm (fam_state F s))) (f_out (fam_state F s)) in check_all F r
  end.
Definition outs_of (F : family) (s : nat) : list (var * option expr) :=
  match check_outputs (fam_outs F (f_fsm (fam_state F s))) (f_out (fam_state F s)) with
  | Ok v => v | _ => f_out (fam_state F s) end.
(* src/fsm.cc:105  !child_fsms_.empty() *)
Definition has_child (F : family) (f : nat) : bool :=
  existsb (fun g => match fam_parent F g with Some p => Nat.eqb p f | None => false end) (seq 0 (fam_fsms F)).
Definition encode (F : family) (f : nat) : encoded :=
  let has_child := has_child F f in
  let states := all_states F f in
  let raw := raw_def [] (map (enum_name F has_child) states) 0 in
  {| e_states := states;
     e_code := fun s => match lookup raw (enum_name F has_child s) with Some k => k | None => 0 end;
     e_width := enum_width (Z.of_nat (length states));
     e_size := Z.of_nat (length raw);
     e_out := outs_of F |}.
Record machine := { m_enc : encoded; m_seq : list stmt; m_comb : list stmt; m_output : list stmt }.
(* src/fsm.cc:90-216 realize.  Enum and variable names are fresh (C27). *)
Definition realize (F : family) (f : nat) (moore : bool) (start : option nat) (r : reset)
    (cur nxt : var) : outcome machine :=
  let E := encode F f in
  match e_states E, start with
  | [], _ => Throw
  | _, None => Throw
  | _, Some st =>
      olet _ := check_all F (e_states E) in
      olet sq := gen_seq E r cur nxt st in
      olet cb := gen_transition F E moore cur nxt in
      Ok {| m_enc := E; m_seq := sq; m_comb := cb;
            m_output := if moore then gen_output E cur st else [] |}
  end.
