(* Debug information: src/debug.cc:68-164, 216-229, src/stmt.cc:76-81, 325-330, 475-481, 634-640. *)
From Verif Require Import Base Dbg_spec.
Local Open Scope string_scope.
Local Open Scope list_scope.

(* src/stmt.cc:76-81: emplace keeps an existing entry *)
Definition add_var (override : bool) (ctx : list (string * string)) (n v : string) : list (string * string) :=
  let emplace := if existsb (fun x => String.eqb (fst x) n) ctx then ctx else ctx ++ [(n, v)] in
  if override || negb (existsb (fun x => String.eqb (fst x) n) ctx) then emplace else ctx.
(* the virtual add_scope_variable: src/stmt.cc:325-330 if, 475-481 blocks, 634-640 switch; a loop uses that of Stmt *)
Fixpoint add_scope_variable (override : bool) (n v : string) (t : stmt) : stmt :=
  match t with
  | Node k c l => Node k (add_var override c n v) (match k with KLoop => l | _ => map (add_scope_variable override n v) l end)
  end.
(* src/debug.cc:110-130: one if or switch: each of its variables in turn, to all that is inside *)
Definition hand_down (c : list (string * string)) (t : stmt) : stmt := fold_left (fun t x => add_scope_variable false (fst x) (snd x) t) c t.
(* src/debug.cc:110-136 with src/ir.cc:24-40: from the root down; the fuel bounds the depth.  The statements form a tree, so that
   visited_ plays no role *)
Fixpoint propagate (fuel : nat) (t : stmt) : stmt :=
  match fuel with
  | O => t
  | S f => match t with Node k c l => Node k c (map (propagate f) (match k with KIf | KSwitch => map (hand_down c) l | _ => l end)) end
  end.
Fixpoint depth (t : stmt) : nat := match t with Node _ _ l => S (fold_right (fun x m => Nat.max (depth x) m) 0%nat l) end.

(* src/debug.cc:84-95 and visit_root: Port, slices and constants are not accepted as Var; the children of a slice are slices *)
Fixpoint components (e : rexp) : list nat :=
  match e with RBase x => [x] | RPort _ | RConst | RSlice _ => [] | ROp l => (fix go (l : list rexp) := match l with [] => [] | x :: r => components x ++ go r end) l end.
(* src/debug.cc:68-78, 97-102: the entry of a variable, given the right sides of what is assigned to it *)
Definition drivers (rights : list rexp) : list nat := flat_map components rights.

(* src/debug.cc:216-229, for the text of one attribute; text is a list of characters *)
Definition text := list ascii.
Definition tag : text := list_ascii_of_string "ssa=".
Definition colon : ascii := ":".
Fixpoint starts (p t : text) : bool := match p, t with [], _ => true | c :: r, d :: s => Ascii.eqb c d && starts r s | _, _ => false end.
Fixpoint occurs (p t : text) : bool := starts p t || match t with [] => false | _ :: r => occurs p r end.
(* std::string::rfind(p) == 0: the last occurrence is at the start *)
Definition rfind_zero (p t : text) : bool := starts p t && negb (match t with [] => false | _ :: r => occurs p r end).
(* rfind(':'): what is before and after the last one *)
Fixpoint last_colon (t : text) : option (text * text) :=
  match t with
  | [] => None
  | c :: r => match last_colon r with Some (a, b) => Some (c :: a, b) | None => if Ascii.eqb c colon then Some ([], r) else None end
  end.
Definition target (t : text) : option (text * text) :=
  if rfind_zero tag t then
    match last_colon t with
    | Some (a, b) => Some (skipn 4 a, b)
    (* pos is npos: substr(4, npos - 4) is the rest and substr(npos + 1) = substr(0) is everything *)
    | None => Some (skipn 4 t, t)
    end
  else None.

Definition upd {A} (f : nat -> A) (x : nat) (v : A) : nat -> A := fun y => if Nat.eqb y x then v else f y.
(* src/context.cc:14-18 *)
Definition new_gen (w : world) (n : string) : world :=
  {| w_count := S (w_count w); w_inst := upd (w_inst w) (w_count w) n; w_parent := upd (w_parent w) (w_count w) None;
     w_kids := upd (w_kids w) (w_count w) []; w_named := fun m => if String.eqb m n then w_named w m ++ [w_count w] else w_named w m |}.
(* src/generator.cc:404-417 *)
Definition add_child (w : world) (p : nat) (n : string) (c : nat) : outcome world :=
  if existsb (String.eqb n) (w_kids w p) then Throw
  else Ok {| w_count := w_count w; w_inst := upd (w_inst w) c n; w_parent := upd (w_parent w) c (Some p);
             w_kids := upd (w_kids w) p (w_kids w p ++ [n]); w_named := w_named w |}.
(* src/debug.cc:153-162: one step of the loop *)
Definition mock_step (w : world) (pre : nat) (n : string) : outcome (world * nat) :=
  let '(w1, g) := match w_named w n with g :: _ => (w, g) | [] => (new_gen w n, w_count w) end in
  olet w2 := add_child w1 g (w_inst w1 pre) pre in Ok (w2, g).
(* the loop from the innermost of the names to the outermost one *)
Fixpoint mock_loop (w : world) (pre : nat) (up : list string) : outcome world :=
  match up with [] => Ok w | n :: r => olet wg := mock_step w pre n in mock_loop (fst wg) (snd wg) r end.
(* src/debug.cc:138-164; names are the tokens of the instance name (Util_model.v).  A name without a dot is left alone; a dot with
   fewer than two tokens, where the code throws, is not modelled *)
Definition mock (w : world) (top : nat) (names : list string) (top_name : string) : outcome world :=
  match rev names with
  | last :: up =>
      match up with
      | [] => Ok w
      | _ =>
          let up' := if String.eqb top_name "" then up else removelast up ++ [top_name] in
          mock_loop {| w_count := w_count w; w_inst := upd (w_inst w) top last; w_parent := w_parent w; w_kids := w_kids w; w_named := w_named w |} top up'
      end
  | [] => Ok w
  end.
