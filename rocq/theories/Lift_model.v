(* src/transform.cc:500-694 LiftGenVarInstanceVisitor.  An unordered_map from ports to nets is a list for each port; text of
   a net is the signal, or the constant.  Widths and signs of what is assigned anew are those of before. *)
From Verif Require Import Base Lift_spec.
Local Open Scope nat_scope.

Inductive key := KSig (v : nat) | KElem (v j : nat) | KLit (z : Z).
Definition key_eqb (a b : key) : bool :=
  match a, b with KSig v, KSig w => Nat.eqb v w | KElem v j, KElem w k => Nat.eqb v w && Nat.eqb j k | KLit x, KLit y => Z.eqb x y | _, _ => false end.
Definition info := list (key * list nat).
(* std::unordered_map::operator[] and what is done with the element *)
Fixpoint update (k : key) (f : list nat -> list nat) (m : info) : info :=
  match m with [] => [(k, f [])] | (k', l) :: r => if key_eqb k k' then (k', f l) :: r else (k', l) :: update k f r end.
Definition emplace (x : nat) (l : list nat) : list nat := if existsb (Nat.eqb x) l then l else l ++ [x].
(* 567-578; None: a slice of more than one bit *)
Definition note (n : net) (m : info) : option info :=
  match n with
  | Bit v k => Some (update (KSig v) (emplace k) m)
  | Deep v j k => Some (update (KElem v j) (emplace k) m)
  | Part _ _ _ => None
  | Whole v => Some (update (KSig v) (fun _ => []) m)
  | Lit z => Some (update (KLit z) (fun _ => []) m)
  end.
Fixpoint note_all (ns : list net) (m : info) : option info :=
  match ns with [] => Some m | n :: r => match note n m with Some m' => note_all r m' | None => None end end.
(* 548-566: the net of a port; taking the first element of an empty set is undefined *)
Definition net_of (p : plug) : outcome net :=
  match pl_net p with
  | None => UB
  | Some n => Ok (if pl_out p then match pl_next p with Some m => if sliced m then m else n | None => n end else n)
  end.
Fixpoint nets_of (port : nat) (is : list inst) : outcome (list net) :=
  match is with
  | [] => Ok []
  | i :: r => match find (fun p => Nat.eqb (pl_port p) port) (n_plugs i) with
              | None => nets_of port r
              | Some p => olet n := net_of p in olet t := nets_of port r in Ok (n :: t)
              end
  end.
(* 583-604 *)
Definition fits (n : nat) (m : info) : bool :=
  match m with
  | [(_, ls)] => match ls with [] => true | _ => Nat.eqb (List.length ls) n && forallb (fun i => existsb (Nat.eqb i) ls) (seq 0 n) end
  | _ => false
  end.
(* 546-580: the ports of the instances in turn; a slice of more than one bit ends the check *)
Fixpoint scan (ps : list plug) : outcome bool :=
  match ps with
  | [] => Ok true
  | p :: r => olet n := net_of p in match n with Part _ _ _ => Ok false | _ => scan r end
  end.
(* 543-605 check_child_instance; what is collected for one port does not depend on the other ports *)
Fixpoint check_ports (ports : list nat) (is : list inst) : outcome (option (list (nat * (key * list nat)))) :=
  match ports with
  | [] => Ok (Some [])
  | p :: r => olet ns := nets_of p is in olet t := check_ports r is in
              match note_all ns [] with
              | Some m => if fits (List.length is) m then match m, t with [e], Some t => Ok (Some ((p, e) :: t)) | _, _ => Ok None end else Ok None
              | None => Ok None
              end
  end.
Definition check_child_instance (ports : list nat) (is : list inst) : outcome (option (list (nat * (key * list nat)))) :=
  olet b := scan (flat_map n_plugs is) in if b then check_ports ports is else Ok None.
(* 667-693 find_common_instance_name: reading before the start of a string is undefined *)
Fixpoint common (ref : text) (s : nat) (others : list text) : text :=
  match ref with
  | [] => []
  | c :: r => if forallb (fun o => match nth_error o s with Some c' => Nat.eqb c' c | None => Nat.eqb 0 c end) others then c :: common r (S s) others else []
  end.
Fixpoint strip (rev_str : text) : outcome text :=
  match rev_str with [] => UB | c :: r => if Nat.eqb c 95 then strip r else Ok (rev (c :: r)) end.
Definition genblk : text := [103; 101; 110; 98; 108; 107; 95].
Definition label (def_name : text) (is : list inst) : outcome text :=
  match is with
  | [] => UB
  | i :: r => olet s := strip (rev (common (n_name i) 0 (map n_name r))) in Ok (match s with [] => genblk ++ def_name | _ => s end)
  end.
(* 627-656: the signal is looked up by its text; assigning nothing throws, taking an element of nothing is undefined *)
Fixpoint links (m : list (nat * (key * list nat))) : outcome (list (nat * lnet)) :=
  match m with
  | [] => Ok []
  | (p, (k, ls)) :: r =>
      olet l := match k, ls with KSig v, [] => Ok (LWhole v) | KSig v, _ => Ok (LIndex v) | _, [] => Throw | _, _ => UB end in
      olet t := links r in Ok ((p, l) :: t)
  end.
(* 526-541, 607-665: the instances of one definition; blocks: the named blocks there are *)
Definition lift_group (def_name : text) (blocks : list text) (is : list inst) : outcome (option loop) :=
  match is with
  | [] | [_] => Ok None
  | i :: _ =>
      olet c := check_child_instance (map pl_port (n_plugs i)) is in
      match c with
      | None => Ok None
      | Some m => olet s := label def_name is in
                  if existsb (fun b => if list_eq_dec Nat.eq_dec b s then true else false) blocks then Throw
                  else olet ls := links m in Ok (Some {| lp_label := s; lp_count := List.length is; lp_def := n_def i; lp_links := ls |})
      end
  end.
(* 620, src/stmt.cc:409-416, src/generator.cc:1315-1340: the iteration the handle of an instance names *)
Definition handle_index (is : list inst) (name : text) : option nat :=
  (fix go (n : nat) (l : list inst) : option nat := match l with [] => None | i :: r => if list_eq_dec Nat.eq_dec (n_name i) name then Some n else go (S n) r end) 0 is.
(* the assignments of the generator around: those that copy the signal of an output stay (only the connection itself is removed) *)
Definition lift_copies (copies : list (net * nat)) : list (net * nat) := copies.
