(* src/optimize.cc:1016-1066 merge_const_port_assignment on flat designs (Dce_model.v).  Initial blocks are left out. *)
From Verif Require Import Base SV_spec IR IRSem_spec Design_spec Dce_spec Dce_model Fan_model Tie_spec.
Local Open Scope Z_scope.

(* Var::sources(), Var::sinks(): the statements with the process they are in *)
Definition statements (f : stmt -> bool) (d : design) : list (item * stmt) :=
  flat_map (fun it => map (fun s => (it, s)) (filter f (collect_body (fun s => [s]) (body_of (i_proc it))))) d.
Definition sources_of (d : design) (x : var) : list (item * stmt) := statements (assigns_to x) d.
Definition sinks_of (d : design) (x : var) : list (item * stmt) := statements (fun s => mem x (stmt_sinks s)) d.
Definition is_wire (it : item) : bool := match i_proc it with PWire _ _ => true | _ => false end.
Record tie := { t_var : var; t_port : var; t_const : expr; t_source : item; t_sink : item }.
Section Tie.
  Variable H : hierarchy.
  (* src/optimize.cc:1026-1046 *)
  Definition tie_of (d : design) (g : nat) (x : var) : list tie :=
    match h_kind H x with
    | KVar =>
        match sources_of d x, sinks_of d x with
        | [(i1, SAssign _ _ (EConst v w s))], [(i2, SAssign _ (LVar p) _)] =>
            match h_kind H p, h_parent H (h_owner H p) with
            | KVar, _ => []
            | _, Some q => if Nat.eqb q g then [{| t_var := x; t_port := p; t_const := EConst v w s; t_source := i1; t_sink := i2 |}] else []
            | _, None => []
            end
        | _, _ => []
        end
    | _ => []
    end.
  Definition ties (d : design) (g : nat) : list tie := flat_map (tie_of d g) (h_vars H g).
  (* 1043, 1056-1058: only statements of the generator itself are removed (src/generator.cc:625-634) *)
  Definition loose (g : nat) (ts : list tie) (it : item) : bool :=
    is_wire it && Nat.eqb (i_gen it) g && mem (i_id it) (flat_map (fun t => [i_id (t_sink t); i_id (t_source t)]) ts).
  Fixpoint tie_wires (g : nat) (n : nat) (ts : list tie) : list item :=
    match ts with
    | [] => []
    | t :: r => {| i_id := n; i_gen := g; i_proc := PWire (LVar (t_port t)) (t_const t) |} :: tie_wires g (S n) r
    end.
  Definition tie_gen (d : design) (g : nat) : design :=
    let ts := ties d g in
    filter (fun it => negb (loose g ts it)) d ++ tie_wires g (fresh d) ts.
  Definition merge_const (d : design) : design := fold_left tie_gen (h_gens H) d.
End Tie.
