(* src/optimize.cc:1067-1129, src/generator.cc:625-634, 1270-1284 on flat designs (Dce_model.v). *)
From Verif Require Import Base SV_spec IR IRSem_spec Design_spec Dce_spec Tie_model.
Local Open Scope Z_scope.

(* src/optimize.cc:1067-1099 VarUnusedVisitor: the variables of generator g that are left; ext: the external generators.  Interfaces are left out. *)
Definition unused (H : hierarchy) (d : design) (x : var) : bool :=
  match h_kind H x, sinks_of d x, sources_of d x with KVar, [], [] => true | _, _, _ => false end.
Definition keep_vars (H : hierarchy) (ext : nat -> bool) (d : design) (g : nat) : list var :=
  if ext g then h_vars H g else filter (fun x => negb (unused H d x)) (h_vars H g).
Definition remove_unused_vars (H : hierarchy) (ext : nat -> bool) (d : design) : hierarchy :=
  {| h_gens := h_gens H; h_parent := h_parent H; h_vars := keep_vars H ext d; h_ports := h_ports H; h_kind := h_kind H; h_owner := h_owner H |}.
(* 1101-1129 UnusedTopBlockVisitor: assignments are no blocks *)
Definition is_empty_block (it : item) : bool := match i_proc it with PWire _ _ => false | PComb [] => true | PComb _ => false | PFf _ [] => true | PFf _ _ => false end.
Definition remove_unused_stmts (d : design) : design := filter (fun it => negb (is_empty_block it)) d.
