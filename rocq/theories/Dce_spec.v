(* What dead code elimination is about: hierarchies of generators whose processes use their own signals and
   the ports of their instances. *)
From Verif Require Import Base SV_spec IR IRSem_spec Design_spec.
Local Open Scope Z_scope.

Inductive vkind : Type := KVar | KIn | KOut.
Definition d_reads (x : var) (d : design) : Prop := exists it, In it d /\ reads x (body_of (i_proc it)).
Definition d_assigns (x : var) (d : design) : Prop := exists it, In it d /\ assigns x (body_of (i_proc it)).
Definition d_event (x : var) (d : design) : Prop := exists it e, In it d /\ In e (events_of (i_proc it)) /\ snd e = x.

Record hierarchy := {
  h_gens : list nat;                (* the generators, instances before the generators they are in *)
  h_parent : nat -> option nat;
  h_vars : nat -> list var;
  h_ports : nat -> list var;
  h_kind : var -> vkind;
  h_owner : var -> nat }.
Record good (H : hierarchy) (d : design) : Prop := {
  g_nodup : NoDup (h_gens H);
  g_order : forall l1 g l2 p, h_gens H = l1 ++ g :: l2 -> h_parent H g = Some p -> In p l2;
  g_ids : NoDup (map i_id d);
  g_vars : forall g x, In x (h_vars H g) -> h_owner H x = g /\ h_kind H x = KVar;
  g_ports : forall g x, In x (h_ports H g) -> h_owner H x = g /\ h_kind H x <> KVar;
  (* a process uses signals of its generator and ports of the instances in it *)
  g_scope : forall it x, In it d -> reads x (body_of (i_proc it)) \/ touches x (body_of (i_proc it)) \/ In x (map snd (events_of (i_proc it))) ->
    h_owner H x = i_gen it \/
    (h_parent H (h_owner H x) = Some (i_gen it) /\ In (h_owner H x) (h_gens H) /\ In x (h_ports H (h_owner H x)));
  (* only the generator around an instance drives the inputs of the instance *)
  g_inputs : forall it x, In it d -> assigns x (body_of (i_proc it)) -> h_kind H x = KIn -> h_owner H x <> i_gen it;
  (* an output of an instance that is used is driven *)
  g_outputs : forall g x, In x (h_ports H g) -> h_kind H x = KOut -> h_parent H g <> None -> d_reads x d -> d_assigns x d }.

(* no slices anywhere *)
Fixpoint unsliced (e : expr) : bool :=
  match e with
  | EVar _ | EConst _ _ _ => true
  | EUn _ a => unsliced a
  | EBin _ a b => unsliced a && unsliced b
  | ECond c a b => unsliced c && unsliced a && unsliced b
  | ESlice _ _ _ => false
  | EConcat a b => unsliced a && unsliced b
  | EExtend a _ => unsliced a
  end.
Definition no_slices (d : design) : Prop := forall it k l e, In it d -> inside (SAssign k l e) (body_of (i_proc it)) ->
  unsliced e = true /\ lhs_reads l = [].
