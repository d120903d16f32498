(* What the ports of instances are about: how they are connected in the generator around the instance. *)
From Verif Require Import Base SV_spec IR IRSem_spec Design_spec Dce_spec Fan_spec Move_spec Inline_spec.
Local Open Scope Z_scope.

(* .port(expression) of an input and .port(signal) of an output in an instantiation (IEEE 1800-2017 23.3.3): a continuous assignment *)
Inductive link := LinkIn (p : var) (e : expr) | LinkOut (p : var) (l : lhs).
Definition link_port (k : link) : var := match k with LinkIn p _ => p | LinkOut p _ => p end.
Definition link_proc (k : link) : proc := match k with LinkIn p e => PWire (LVar p) e | LinkOut p l => PWire l (EVar p) end.
(* an instantiation: the instance, the generator it is in and its connections *)
Record instance := { in_child : nat; in_parent : nat; in_links : list link }.
(* the design a SystemVerilog tool sees: the processes and the connections *)
Definition link_item (g : nat) (k : link) : item := {| i_id := O; i_gen := g; i_proc := link_proc k |}.
Definition elaborated (d : design) (is : list instance) : design := d ++ flat_map (fun i => map (link_item (in_parent i)) (in_links i)) is.

(* c is an instance in g and p is one of its ports *)
Definition port_of (H : hierarchy) (g c : nat) (p : var) : Prop := h_parent H c = Some g /\ In p (h_ports H c).
(* what may stand in a connection *)
Definition connectable (e : expr) : Prop := match e with EVar _ | EConst _ _ _ | ESlice _ _ _ => True | _ => False end.

(* A design as the passes before leave it, and for each port the variable that may be made for it. *)
Record sound (G : tenv) (H : hierarchy) (new : var -> var) (cs : list nat) (d : design) : Prop := {
  sd_good : good H d;
  sd_once : NoDup cs /\ forall c, In c cs -> In c (h_gens H);
  sd_ports : forall c, NoDup (h_ports H c);
  (* nothing uses the new variables *)
  sd_new : forall c g p it, In c cs -> port_of H g c p -> In it d ->
    ~ reads (new p) (body_of (i_proc it)) /\ ~ touches (new p) (body_of (i_proc it)) /\ ~ In (new p) (map snd (events_of (i_proc it)));
  sd_apart : forall c c' g g' p q, In c cs -> In c' cs -> port_of H g c p -> port_of H g' c' q -> new p <> q /\ (new p = new q -> p = q);
  sd_made : forall c g p, In c cs -> port_of H g c p -> G (new p) = G p /\ h_kind H (new p) = KVar /\ h_owner H (new p) = g;
  (* outputs are driven inside the instance *)
  sd_out : forall c g p it, In c cs -> port_of H g c p -> h_kind H p = KOut -> In it d -> touches p (body_of (i_proc it)) -> i_gen it = c;
  (* and the generator around it uses them where a use can be changed (Move_spec.v) *)
  sd_moves : forall c g p it s, In c cs -> port_of H g c p -> h_kind H p = KOut -> In it d -> i_gen it = g -> inside s (body_of (i_proc it)) -> ~ stuck p s }.
(* a process that drives an input of an instance does not read it *)
Definition drives_only (H : hierarchy) (cs : list nat) (d : design) : Prop := forall c g p it, In c cs -> port_of H g c p -> h_kind H p = KIn -> In it d ->
  (touches p (body_of (i_proc it)) -> ~ reads p (body_of (i_proc it))) /\ ~ loops_over p (body_of (i_proc it)).
(* the same states, but for the variables that were made *)
Definition same_states (G : tenv) (H : hierarchy) (new : var -> var) (cs : list nat) (d d' : design) : Prop :=
  (forall h, Forall (in_range G) h -> history G d h -> exists h', Forall (in_range G) h' /\ history G d' h' /\
    Forall2 (fun r r' => forall x, (forall c g p, In c cs -> port_of H g c p -> x <> new p) -> r x = r' x) h h') /\
  (forall h, Forall (in_range G) h -> history G d' h -> history G d h).
(* the generator g reads p *)
Definition uses_port (d : design) (g : nat) (p : var) : Prop := exists it, In it d /\ i_gen it = g /\ reads p (body_of (i_proc it)).
