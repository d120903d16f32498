(* What putting instances into a generate loop is about. *)
From Verif Require Import Base.
From Coq Require Import Permutation.
Local Open Scope nat_scope.

Definition text := list nat.
(* what a port is connected to: a signal, bit (or element) k of a signal, a part of a signal, element k of an element of a signal, a constant *)
Inductive net := Whole (v : nat) | Bit (v k : nat) | Part (v hi lo : nat) | Deep (v j k : nat) | Lit (z : Z).
(* a port of an instance and what it is connected to; for an output connected to a signal that is used in one assignment: what that assigns *)
Record plug := { pl_port : nat; pl_out : bool; pl_net : option net; pl_next : option net }.
Record inst := { n_name : text; n_def : nat; n_plugs : list plug }.
Definition sliced (n : net) : bool := match n with Bit _ _ | Part _ _ _ | Deep _ _ _ => true | _ => false end.
(* an output reaches the bit its signal is copied to *)
Definition reached (p : plug) : option net :=
  match pl_net p with
  | None => None
  | Some n => Some (if pl_out p then match pl_next p with Some m => if sliced m then m else n | None => n end else n)
  end.
(* what one instance amounts to: its definition and, for each port, the net *)
Definition connections (i : inst) : nat * list (nat * option net) := (n_def i, map (fun p => (pl_port p, reached p)) (n_plugs i)).
(* for (genvar i = 0; i < count; i++) begin : label def inst (.port(v)), (.port(v[i])) or (.port(constant)) end *)
Inductive lnet := LWhole (v : nat) | LIndex (v : nat) | LLit (z : Z).
Definition at_ (i : nat) (n : lnet) : net := match n with LWhole v => Whole v | LIndex v => Bit v i | LLit z => Lit z end.
Record loop := { lp_label : text; lp_count : nat; lp_def : nat; lp_links : list (nat * lnet) }.
Definition iteration (l : loop) (i : nat) : nat * list (nat * option net) := (lp_def l, map (fun k => (fst k, Some (at_ i (snd k)))) (lp_links l)).
Definition iterations (l : loop) : list (nat * list (nat * option net)) := map (iteration l) (seq 0 (lp_count l)).

(* the instances of one definition: same ports *)
Definition alike (is : list inst) : Prop := exists df ps, NoDup ps /\ forall i, In i is -> n_def i = df /\ map pl_port (n_plugs i) = ps.
(* all instances are connected, and a port is not connected to a signal in one and to a bit of the same signal in another *)
Definition connected (is : list inst) : Prop := forall i p, In i is -> In p (n_plugs i) -> reached p <> None.
Definition unmixed (is : list inst) : Prop := forall i j p q v k, In i is -> In j is -> In p (n_plugs i) -> In q (n_plugs j) -> pl_port p = pl_port q -> reached p = Some (Whole v) -> reached q <> Some (Bit v k).
(* instance number i is connected to bits number i, and to the same signals and constants as the others *)
Definition in_step (ls : list (nat * lnet)) (is : list inst) : Prop := forall i x, nth_error is i = Some x -> map (fun p => (pl_port p, reached p)) (n_plugs x) = map (fun k => (fst k, Some (at_ i (snd k)))) ls.
