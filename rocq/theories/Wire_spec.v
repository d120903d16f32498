(* Which of two connected signals is the driven one. *)
From Verif Require Import Base.
From Coq Require Import String.
Local Open Scope nat_scope.

Inductive dir : Type := DIn | DOut | DInOut.
(* a port (with its direction) or another signal, its module, and for the signals of an
   interface whether the interface is a port of that module (an instance otherwise) *)
Record signal := { x_port : option dir; x_owner : nat; x_iface : option bool }.
(* the instance hierarchy: the module a module is instantiated in, its instance name, and the
   instances of a module *)
Record hier := { h_parent : nat -> option nat; h_inst : nat -> string; h_kids : nat -> list nat }.
Definition proper (h : hier) : Prop :=
  (forall m g, In g (h_kids h m) <-> h_parent h g = Some m) /\
  (forall a b, h_inst h a = h_inst h b -> a = b) /\
  (forall m, h_parent h m <> Some m).

(* seen from inside module m, a signal must be driven, is a source, can be both, or cannot be
   reached *)
Inductive role : Type := Driven | Source | Both | Foreign.
Inductive role_in (h : hier) (m : nat) (x : signal) : role -> Prop :=
| own_in : x_owner x = m -> x_port x = Some DIn -> x_iface x <> Some false -> role_in h m x Source
| own_out : x_owner x = m -> x_port x = Some DOut -> x_iface x <> Some false -> role_in h m x Driven
(* the signals of an interface instance have the directions seen from the other side *)
| inst_in : x_owner x = m -> x_port x = Some DIn -> x_iface x = Some false -> role_in h m x Driven
| inst_out : x_owner x = m -> x_port x = Some DOut -> x_iface x = Some false -> role_in h m x Source
| kid_in : h_parent h (x_owner x) = Some m -> x_port x = Some DIn -> role_in h m x Driven
| kid_out : h_parent h (x_owner x) = Some m -> x_port x = Some DOut -> role_in h m x Source
| inout_here : x_owner x = m \/ h_parent h (x_owner x) = Some m -> x_port x = Some DInOut -> role_in h m x Both
| plain : x_owner x = m -> x_port x = None -> role_in h m x Both
| far_port d : x_owner x <> m -> h_parent h (x_owner x) <> Some m -> x_port x = Some d -> role_in h m x Foreign
| far_var : x_owner x <> m -> x_port x = None -> role_in h m x Foreign.
