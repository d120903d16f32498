(* Events of a design and where they happen. *)
From Verif Require Import Base.
Local Open Scope Z_scope.
Local Open Scope list_scope.

Definition field := (string * nat)%type.
(* an event: its name, the transaction it belongs to, whether it starts and ends it, its fields and the values it is matched by *)
Record event := { e_name : string; e_transaction : string; e_action : Z; e_fields : list field; e_matches : list field }.
(* a design: a generator, a block, sequential or not, a statement with parts in it, an event, or something else *)
Inductive node := Ev (e : event) | Blk (sequential : bool) (l : list node) | Stm (l : list node) | Gen (external : bool) (l : list node) | Other.
Inductive place := InSequential | InBlock | InStatement | InGenerator.
(* the event is in the node, and these are the places around it, the outermost first *)
Inductive inside : node -> list place -> event -> Prop :=
| I_here e : inside (Ev e) [] e
| I_seq l m p e : In m l -> inside m p e -> inside (Blk true l) (InSequential :: p) e
| I_blk l m p e : In m l -> inside m p e -> inside (Blk false l) (InBlock :: p) e
| I_stm l m p e : In m l -> inside m p e -> inside (Stm l) (InStatement :: p) e
| I_gen l m p e : In m l -> inside m p e -> inside (Gen false l) (InGenerator :: p) e.
(* in a sequential block of the generator the event is in *)
Definition clocked (p : list place) : Prop := exists p1 p2, p = p1 ++ InSequential :: p2 /\ ~ In InGenerator p2.
(* the events as they are written *)
Fixpoint events (n : node) : list event :=
  match n with Ev e => [e] | Blk _ l | Stm l => flat_map events l | Gen ext l => if ext then [] else flat_map events l | Other => [] end.

(* what is said of an event after it was fired *)
Inductive said := Starts (t : option string) | Terminates (t : option string) | Belongs (t : string) | Matches (f : string) (v : nat).
Definition names (s : said) : option string := match s with Starts t | Terminates t => t | Belongs t => Some t | Matches _ _ => None end.
