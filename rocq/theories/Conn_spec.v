(* Which ports a statement reads and drives, independently of how the program keeps track of it. *)
From Verif Require Import Base.

Inductive pdir := PIn | POut | PInOut.

(* Expressions over ports: the ports and variables are numbered. *)
Inductive sig :=
| SPort (p : nat) | SVar (v : nat) | SConst
| SSlice (s : sig)               (* s[h:l] or s[3] *)
| SIndex (s i : sig)             (* s[i] with a signal i *)
| SCast (s : sig)
| SUn (s : sig) | SBin (a b : sig) | SCond (c a b : sig)
| SConcat (l : list sig) | SExtend (s : sig) | SCall (l : list sig).

(* the port occurs in the expression *)
Inductive occurs (p : nat) : sig -> Prop :=
| occ_port : occurs p (SPort p)
| occ_slice s : occurs p s -> occurs p (SSlice s)
| occ_indexed s i : occurs p s -> occurs p (SIndex s i)
| occ_index s i : occurs p i -> occurs p (SIndex s i)
| occ_cast s : occurs p s -> occurs p (SCast s)
| occ_un s : occurs p s -> occurs p (SUn s)
| occ_left a b : occurs p a -> occurs p (SBin a b)
| occ_right a b : occurs p b -> occurs p (SBin a b)
| occ_cond c a b : occurs p c -> occurs p (SCond c a b)
| occ_then c a b : occurs p a -> occurs p (SCond c a b)
| occ_else c a b : occurs p b -> occurs p (SCond c a b)
| occ_concat l s : In s l -> occurs p s -> occurs p (SConcat l)
| occ_extend s : occurs p s -> occurs p (SExtend s)
| occ_call l s : In s l -> occurs p s -> occurs p (SCall l).

(* assigning to the expression drives the port, or a part of it *)
Inductive drives (p : nat) : sig -> Prop :=
| dr_port : drives p (SPort p)
| dr_slice s : drives p s -> drives p (SSlice s)
| dr_index s i : drives p s -> drives p (SIndex s i)
| dr_cast s : drives p s -> drives p (SCast s)
| dr_concat l s : In s l -> drives p s -> drives p (SConcat l).

(* assigning to the expression reads the port, in an index *)
Inductive indexes (p : nat) : sig -> Prop :=
| ix_index s i : occurs p i -> indexes p (SIndex s i)
| ix_indexed s i : indexes p s -> indexes p (SIndex s i)
| ix_slice s : indexes p s -> indexes p (SSlice s)
| ix_cast s : indexes p s -> indexes p (SCast s)
| ix_concat l s : In s l -> indexes p s -> indexes p (SConcat l).

(* a statement: what is assigned, what to *)
Definition stmt := (sig * sig)%type.
Definition reads (p : nat) (s : stmt) : Prop := occurs p (snd s) \/ indexes p (fst s).

(* no slice, cast or call: every port and variable is used as a whole *)
Inductive whole : sig -> Prop :=
| wh_port p : whole (SPort p) | wh_var v : whole (SVar v) | wh_const : whole SConst
| wh_un s : whole s -> whole (SUn s) | wh_bin a b : whole a -> whole b -> whole (SBin a b)
| wh_cond c a b : whole c -> whole a -> whole b -> whole (SCond c a b)
| wh_concat l : (forall s, In s l -> whole s) -> whole (SConcat l)
| wh_extend s : whole s -> whole (SExtend s).
(* what can be assigned to as a whole: a port, a variable, or a concatenation of such *)
Inductive target : sig -> Prop :=
| tg_port p : target (SPort p) | tg_var v : target (SVar v)
| tg_concat l : (forall s, In s l -> target s) -> target (SConcat l).
