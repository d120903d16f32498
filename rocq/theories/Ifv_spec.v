(* The expressions in which a signal is looked for: those of Conn_spec, whose numbered ports stand here for any signal or
   loop variable, with occurs for "the signal is used in the expression". *)
From Verif Require Import Base Conn_spec.

(* a signal, or a part of one picked by constants *)
Inductive part : sig -> Prop :=
| pt_port p : part (SPort p) | pt_var v : part (SVar v) | pt_slice s : part s -> part (SSlice s).
(* built of parts of signals and constants by operators, extensions and concatenations *)
Inductive arith : sig -> Prop :=
| ar_const : arith SConst
| ar_part s : part s -> arith s
| ar_un s : arith s -> arith (SUn s)
| ar_bin a b : arith a -> arith b -> arith (SBin a b)
| ar_extend s : arith s -> arith (SExtend s)
| ar_concat l : (forall s, In s l -> arith s) -> arith (SConcat l).
(* the same, where parts of expressions may be picked as well *)
Inductive sliced : sig -> Prop :=
| sl_port p : sliced (SPort p) | sl_var v : sliced (SVar v) | sl_const : sliced SConst
| sl_slice s : sliced s -> sliced (SSlice s)
| sl_un s : sliced s -> sliced (SUn s)
| sl_bin a b : sliced a -> sliced b -> sliced (SBin a b)
| sl_extend s : sliced s -> sliced (SExtend s)
| sl_concat l : (forall s, In s l -> sliced s) -> sliced (SConcat l).
