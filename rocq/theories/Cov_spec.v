(* Coverage of simulation runs and the statements it points at. *)
From Verif Require Import Base.
Local Open Scope nat_scope.

(* Statements as far as control flow is concerned: the branch blocks carry identities, the
   conditions are the identities of expressions.  A case without label is the default. *)
Inductive cstmt : Type :=
| CIf (p : nat) (tid : nat) (t : list cstmt) (fid : nat) (f : list cstmt)
| CSwitch (p : nat) (cs : list (option Z * (nat * list cstmt)))
| CFor (id : nat) (body : list cstmt)
| CScope (id : nat) (body : list cstmt)
| CProc (body : list cstmt)              (* always block, or the body of a called function *)
| CLeaf.
(* the values of expressions in a simulation state; unknown ones have none *)
Definition cstate := nat -> option Z.

Definition is_true (v : option Z) : Prop := exists z, v = Some z /\ z <> 0%Z.
(* the case entered for value v *)
Definition enters {A} (v : option Z) (cs : list (option Z * A)) (a : A) : Prop :=
  (exists z, v = Some z /\ In (Some z, a) cs) \/
  ((forall z b, v = Some z -> ~ In (Some z, b) cs) /\ In (None, a) cs).

(* block id is entered when the statement runs in the state *)
Inductive covers (st : cstate) (id : nat) : cstmt -> Prop :=
| cv_then p t fid f : is_true (st p) -> covers st id (CIf p id t fid f)
| cv_then_in p tid t fid f s : is_true (st p) -> In s t -> covers st id s -> covers st id (CIf p tid t fid f)
| cv_else p tid t f : ~ is_true (st p) -> covers st id (CIf p tid t id f)
| cv_else_in p tid t fid f s : ~ is_true (st p) -> In s f -> covers st id s -> covers st id (CIf p tid t fid f)
| cv_case p cs body : enters (st p) cs (id, body) -> covers st id (CSwitch p cs)
| cv_case_in p cs i body s : enters (st p) cs (i, body) -> In s body -> covers st id s -> covers st id (CSwitch p cs)
| cv_for body : covers st id (CFor id body)
| cv_for_in i body s : In s body -> covers st id s -> covers st id (CFor i body)
| cv_scope body : covers st id (CScope id body)
| cv_scope_in i body s : In s body -> covers st id s -> covers st id (CScope i body)
| cv_proc body s : In s body -> covers st id s -> covers st id (CProc body).

(* a simulation run: recorded coverage if any, simulation states otherwise *)
Record srun := { r_wrong : bool; r_cov : list nat; r_states : list cstate }.
Definition run_covers (design : list cstmt) (r : srun) (id : nat) : Prop :=
  In id (r_cov r) \/ (r_cov r = [] /\ exists st s, In st (r_states r) /\ In s design /\ covers st id s).
(* entered in a failing run and in no passing run *)
Definition suspicious (design : list cstmt) (runs : list srun) (id : nat) : Prop :=
  (exists r, In r runs /\ r_wrong r = true /\ run_covers design r id) /\
  forall r, In r runs -> r_wrong r = false -> ~ run_covers design r id.
(* no case or loop statement *)
Inductive simple : cstmt -> Prop :=
| sm_if p tid t fid f : Forall simple t -> Forall simple f -> simple (CIf p tid t fid f)
| sm_scope id b : Forall simple b -> simple (CScope id b)
| sm_proc b : Forall simple b -> simple (CProc b)
| sm_leaf : simple CLeaf.
(* the operations of an analysis *)
Inductive cop : Type := AddRun (r : srun) | MarkWrong (i : nat) | Compute (i : nat) | Analyze | AddCov (i : nat) (c : list nat).
Fixpoint set_nth {A} (l : list A) (i : nat) (f : A -> A) : list A :=
  match l, i with [], _ => [] | a :: r, O => f a :: r | a :: r, S k => a :: set_nth r k f end.
(* the runs after some operations *)
Definition do_run (runs : list srun) (o : cop) : list srun :=
  match o with
  | AddRun r => runs ++ [r]
  | MarkWrong i => set_nth runs i (fun r => match r_states r with [] => r | _ => {| r_wrong := true; r_cov := r_cov r; r_states := r_states r |} end)
  | AddCov i c => set_nth runs i (fun r => {| r_wrong := r_wrong r; r_cov := r_cov r ++ c; r_states := r_states r |})
  | Compute _ | Analyze => runs
  end.
