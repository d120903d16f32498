From Coq Require Import Lia.
From Verif Require Import Base Const_model Stub_spec Stub_model Stub_proofs.
Local Open Scope Z_scope.
Local Open Scope list_scope.

(* C503: a stub is taken exactly if it has no contents and its outputs are plain; then every port that is no input, and nothing else, is
   driven by zero, once. *)
Theorem C503_zeroed : forall m, m_stub m = true -> NoDup (map p_name (m_ports m)) -> (forall p, In p (m_ports m) -> 1 <= p_width p) ->
  (snd (zero_out m) = Ok tt <-> hollow m)
  /\ (snd (zero_out m) = Ok tt -> let m' := fst (zero_out m) in
        m_stub m' = true /\ m_vars m' = [] /\ m_ports m' = m_ports m /\ NoDup (m_stmts m')
        /\ forall x, In x (m_stmts m') <-> exists p, In p (m_ports m) /\ p_dir p <> In_ /\ x = Zero (p_name p) (p_width p)).
Proof.
  intros m St Nd W. unfold zero_out, hollow. rewrite St. cbn [negb]. destruct (m_stmts m) as [|x l]; [|split; [split; [discriminate|intros (X & _); discriminate X]|discriminate]].
  destruct (m_vars m) as [|x l] eqn:Ev; [|split; [split; [discriminate|intros (_ & X & _); discriminate X]|discriminate]].
  destruct (zero_ports_iff (m_ports m) [] (proj2 (Forall_forall _ _) W)) as (A & B). destruct (zero_ports (m_ports m) []) as (s & r). cbn [fst snd] in *. cbn [app] in B.
  split; [rewrite A; split; [intros H; split; [reflexivity|split; [reflexivity|exact H]]|intros (_ & _ & H); exact H]|].
  intros H. cbv zeta. cbn [m_stub m_vars m_ports m_stmts]. rewrite (B H). split; [reflexivity|]. split; [reflexivity|]. split; [reflexivity|]. split; [apply nodup_zeros, Nd|apply in_zeros].
Qed.
(* ... and in a design every module that is no stub is left alone. *)
Theorem C503_design : forall l, snd (zero_out_stubs l) = Ok tt ->
  Forall2 (fun m m' => (m_stub m = false -> m' = m) /\ (m_stub m = true -> zero_out m = (m', Ok tt))) l (fst (zero_out_stubs l)).
Proof.
  induction l as [|m l IH]; intros H; [constructor|]. cbn [zero_out_stubs] in *. destruct (zero_out m) as (m' & r) eqn:E. destruct r as [u| |]; try discriminate H.
  destruct (zero_out_stubs l) as (l' & r'). cbn [fst snd] in *. constructor; [|apply IH; exact H]. split.
  - intros St. unfold zero_out in E. rewrite St in E. cbn [negb] in E. injection E as <- _. reflexivity.
  - intros _. destruct u. exact E.
Qed.
Definition pin (n : string) (d : dir) (w : Z) (sg arr pk en : bool) : port :=
  {| p_name := n; p_dir := d; p_width := w; p_signed := sg; p_array := arr; p_packed := pk; p_enum := en; p_reads := false; p_driven := false |}.
Definition stub (l : list port) : module := {| m_stub := true; m_stmts := []; m_vars := []; m_ports := l |}.
Definition box : module := stub [pin "a" In_ 8 true false true false; pin "b" Out_ 8 false false true false; pin "c" Out_ 64 false true true false].
Example C503_ex : hollow box /\ m_stmts (fst (zero_out box)) = [Zero "b" 8; Zero "c" 64].
Proof.
  split; [|reflexivity]. split; [reflexivity|]. split; [reflexivity|]. intros p H. cbn in H. decompose [or] H; try contradiction; subst p;
    (split; [reflexivity|intros D; try (exfalso; apply D; reflexivity); repeat split; cbn; intros; try reflexivity; try discriminate]).
Qed.

(* C504: a stub with a signed output, one of an enumeration or an array that is not packed is refused, and a wide one shifts too far. *)
Theorem C504_output_refuted :
  (forall p, p_dir p <> In_ -> p_driven p = false -> 1 <= p_width p <= 64 -> p_signed p = true \/ p_enum p = true \/ (p_array p = true /\ p_packed p = false) -> snd (zero_out (stub [p])) = Throw)
  /\ (forall p, p_dir p <> In_ -> p_driven p = false -> 64 < p_width p -> snd (zero_out (stub [p])) = UB)
  /\ ~ (forall m, m_stub m = true -> m_stmts m = [] -> m_vars m = [] -> (forall p, In p (m_ports m) -> untouched p /\ 1 <= p_width p) -> snd (zero_out m) = Ok tt).
Proof.
  split; [|split].
  - intros p D R W H. unfold zero_out, stub. cbn [m_stub m_stmts m_vars m_ports negb zero_ports]. rewrite R.
    assert (X : assign_zero p = Throw).
    { unfold assign_zero. rewrite (zero_const _ W). cbn [obind]. destruct (p_enum p); [reflexivity|]. destruct (p_signed p); [reflexivity|]. destruct H as [H|[H|(-> & ->)]]; try discriminate H. reflexivity. }
    rewrite X. destruct (p_dir p); [congruence|reflexivity|reflexivity].
  - intros p D R W. unfold zero_out, stub. cbn [m_stub m_stmts m_vars m_ports negb zero_ports]. rewrite R.
    assert (X : assign_zero p = UB) by (unfold assign_zero; rewrite (wide_const _ W); reflexivity). rewrite X. destruct (p_dir p); [congruence|reflexivity|reflexivity].
  - intros H. specialize (H (stub [pin "a" Out_ 8 true false true false]) eq_refl eq_refl eq_refl).
    assert (X : Throw = Ok tt); [apply H|discriminate X]. intros p [<- | []]. split; [reflexivity|cbn; lia].
Qed.

(* C505: a stub with an output is refused the second time. *)
Theorem C505_twice_refuted :
  (forall m p, m_stub m = true -> NoDup (map p_name (m_ports m)) -> (forall p, In p (m_ports m) -> 1 <= p_width p) -> In p (m_ports m) -> p_dir p <> In_ ->
     snd (zero_out m) = Ok tt -> snd (zero_out (fst (zero_out m))) = Throw)
  /\ ~ (forall l, snd (zero_out_stubs l) = Ok tt -> snd (zero_out_stubs (fst (zero_out_stubs l))) = Ok tt).
Proof.
  split.
  - intros m p St Nd W Hp D H. destruct (C503_zeroed m St Nd W) as (_ & X). destruct (X H) as (A & _ & _ & _ & B). cbv zeta in *. clear X.
    assert (Y : In (Zero (p_name p) (p_width p)) (m_stmts (fst (zero_out m)))) by (apply B; exists p; split; [exact Hp|split; [exact D|reflexivity]]).
    generalize dependent (fst (zero_out m)). intros m' A B Y. unfold zero_out. rewrite A. cbn [negb]. destruct (m_stmts m'); [destruct Y|reflexivity].
  - intros H. specialize (H [box] eq_refl). discriminate H.
Qed.

(* C506: a stub that is refused may have got statements. *)
Theorem C506_changed_refuted :
  (forall p q, p_dir p = Out_ -> p_driven p = false -> plain p -> p_dir q = In_ -> p_reads q = true ->
     zero_out (stub [p; q]) = ({| m_stub := true; m_stmts := [Zero (p_name p) (p_width p)]; m_vars := []; m_ports := [p; q] |}, Throw))
  /\ ~ (forall m, snd (zero_out m) = Throw -> fst (zero_out m) = m).
Proof.
  split.
  - intros p q D R Pl Dq Rq. unfold zero_out, stub. cbn [m_stub m_stmts m_vars m_ports negb zero_ports]. rewrite D, R, (assign_zero_ok p Pl), Dq, Rq. reflexivity.
  - intros H. specialize (H (stub [pin "a" Out_ 8 false false true false; pin "b" Out_ 8 true false true false]) eq_refl). apply (f_equal m_stmts) in H. discriminate H.
Qed.

(* C507: a stub drives its bidirectional ports. *)
Theorem C507_inout_refuted :
  (forall p, p_dir p = InOut_ -> p_driven p = false -> plain p -> m_stmts (fst (zero_out (stub [p]))) = [Zero (p_name p) (p_width p)])
  /\ ~ (forall m x, m_stmts m = [] -> In x (m_stmts (fst (zero_out m))) -> exists p, In p (m_ports m) /\ p_dir p = Out_ /\ x = Zero (p_name p) (p_width p)).
Proof.
  split.
  - intros p D R Pl. unfold zero_out, stub. cbn [m_stub m_stmts m_vars m_ports negb zero_ports]. rewrite D, R, (assign_zero_ok p Pl). reflexivity.
  - intros H. destruct (H (stub [pin "a" InOut_ 8 false false true false]) (Zero "a" 8) eq_refl (or_introl eq_refl)) as (p & [<- | []] & D & _). discriminate D.
Qed.
Print Assumptions C503_zeroed.
Print Assumptions C503_design.
Print Assumptions C504_output_refuted.
Print Assumptions C505_twice_refuted.
Print Assumptions C506_changed_refuted.
Print Assumptions C507_inout_refuted.
