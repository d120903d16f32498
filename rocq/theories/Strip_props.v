From Verif Require Import Base SV_spec IR IRSem_spec IR_lemmas IfCase_proofs RemoveEmpty_spec RemoveEmpty_model RemoveEmpty_proofs RemoveEmpty_props Strip_model.
Local Open Scope nat_scope.

Section Any.
  Variable p : other_kind -> bool.
  Lemma strip_if : forall c t f, strip1 p (SIf c t f) = SIf c (strip p t) (strip p f).
  Proof. reflexivity. Qed.
  Lemma strip_for : forall i a b s body, strip1 p (SFor i a b s body) = SFor i a b s (strip p body).
  Proof. reflexivity. Qed.
  Lemma strip_sblock : forall b, strip1 p (SBlock b) = SBlock (strip p b).
  Proof. reflexivity. Qed.
  Lemma strip_switch : forall e cs d, strip1 p (SSwitch e cs d) = SSwitch e (map (fun cb => (fst cb, strip p (snd cb))) cs) (option_map (strip p) d).
  Proof. intros e cs d. transitivity (SSwitch e ((fix go (l : list (Z * list stmt)) := match l with [] => [] | cb :: r => (fst cb, strip p (snd cb)) :: go r end) cs) (match d with None => None | Some b => Some (strip p b) end)); [reflexivity|]. f_equal. Qed.
  Lemma strip_in : forall l x, In x (strip p l) <-> exists y, In y l /\ sel p y = false /\ x = strip1 p y.
  Proof.
    induction l as [|y r IH]; intros x; cbn [strip]; [split; [intros []|intros (y & [] & _)]|]. destruct (sel p y) eqn:E.
    - rewrite IH. split; intros (z & I & Q); [exists z; split; [now right|exact Q]|]. destruct I as [->|I]; [destruct Q; congruence|eauto].
    - cbn [In]. rewrite IH. split; [intros [<-|(z & I & Q)]; [exists y; split; [now left|auto]|exists z; split; [now right|exact Q]]|]. intros (z & [->|I] & Q); [left; destruct Q; congruence|right; eauto].
  Qed.
  Lemma strip_kept : forall y l, inside y l -> sel p y = false -> inside (strip1 p y) (strip p l).
  Proof.
    intros y l H N. induction H as [l I|l c t f I H IH|l c t f I H IH|l e cs d k b I J H IH|l e cs b I H IH|l i a b s body I H IH|l body I H IH].
    - apply in_here, strip_in. eauto.
    - eapply in_then; [apply strip_in; exists (SIf c t f); split; [exact I|split; [reflexivity|apply eq_sym, strip_if]]|exact IH].
    - eapply in_else; [apply strip_in; exists (SIf c t f); split; [exact I|split; [reflexivity|apply eq_sym, strip_if]]|exact IH].
    - eapply in_case; [apply strip_in; exists (SSwitch e cs d); split; [exact I|split; [reflexivity|apply eq_sym, strip_switch]]| |exact IH]. apply in_map_iff. exists (k, b). split; [reflexivity|exact J].
    - eapply in_default; [apply strip_in; exists (SSwitch e cs (Some b)); split; [exact I|split; [reflexivity|rewrite strip_switch; reflexivity]]|exact IH].
    - eapply in_for; [apply strip_in; exists (SFor i a b s body); split; [exact I|split; [reflexivity|apply eq_sym, strip_for]]|exact IH].
    - eapply in_block; [apply strip_in; exists (SBlock body); split; [exact I|split; [reflexivity|apply eq_sym, strip_sblock]]|exact IH].
  Qed.
  Lemma strip_from : forall x l', inside x l' -> forall l, l' = strip p l -> exists y, inside y l /\ sel p y = false /\ x = strip1 p y.
  Proof.
    intros x l' H. induction H as [l' I|l' c t f I H IH|l' c t f I H IH|l' e cs d k b I J H IH|l' e cs b I H IH|l' i a b s body I H IH|l' body I H IH]; intros l E; subst l'; apply strip_in in I; destruct I as (y & I & N & Ey).
    - exists y. split; [now apply in_here|auto].
    - destruct y; try (cbn in Ey; discriminate Ey). rewrite strip_if in Ey. inversion Ey; subst. destruct (IH _ eq_refl) as (z & A & B). exists z. split; [eapply in_then; eassumption|exact B].
    - destruct y; try (cbn in Ey; discriminate Ey). rewrite strip_if in Ey. inversion Ey; subst. destruct (IH _ eq_refl) as (z & A & B). exists z. split; [eapply in_else; eassumption|exact B].
    - destruct y; try (cbn in Ey; discriminate Ey). rewrite strip_switch in Ey. inversion Ey; subst. apply in_map_iff in J. destruct J as ([k' b'] & J1 & J2). cbn in J1. inversion J1; subst. destruct (IH _ eq_refl) as (z & A & B). exists z. split; [eapply in_case; eassumption|exact B].
    - destruct y; try (cbn in Ey; discriminate Ey). rewrite strip_switch in Ey. inversion Ey; subst. destruct d as [b'|]; [|discriminate]. cbn in H3. inversion H3; subst. destruct (IH _ eq_refl) as (z & A & B). exists z. split; [eapply in_default; eassumption|exact B].
    - destruct y; try (cbn in Ey; discriminate Ey). rewrite strip_for in Ey. inversion Ey; subst. destruct (IH _ eq_refl) as (z & A & B). exists z. split; [eapply in_for; eassumption|exact B].
    - destruct y; try (cbn in Ey; discriminate Ey). rewrite strip_sblock in Ey. inversion Ey; subst. destruct (IH _ eq_refl) as (z & A & B). exists z. split; [eapply in_block; eassumption|exact B].
  Qed.
  Lemma strip_run : forall G l, body_eqR G (strip p l) l.
  Proof.
    intros G. assert (forall l, Forall (fun s => stmt_eqR G (strip1 p s) s) l -> body_eqR G (strip p l) l) as B.
    { induction l as [|s r IH]; intros F; [intros st _; reflexivity|]. inversion F; subst. cbn [strip]. destruct (sel p s) eqn:E.
      - intros st Hs. symmetry. apply (body_eqR_drop G s r (strip p r)); [destruct s; try discriminate; reflexivity| |exact Hs]. intros st' Hs'. symmetry. now apply IH.
      - apply body_eqR_cons; auto. }
    assert (forall s, stmt_eqR G (strip1 p s) s) as A; [|intros l; apply B, Forall_forall; intros; apply A].
    apply stmt_ind'; try (intros; intros st _; reflexivity).
    - intros c t f Ft Ff. rewrite strip_if. apply stmt_eqR_if; auto.
    - intros e cs d Fc Fd. rewrite strip_switch. intros st Hs. rewrite !exec_switch. generalize (ev G (st_cur st) e) as v, (ewidth G e) as w. intros v w. induction cs as [|[k b] r IH]; cbn [map pick fst snd].
      + destruct d as [b|]; cbn; [apply B; auto|reflexivity].
      + inversion Fc; subst. destruct (Z.eqb v (enc w k)); [apply B; auto|now apply IH].
    - intros i a b s body F. rewrite strip_for. intros st Hs. rewrite !exec_for. apply loop_congrR; [now apply B|exact Hs].
    - intros body F. rewrite strip_sblock. apply stmt_eqR_block. now apply B.
  Qed.
  (* a block keeps something that is not just structure *)
  Definition keeps (b : list stmt) : Prop := exists x, inside x b /\ leaf x = true /\ sel p x = false.
  Lemma leaf_strip : forall y, leaf (strip1 p y) = leaf y.
  Proof. now destruct y. Qed.
  Lemma solid_strip : forall b, solid (strip p b) <-> keeps b.
  Proof.
    intros b. split.
    - intros (x & I & L). destruct (strip_from x _ I b eq_refl) as (y & J & N & ->). exists y. rewrite leaf_strip in L. auto.
    - intros (x & I & L & N). exists (strip1 p x). split; [now apply strip_kept|now rewrite leaf_strip].
  Qed.
End Any.

(* C306: what is removed in combinational and sequential blocks: every statement of the kind, at any depth, and nothing else;
   running the block does the same *)
Theorem C306_removed : forall p body, (forall k, inside (SOther k) (strip p body) -> p k = false) /\ (forall k, p k = false -> inside (SOther k) body -> inside (SOther k) (strip p body)) /\
  (forall k l e, inside (SAssign k l e) (strip p body) <-> inside (SAssign k l e) body) /\ (forall e, inside (SReturn e) (strip p body) <-> inside (SReturn e) body) /\ (inside SBreak (strip p body) <-> inside SBreak body).
Proof.
  intros p body. split; [|split; [|split; [|split]]].
  - intros k I. destruct (strip_from p _ _ I body eq_refl) as (y & _ & N & E). destruct y; try (cbn in E; discriminate E). cbn in E. inversion E; subst. exact N.
  - intros k N I. apply (strip_kept p _ _ I). exact N.
  - intros k l e. split; intros I; [|apply (strip_kept p _ _ I); reflexivity]. destruct (strip_from p _ _ I body eq_refl) as (y & J & N & E). destruct y; try (cbn in E; discriminate E). cbn in E. inversion E; subst. exact J.
  - intros e. split; intros I; [|apply (strip_kept p _ _ I); reflexivity]. destruct (strip_from p _ _ I body eq_refl) as (y & J & N & E). destruct y; try (cbn in E; discriminate E). cbn in E. inversion E; subst. exact J.
  - split; intros I; [|apply (strip_kept p _ _ I); reflexivity]. destruct (strip_from p _ _ I body eq_refl) as (y & J & N & E). destruct y; try (cbn in E; discriminate E). exact J.
Qed.
(* a generator's own statements, and what an assertion and an event are *)
Lemma tidy_other : forall l l' k, tidy_gen l = Ok l' -> (In (GOther k) l' <-> In (GOther k) l).
Proof.
  induction l as [|g l IH]; intros l' k H; cbn [tidy_gen] in H; [inversion H; subst; reflexivity|].
  destruct g as [o|b body]; [|destruct b];
    try (destruct (remove_empty_process body) as [b'| |]; cbn [obind] in H; try discriminate);
    destruct (tidy_gen l) as [t| |] eqn:T; cbn [obind] in H; try discriminate;
    inversion H; subst; clear H; specialize (IH t k eq_refl);
    try match goal with |- context [match ?b with None => _ | Some _ => _ end] => destruct b end; cbn [In]; rewrite ?IH; intuition discriminate.
Qed.
Theorem C306_generator : forall p l l' k, remove_stmts p l = Ok l' -> (In (GOther k) l' <-> In (GOther k) l /\ p k = false).
Proof.
  intros p l l' k H. unfold remove_stmts in H. rewrite (tidy_other _ _ k H). clear H l'. induction l as [|[o|b body] l IH]; cbn [strip_gen In]; [intuition|..].
  - destruct (p o) eqn:P; cbn [In]; rewrite IH; split.
    + intros [I Q]; auto.
    + intros [[E | I] Q]; [inversion E; subst; congruence | auto].
    + intros [E | [I Q]]; [inversion E; subst; auto | auto].
    + intros [[E | I] Q]; auto.
  - rewrite IH. intuition discriminate.
Qed.
Theorem C306_kinds : forall body k,
  (inside (SOther k) (strip is_assertion body) <-> inside (SOther k) body /\ k <> OAssertValue /\ k <> OAssertProperty) /\
  (inside (SOther k) (strip is_event body) <-> inside (SOther k) body /\ k <> OEvent).
Proof.
  assert (A : forall p body k, inside (SOther k) (strip p body) <-> inside (SOther k) body /\ p k = false).
  { intros p body k. split.
    - intros I. split; [|now apply (proj1 (C306_removed p body))]. destruct (strip_from p _ _ I body eq_refl) as (y & J & N & E). destruct y; try (cbn in E; discriminate E). cbn in E. inversion E; subst. exact J.
    - intros [I P]. now apply (proj1 (proj2 (C306_removed p body))). }
  intros body k. rewrite !A. destruct k; cbn; intuition congruence.
Qed.
Theorem C306_behaviour : forall p G body st, st_status st = Running -> run G (strip p body) st = run G body st.
Proof. intros p G body st H. now apply strip_run. Qed.
Local Open Scope Z_scope.
Definition ST : list stmt := [SOther OAssertValue; SIf (EVar 0) [SOther OAssertValue; SAssign Blocking (LVar 3) (EVar 1)] []; SFor 5 0 4 1 [SOther OAssertValue]].
Example C306_ex : strip is_assertion ST = [SIf (EVar 0) [SAssign Blocking (LVar 3) (EVar 1)] []; SFor 5 0 4 1 []].
Proof. reflexivity. Qed.
(* C307: the whole pass keeps the behaviour of a combinational or sequential block, if what it holds keeps something where that matters *)
Definition keep_ready (p : other_kind -> bool) (G : tenv) (s : stmt) : Prop :=
  match s with
  | SIf c t f => (keeps p t \/ keeps p f) /\ ((wt G c /\ ewidth G c = 1) \/ keeps p t)
  | SSwitch e cs d => labels_distinct (ewidth G e) cs /\ (d <> None -> forall k b, In (k, b) cs -> keeps p b)
  | _ => True
  end.
Lemma inside_cons : forall x s r, inside x (s :: r) -> inside x [s] \/ inside x r.
Proof.
  intros x s r H. inversion H; subst; match goal with H : In _ (_ :: _) |- _ => destruct H as [->|Hr] end;
    try (left; apply inside_self); try (right; eapply in_here; eassumption).
  all: first [ left; eapply in_then; [now left|eassumption] | right; eapply in_then; eassumption
             | left; eapply in_else; [now left|eassumption] | right; eapply in_else; eassumption
             | left; eapply in_case; [now left| |]; eassumption | right; eapply in_case; eassumption
             | left; eapply in_default; [now left|eassumption] | right; eapply in_default; eassumption
             | left; eapply in_for; [now left|eassumption] | right; eapply in_for; eassumption
             | left; eapply in_block; [now left|eassumption] | right; eapply in_block; eassumption ].
Qed.
Definition only_from (k : other_kind) (s : stmt) : Prop := forall s', reb s = Ok (Some s') -> inside (SOther k) [s'] -> inside (SOther k) [s].
Lemma blk_from : forall k l, Forall (only_from k) l -> forall l', reb_block l = Ok l' -> inside (SOther k) l' -> inside (SOther k) l.
Proof.
  intros k l F. induction F as [|s r Hs F IH]; intros l' E I; cbn in E; [apply Ok_inj in E; now subst|]. apply obind_Ok in E as (x & Ex & E). apply obind_Ok in E as (r' & Er & E). apply Ok_inj in E. destruct x as [s'|]; subst.
  - apply inside_cons in I. destruct I as [I|I]; [eapply inside_elem; [now left|]; eapply Hs; eassumption|]. eapply inside_mono; [eapply IH; eassumption|]. intros y; now right.
  - eapply inside_mono; [eapply IH; eassumption|]. intros y; now right.
Qed.
Ltac one := match goal with H : In _ [_] |- _ => destruct H as [H|[]]; try discriminate H; inversion H; subst; clear H end.
Lemma reb_from : forall k s, only_from k s.
Proof.
  intros k. induction s as [kk l e|c t f Ht Hf|e cs d Hcs Hd|i a b st body Hb|body Hb|e| |kk] using stmt_ind'; intros s' E I; try (cbn in E; apply Ok_inj in E; inversion E; subst; exact I).
  - rewrite reb_if in E. apply obind_Ok in E as (t' & Et & E). apply obind_Ok in E as (f' & Ef & E). assert (inside (SOther k) t' \/ inside (SOther k) f') as [J|J].
    { destruct t' as [|t0 t']; [destruct f' as [|f0 f']; [discriminate|]|]; apply Ok_inj in E; inversion E; subst; inversion I; subst; one; auto. }
    + eapply in_then; [now left|]. eapply blk_from; eassumption.
    + eapply in_else; [now left|]. eapply blk_from; eassumption.
  - rewrite reb_switch in E. apply obind_Ok in E as (cs' & Ec & E). apply obind_Ok in E as (d' & Ed & E). assert (s' = SSwitch e cs' d') as -> by (destruct cs', d'; apply Ok_inj in E; now inversion E). clear E.
    assert (forall k0 b, In (k0, b) cs' -> exists b0, In (k0, b0) cs /\ reb_block b0 = Ok b /\ Forall (only_from k) b0) as Qc.
    { clear - Ec Hcs. revert cs' Ec. induction Hcs as [|[k1 b1] r Hb F IH]; intros cs' Ec k0 b J; cbn in Ec; [apply Ok_inj in Ec; subst; destruct J|]. apply obind_Ok in Ec as (b' & Eb & Ec). apply obind_Ok in Ec as (r' & Er & Ec). apply Ok_inj in Ec. cbn in Hb.
      destruct b' as [|x b']; subst; [destruct (IH _ Er _ _ J) as (b0 & J0 & Q); exists b0; split; [now right|exact Q]|]. destruct J as [J|J]; [inversion J; subst; exists b1; split; [now left|auto]|destruct (IH _ Er _ _ J) as (b0 & J0 & Q); exists b0; split; [now right|exact Q]]. }
    inversion I; subst; one.
    + match goal with J : In (_, _) _ |- _ => destruct (Qc _ _ J) as (b0 & J0 & Eb & Fb) end. eapply in_case; [now left|exact J0|]. eapply blk_from; eassumption.
    + destruct d as [b0|]; [|apply Ok_inj in Ed; discriminate]. apply obind_Ok in Ed as (b' & Eb & Ed). apply Ok_inj in Ed. destruct b' as [|x b']; [discriminate|]. inversion Ed; subst. eapply in_default; [now left|]. eapply blk_from; [apply Hd; reflexivity|exact Eb|assumption].
  - rewrite reb_sblock in E. apply obind_Ok in E as (b' & Eb & E). apply Ok_inj in E. destruct b' as [|x b']; [discriminate|]. inversion E; subst. inversion I; subst; one. eapply in_block; [now left|]. eapply blk_from; eassumption.
Qed.
(* combinational and sequential blocks *)
Definition always (k : bkind) : Prop := k = BComb \/ k = BSeq.
Lemma always_visited k : always k -> visited k = true.
Proof. intros [->| ->]; reflexivity. Qed.
Theorem C307_whole : forall p G k body, always k -> (forall s, inside s body -> keep_ready p G s) ->
  exists r, remove_stmts p [GBlock k body] = Ok r /\ (r = [] <-> ~ keeps p body) /\ match r with
            | [] => forall st, st_status st = Running -> run G body st = st
            | [GBlock k' body'] => k' = k /\ (forall o, inside (SOther o) body' -> p o = false) /\ forall st, st_status st = Running -> run G body' st = run G body st
            | _ => False
            end.
Proof.
  intros p G k body V K. apply always_visited in V. assert (forall s, inside s (strip p body) -> reb_ready G s) as R.
  { intros s I. destruct (strip_from p s _ I body eq_refl) as (y & J & N & ->). specialize (K y J). destruct y; try exact Logic.I.
    - rewrite strip_if. cbn. destruct K as [_ [K|K]]; [now left|right; now apply solid_strip].
    - rewrite strip_switch. cbn. destruct K as [K1 K2]. split; [unfold labels_distinct in *; rewrite map_map; exact K1|]. intros D kk b Ib. apply in_map_iff in Ib. destruct Ib as ([k0 b0] & E & Ib). cbn in E. inversion E; subst. apply solid_strip. eapply K2; [|exact Ib]. destruct d; [discriminate|contradiction]. }
  destruct (C15_remove_empty_total (strip p body)) as (o & Eo).
  { intros c t f I. destruct (strip_from p _ _ I body eq_refl) as (y & J & N & E). specialize (K y J). destruct y; try (cbn in E; discriminate E). rewrite strip_if in E. inversion E; subst. destruct K as [[K|K] _]; [left|right]; now apply solid_strip. }
  pose proof (C15_remove_empty_preserves_behaviour G _ o R Eo) as P. pose proof (C15_remove_empty_deletes_only_hollow _ o Eo) as D. rewrite solid_strip in D.
  exists (match o with None => [] | Some x => [GBlock k x] end). split; [|split].
  - unfold remove_stmts. cbn [strip_gen]. unfold strip_block. rewrite V. cbn [tidy_gen]. rewrite Eo. destruct k; try discriminate; cbn [obind]; destruct o; reflexivity.
  - rewrite <- D. destruct o; split; intros; congruence.
  - destruct o as [body'|].
    + split; [reflexivity|]. split; [|intros st Hs; rewrite <- (strip_run p G body st Hs); symmetry; now apply P].
      intros ok I. unfold remove_empty_process in Eo. apply obind_Ok in Eo as (b & Eb & Eo). apply Ok_inj in Eo. assert (b = body') as -> by (destruct b; [discriminate|now inversion Eo]). apply (proj1 (C306_removed p body)). eapply blk_from; [|exact Eb|exact I]. apply Forall_forall. intros; apply reb_from.
    + intros st Hs. rewrite <- (strip_run p G body st Hs). now apply P.
Qed.
Definition SG : tenv := fun _ => {| d_width := 1; d_signed := false |}.
Definition SK : list stmt := [SOther OAssertValue; SIf (EVar 0) [SOther OAssertValue] [SAssign Blocking (LVar 3) (EVar 1)]; SSwitch (EVar 2) [(0, [SOther OAssertValue; SAssign Blocking (LVar 4) (EVar 1)])] (Some [SOther OAssertValue])].
Example C307_ex : (forall s, inside s SK -> keep_ready is_assertion SG s) /\
  remove_assertion [GOther OAssertProperty; GBlock BComb SK] = Ok [GBlock BComb [SIf (EUn UInvert (EVar 0)) [SAssign Blocking (LVar 3) (EVar 1)] []; SSwitch (EVar 2) [(0, [SAssign Blocking (LVar 4) (EVar 1)])] None]].
Proof.
  split; [|reflexivity]. apply inside_Forall. cbn. repeat (apply Forall_cons); try apply Forall_nil; try exact Logic.I.
  - split; [right; exists (SAssign Blocking (LVar 3) (EVar 1)); split; [apply inside_self|auto]|left; split; [cbn; lia|reflexivity]].
  - split; [repeat constructor; cbn; intuition|]. intros _ k b [E|[]]. inversion E; subst. exists (SAssign Blocking (LVar 4) (EVar 1)). split; [apply in_here; cbn; auto|auto].
Qed.
(* C308 (false): removing events, or assertions, changes nothing: an arm with nothing else falls to the default *)
Theorem C308_arm_refuted : forall p o, p o = true -> exists G body r st, remove_stmts p [GBlock BComb body] = Ok [GBlock BComb r] /\ st_status st = Running /\ (forall e cs d, inside (SSwitch e cs d) body -> labels_distinct (ewidth G e) cs) /\
  st_cur (run G body st) 3%nat = 0 /\ st_cur (run G r st) 3%nat = 1.
Proof.
  intros p o Po. exists SG, [SSwitch (EVar 0) [(0, [SOther o]); (1, [SAssign Blocking (LVar 4) (EVar 1)])] (Some [SAssign Blocking (LVar 3) (EConst 1 1 false)])], [SSwitch (EVar 0) [(1, [SAssign Blocking (LVar 4) (EVar 1)])] (Some [SAssign Blocking (LVar 3) (EConst 1 1 false)])], (start_state (fun _ => 0)).
  split; [unfold remove_stmts; cbn; rewrite Po; reflexivity|]. split; [reflexivity|]. split; [|split; reflexivity]. intros e cs d I. apply inside_subs in I. cbn in I. destruct I as [I|[I|[I|[I|[]]]]]; try discriminate. inversion I; subst. repeat constructor; cbn; intuition discriminate.
Qed.
(* C309 (false): the passes do not crash: an if that holds nothing else *)
Theorem C309_if_refuted : forall p o c rest k, p o = true -> always k -> remove_stmts p (GBlock k [SIf c [SOther o] []] :: rest) = UB.
Proof. intros p o c rest k Po V. apply always_visited in V. unfold remove_stmts. cbn [strip_gen]. unfold strip_block. rewrite V. cbn [strip sel]. rewrite strip_if. cbn [strip sel]. rewrite Po. destruct k; try discriminate; reflexivity. Qed.
Example C309_ex : remove_assertion [GBlock BSeq [SIf (EVar 0) [SOther OAssertValue] []]] = UB.
Proof. reflexivity. Qed.
(* C310 (false): nothing of the kind is left: in latch, initial, final and function blocks it stays *)
Theorem C310_blocks_refuted : forall p o k, p o = true -> ~ always k -> remove_stmts p [GBlock k [SOther o]] = Ok [GBlock k [SOther o]].
Proof. intros p o k _ V. destruct k; try (exfalso; apply V; unfold always; tauto); reflexivity. Qed.
Example C310_ex : remove_event_stmts [GBlock BInitial [SOther OEvent]; GBlock BComb [SOther OEvent]; GOther OEvent] = Ok [GBlock BInitial [SOther OEvent]].
Proof. reflexivity. Qed.
Print Assumptions C306_removed.
Print Assumptions C306_generator.
Print Assumptions C306_kinds.
Print Assumptions C306_behaviour.
Print Assumptions C307_whole.
Print Assumptions C308_arm_refuted.
Print Assumptions C309_if_refuted.
Print Assumptions C310_blocks_refuted.
