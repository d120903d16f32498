(* Properties of generated state machines. *)
From Verif Require Import Base SV_spec IR IRSem_spec IR_lemmas Fsm_spec Fsm_model Fsm_proofs Fsm_sem Fsm_main.
Local Open Scope Z_scope.

(* ---- C29: the state encoding ---- *)
Theorem C29_states_are_the_members :
  forall F f, wf_family F ->
    NoDup (e_states (encode F f)) /\ forall s, In s (e_states (encode F f)) <-> member F f s.
Proof. intros F f W. destruct (states_spec F f W) as (A & B & _). auto. Qed.
Print Assumptions C29_states_are_the_members.
Theorem C29_codes_are_positions :
  forall F f, wf_family F -> distinct_labels F f ->
    map (e_code (encode F f)) (e_states (encode F f)) = map Z.of_nat (seq 0 (length (e_states (encode F f))))
    /\ (forall s, member F f s -> 0 <= e_code (encode F f) s < 2 ^ e_width (encode F f))
    /\ (forall a b, member F f a -> member F f b -> e_code (encode F f) a = e_code (encode F f) b -> a = b).
Proof.
  intros F f W D. destruct (states_spec F f W) as (_ & B & _). pose proof (labels_distinct F f W D) as N.
  split; [|split].
  - assert (forall l i, (forall j s, nth_error l j = Some s -> e_code (encode F f) s = Z.of_nat (i + j)) ->
              map (e_code (encode F f)) l = map Z.of_nat (seq i (length l))) as K.
    { induction l as [|s l IH]; intros i H; [reflexivity|]. cbn [map length seq].
      rewrite (H 0%nat s eq_refl), Nat.add_0_r. f_equal. apply IH. intros j t E.
      rewrite (H (S j) t E). f_equal. lia. }
    apply K. intros j s E. apply (code_nth F f j s N E).
  - intros s H. apply B in H. apply width_fits, code_range; assumption.
  - intros a b Ha Hb E. apply (code_inj F f a b N); auto; apply B; assumption.
Qed.
Print Assumptions C29_codes_are_positions.
(* no register of fewer bits would do, except that one bit is always used *)
Theorem C29_width_is_minimal :
  forall F f w, e_states (encode F f) <> [] -> 1 <= w ->
    Z.of_nat (length (e_states (encode F f))) <= 2 ^ w -> e_width (encode F f) <= w.
Proof.
  intros F f w N W L. change (e_width (encode F f)) with (enum_width (Z.of_nat (length (e_states (encode F f))))).
  unfold enum_width. apply Z.max_lub; [exact W|]. rewrite <- (Z.log2_up_pow2 w) by lia.
  apply Z.log2_up_le_mono. exact L.
Qed.
Print Assumptions C29_width_is_minimal.

(* ---- C28: the generated hardware follows the declared machine ---- *)
Theorem C28_follows_declared_transitions :
  forall G F f start moore rs cur nxt M s h,
    wf_family F -> distinct_labels F f ->
    realize F f moore (Some start) rs cur nxt = Ok M ->
    wired G F f (rs_var rs) cur nxt (e_width (encode F f)) ->
    (forall t, member F f t -> (unconditional F t <= 1)%nat) ->
    member F f s ->
    fold_left (hw_cycle G (m_comb M) (m_seq M) cur) h (e_code (encode F f) s)
    = e_code (encode F f) (history G F start (asserted G (rs_var rs) (reset_active_high rs)) s h).
Proof.
  intros G F f start moore rs cur nxt M s h W D R (Wp & W1 & W2 & W3 & W4 & W5 & W6 & W7 & W8) U I.
  apply (history_ok G F f start moore rs cur nxt M); auto.
Qed.
Print Assumptions C28_follows_declared_transitions.
Theorem C28_reset_from_any_contents :
  forall G F f start moore rs cur nxt M c ins,
    wf_family F -> distinct_labels F f ->
    realize F f moore (Some start) rs cur nxt = Ok M ->
    wired G F f (rs_var rs) cur nxt (e_width (encode F f)) ->
    asserted G (rs_var rs) (reset_active_high rs) ins = true ->
    hw_cycle G (m_comb M) (m_seq M) cur c ins = e_code (encode F f) start /\ member F f start.
Proof.
  intros G F f start moore rs cur nxt M c ins W D R (Wp & W1 & W2 & W3 & W4 & W5 & W6 & W7 & W8) A. split.
  - apply (reset_ok G F f start moore rs cur nxt M); auto.
  - apply (seq_ok G F f start moore rs cur nxt M); auto.
Qed.
Print Assumptions C28_reset_from_any_contents.
Theorem C28_moore_outputs_as_declared :
  forall G F f start rs cur nxt M s r x,
    wf_family F -> distinct_labels F f ->
    realize F f true (Some start) rs cur nxt = Ok M ->
    wired G F f (rs_var rs) cur nxt (e_width (encode F f)) ->
    member F f s -> val G r cur = e_code (encode F f) s -> quiet F s ->
    (exists y e, In y (map fst (fam_outs F (f_fsm (fam_state F s)))) /\ declared F s y = Some e /\ e <> EVar y) ->
    In x (map fst (fam_outs F (f_fsm (fam_state F s)))) ->
    val G (activate G (m_output M) r) x
    = match declared F s x with Some e => enc (d_width (G x)) (ev G r e) | None => val G r x end.
Proof.
  intros G F f start rs cur nxt M s r x W D R (Wp & W1 & W2 & W3 & W4 & W5 & W6 & W7 & W8) I V Q Ex Hx.
  eapply moore_out; eauto.
Qed.
Print Assumptions C28_moore_outputs_as_declared.

(* variables: 0 reset, 1 current, 2 next, 3 a, 4 b, 5 out.  FSM 0 "main" with states
   idle (a -> run; b -> wait; otherwise idle), run (b -> wait), wait (-> idle) *)
Definition G28 : tenv := fun x => {| d_width := match x with 1%nat | 2%nat => 2 | 5%nat => 4 | _ => 1 end; d_signed := false |}.
Definition c28 (v : Z) : option expr := Some (EConst v 4 false).
Definition st28 (n : nat) : fstate :=
  match n with
  | 0%nat => {| f_fsm := 0%nat; f_name := "idle"; f_next := [(Some (EVar 3), 1%nat); (Some (EVar 4), 2%nat); (None, 0%nat)];
                f_out := [(5%nat, c28 1)] |}
  | 1%nat => {| f_fsm := 0%nat; f_name := "run"; f_next := [(Some (EVar 4), 2%nat)]; f_out := [(5%nat, c28 7)] |}
  | 2%nat => {| f_fsm := 0%nat; f_name := "wait"; f_next := [(None, 0%nat)]; f_out := [] |}
  | _ => {| f_fsm := 1%nat; f_name := ""; f_next := []; f_out := [] |}
  end.
Definition F28 : family :=
  {| fam_n := 3%nat; fam_state := st28; fam_fsms := 1%nat; fam_parent := fun _ => None; fam_name := fun _ => "main"%string;
     fam_outs := fun g => match g with O => [(5%nat, c28 9)] | _ => [] end |}.
Definition rs28 : reset := {| rs_var := 0%nat; rs_port := Some None; rs_high := false |}.
Lemma F28_wf : wf_family F28.
Proof.
  split; [|split; [|split; [|split]]].
  - intros s c t H. apply (in_map snd) in H. destruct s as [|[|[|s]]]; cbn in *; intuition lia.
  - exists (fun _ => O). intros g. split; [cbn; lia|discriminate].
  - discriminate.
  - intros s. destruct s as [|[|[|s]]]; cbn; repeat constructor; cbn; tauto.
  - intros [|g]; cbn; repeat constructor; cbn; tauto.
Qed.
Lemma F28_members : forall s, member F28 0 s -> (s < 3)%nat.
Proof. intros s H. apply (states_spec F28 0 F28_wf) in H. apply (states_spec F28 0 F28_wf). exact H. Qed.
Lemma F28_labels : distinct_labels F28 0.
Proof.
  intros a b Ha Hb. apply F28_members in Ha, Hb.
  destruct a as [|[|[|a]]], b as [|[|[|b]]]; try lia; try reflexivity; intros H; vm_compute in H; discriminate.
Qed.
Example C28_ex : exists M, realize F28 0 true (Some 0%nat) rs28 1%nat 2%nat = Ok M
  /\ wired G28 F28 0 (rs_var rs28) 1%nat 2%nat (e_width (encode F28 0))
  /\ (forall t, member F28 0 t -> (unconditional F28 t <= 1)%nat)
  /\ map (e_code (encode F28 0)) [0; 1; 2]%nat = [0; 1; 2]
  /\ member F28 0 0 /\ quiet F28 0 /\ reset_active_high rs28 = false.
Proof.
  eexists. split; [vm_compute; reflexivity|]. split; [|split; [|split; [vm_compute; reflexivity|split; [|split]]]].
  - split; [intros x; cbn; destruct x as [|[|[|[|[|[|x]]]]]]; lia|]. split; [vm_compute; reflexivity|].
    split; [vm_compute; reflexivity|]. split; [discriminate|].
    assert (forall x, (x = 1 \/ x = 2)%nat -> unused F28 0 x) as U.
    { intros x Hx s Hs. apply F28_members in Hs. split.
      - intros c t I J. assert (In (Some c) (map fst (f_next (fam_state F28 s)))) as K by (apply (in_map fst) in I; exact I).
        destruct s as [|[|[|s]]]; try lia; cbn in K; intuition (try discriminate);
          match goal with Q : Some _ = Some c |- _ => inversion Q; subst end; cbn in J; intuition lia.
      - intros y v I. assert (In (y, v) [(5%nat, c28 1); (5%nat, c28 7); (5%nat, c28 9)]) as K.
        { destruct s as [|[|[|s]]]; try lia; cbn in *; tauto. }
        assert (y = 5%nat) as -> by (apply (in_map fst) in K; cbn in K; intuition lia). split; [lia|].
        intros e -> J. apply (in_map snd) in K. cbn in K. unfold c28 in K.
        intuition; match goal with Q : Some _ = Some e |- _ => inversion Q; subst end; destruct J. }
    split; [apply U; auto|]. split; [apply U; auto|]. split; [discriminate|]. split; [discriminate|].
    intros t y v H. apply F28_members in H. intros K. apply (in_map fst) in K.
    destruct t as [|[|[|t]]]; try lia; cbn in *; intuition lia.
  - intros t H. apply F28_members in H. destruct t as [|[|[|t]]]; try lia; vm_compute; lia.
  - apply me_own; [cbn; lia|reflexivity].
  - intros x y e H Hx Hy. cbn in Hx. destruct Hx as [<-|[]]. vm_compute in H. inversion H; subst. destruct Hy.
  - reflexivity.
Qed.
Example C29_ex : wf_family F28 /\ distinct_labels F28 0.
Proof. split; [exact F28_wf|exact F28_labels]. Qed.

Definition getm (o : outcome machine) : machine :=
  match o with Ok m => m | _ => {| m_enc := encode F28 0; m_seq := []; m_comb := []; m_output := [] |} end.
Lemma getm_ok : forall o, match o with Ok _ => true | _ => false end = true -> o = Ok (getm o).
Proof. intros [m| |] H; [reflexivity|discriminate|discriminate]. Qed.

(* ---- C90: state labels of nested machines can collide ---- *)
(* FSM "a" with state "b_c" and transition to state "c" of its child "a_b" *)
Definition st90 (n : nat) : fstate :=
  match n with
  | 0%nat => {| f_fsm := 0%nat; f_name := "b_c"; f_next := [(None, 1%nat)]; f_out := [] |}
  | _ => {| f_fsm := 1%nat; f_name := "c"; f_next := [(None, 0%nat)]; f_out := [] |}
  end.
Definition F90 : family :=
  {| fam_n := 2%nat; fam_state := st90; fam_fsms := 2%nat;
     fam_parent := fun g => match g with 1%nat => Some 0%nat | _ => None end;
     fam_name := fun g => match g with O => "a"%string | _ => "a_b"%string end; fam_outs := fun _ => [] |}.
Lemma F90_wf : wf_family F90.
Proof.
  split; [|split; [|split; [|split]]].
  - intros s c t H. apply (in_map snd) in H. destruct s as [|s]; cbn in *; intuition lia.
  - exists (fun g => match g with 1%nat => 1%nat | _ => O end). intros [|[|g]]; cbn; (split; [lia|]); intros p H; inversion H; subst; cbn; lia.
  - intros [|[|g]] p H; cbn in *; try discriminate. lia.
  - intros [|s]; constructor.
  - intros g. constructor.
Qed.
Theorem C90_distinct_states_distinct_codes_refuted :
  ~ (forall F f start moore rs cur nxt M a b, wf_family F -> realize F f moore (Some start) rs cur nxt = Ok M ->
       member F f a -> member F f b -> e_code (m_enc M) a = e_code (m_enc M) b -> a = b).
Proof.
  intros H. assert (0 = 1)%nat as K; [|discriminate].
  refine (H F90 0%nat 0%nat true rs28 1%nat 2%nat _ 0%nat 1%nat F90_wf _ _ _ _).
  - vm_compute. reflexivity.
  - apply me_own; [cbn; lia|reflexivity].
  - apply (me_next F90 0 0 None 1); [apply me_own; [cbn; lia|reflexivity]|left; reflexivity|].
    apply (ne_up F90 0 1 0); [reflexivity|constructor].
  - reflexivity.
Qed.
Print Assumptions C90_distinct_states_distinct_codes_refuted.

(* ---- C91: a state that keeps its outputs ---- *)
(* three states; state 1 declares that output 5 keeps its value *)
Definition st91 (n : nat) : fstate :=
  match n with
  | 0%nat => {| f_fsm := 0%nat; f_name := "s0"; f_next := [(None, 1%nat)]; f_out := [(5%nat, c28 1)] |}
  | 1%nat => {| f_fsm := 0%nat; f_name := "s1"; f_next := [(None, 2%nat)]; f_out := [(5%nat, None)] |}
  | _ => {| f_fsm := 0%nat; f_name := "s2"; f_next := [(None, 0%nat)]; f_out := [(5%nat, c28 7)] |}
  end.
Definition F91 : family :=
  {| fam_n := 3%nat; fam_state := st91; fam_fsms := 1%nat; fam_parent := fun _ => None;
     fam_name := fun _ => "main"%string; fam_outs := fun _ => [(5%nat, None)] |}.
Lemma F91_wf : wf_family F91.
Proof.
  split; [|split; [|split; [|split]]].
  - intros s c t H. apply (in_map snd) in H. destruct s as [|[|s]]; cbn in *; intuition lia.
  - exists (fun _ => O). intros g. split; [cbn; lia|discriminate].
  - discriminate.
  - intros [|[|s]]; cbn; repeat constructor; cbn; tauto.
  - intros g; cbn; repeat constructor; cbn; tauto.
Qed.
Lemma F91_labels : distinct_labels F91 0.
Proof.
  intros a b Ha Hb. apply (states_spec F91 0 F91_wf), (states_spec F91 0 F91_wf) in Ha, Hb. cbn in Ha, Hb.
  destruct a as [|[|[|a]]], b as [|[|[|b]]]; try lia; try reflexivity; intros H; vm_compute in H; discriminate.
Qed.
Theorem C91_kept_output_refuted :
  ~ (forall G F f start rs cur nxt M s r x, wf_family F -> distinct_labels F f -> realize F f true (Some start) rs cur nxt = Ok M ->
       member F f s -> val G r cur = e_code (m_enc M) s ->
       In x (map fst (fam_outs F (f_fsm (fam_state F s)))) -> declared F s x = None ->
       val G (activate G (m_output M) r) x = val G r x).
Proof.
  intros H. pose proof (H G28 F91 0%nat 0%nat rs28 1%nat 2%nat) as K.
  specialize (K (getm (realize F91 0%nat true (Some 0%nat) rs28 1%nat 2%nat)) 1%nat (upd (fun _ => 0) 1%nat 1) 5%nat F91_wf F91_labels).
  cut (1 = 0); [discriminate|]. refine (eq_trans (eq_trans _ (K _ _ _ _ _)) _); [vm_compute; reflexivity|..].
  - apply getm_ok. vm_compute. reflexivity.
  - apply me_own; [cbn; lia|reflexivity].
  - vm_compute. reflexivity.
  - left. reflexivity.
  - reflexivity.
  - vm_compute. reflexivity.
Qed.
Print Assumptions C91_kept_output_refuted.

(* ---- C92: Mealy outputs of an unconditional transition ---- *)
(* when no condition holds the machine goes to the default state without its outputs, and the
   outputs of the default state appear when the last condition holds *)
Definition st92 (n : nat) : fstate :=
  match n with
  | 0%nat => {| f_fsm := 0%nat; f_name := "s0"; f_next := [(Some (EVar 3), 1%nat); (None, 2%nat)]; f_out := [(5%nat, c28 1)] |}
  | 1%nat => {| f_fsm := 0%nat; f_name := "s1"; f_next := [(None, 0%nat)]; f_out := [(5%nat, c28 7)] |}
  | _ => {| f_fsm := 0%nat; f_name := "s2"; f_next := [(None, 0%nat)]; f_out := [(5%nat, c28 9)] |}
  end.
Definition F92 : family :=
  {| fam_n := 3%nat; fam_state := st92; fam_fsms := 1%nat; fam_parent := fun _ => None;
     fam_name := fun _ => "main"%string; fam_outs := fun _ => [(5%nat, None)] |}.
Lemma F92_wf : wf_family F92.
Proof.
  split; [|split; [|split; [|split]]].
  - intros s c t H. apply (in_map snd) in H. destruct s as [|[|s]]; cbn in *; intuition lia.
  - exists (fun _ => O). intros g. split; [cbn; lia|discriminate].
  - discriminate.
  - intros [|[|s]]; cbn; repeat constructor; cbn; tauto.
  - intros g; cbn; repeat constructor; cbn; tauto.
Qed.
Lemma F92_labels : distinct_labels F92 0.
Proof.
  intros a b Ha Hb. apply (states_spec F92 0 F92_wf), (states_spec F92 0 F92_wf) in Ha, Hb. cbn in Ha, Hb.
  destruct a as [|[|[|a]]], b as [|[|[|b]]]; try lia; try reflexivity; intros H; vm_compute in H; discriminate.
Qed.
Theorem C92_mealy_outputs_refuted :
  ~ (forall G F f start rs cur nxt M s r x e, wf_family F -> distinct_labels F f -> realize F f false (Some start) rs cur nxt = Ok M ->
       member F f s -> val G r cur = e_code (m_enc M) s ->
       In x (map fst (fam_outs F (f_fsm (fam_state F s)))) ->
       declared F (next_state G F r s) x = Some e -> evars e = [] ->
       val G (st_cur (run G (m_comb M) (start_state r))) x = enc (d_width (G x)) (ev G r e)).
Proof.
  intros H. pose proof (H G28 F92 0%nat 0%nat rs28 1%nat 2%nat) as K.
  (* in s0 with the condition true: s1 is next, but the output is that of s2 *)
  specialize (K (getm (realize F92 0%nat false (Some 0%nat) rs28 1%nat 2%nat)) 0%nat (upd (fun _ => 0) 3%nat 1) 5%nat (EConst 7 4 false) F92_wf F92_labels).
  cut (9 = 7); [discriminate|]. refine (eq_trans (eq_trans _ (K _ _ _ _ _ _)) _); [vm_compute; reflexivity|..].
  - apply getm_ok. vm_compute. reflexivity.
  - apply me_own; [cbn; lia|reflexivity].
  - vm_compute. reflexivity.
  - left. reflexivity.
  - reflexivity.
  - reflexivity.
  - vm_compute. reflexivity.
Qed.
Print Assumptions C92_mealy_outputs_refuted.

(* ---- C93: which machines are generated at all ---- *)
(* a state without transitions makes generation fail *)
Theorem C93_final_states_refuted :
  forall F f start moore rs cur nxt M s, wf_family F -> distinct_labels F f ->
    member F f s -> f_next (fam_state F s) = [] -> realize F f moore (Some start) rs cur nxt <> Ok M.
Proof.
  intros F f start moore rs cur nxt M s W D I N H.
  assert (In s (e_states (encode F f))) as Is by (apply (st_iff F f W s), I).
  destruct (comb_cases F f start moore rs cur nxt M W H D) as (cs & _ & C).
  destruct (body_of F f moore nxt cs C s Is) as (b & _ & B). unfold state_body in B. rewrite N in B. discriminate.
Qed.
Print Assumptions C93_final_states_refuted.
(* two unconditional transitions and no other: a null if statement is dereferenced *)
Theorem C93_two_unconditional_refuted :
  forall F E moore nxt s t u, f_next (fam_state F s) = [(None, t); (None, u)] ->
    In u (e_states E) -> state_body F E moore nxt s = UB.
Proof.
  intros F E moore nxt s t u H I. unfold state_body. rewrite H. cbn. unfold next_stmt, enum_of.
  apply mem_in in I. rewrite I. reflexivity.
Qed.
Print Assumptions C93_two_unconditional_refuted.
(* which level of the reset signal is the active one: a variable that is not a port is active high; a port is
   active high unless it was declared active low or the machine was told that its reset is low *)
Theorem C28_reset_level :
  forall rs, (rs_port rs = None -> reset_active_high rs = true) /\
    (forall high, rs_port rs = Some high ->
       (reset_active_high rs = true <-> high <> Some false /\ rs_high rs = true)).
Proof.
  intros [x [[[|]|]|] [|]]; unfold reset_active_high; cbn; (split; [try congruence; auto|]);
    intros h E; try discriminate E; injection E as <-; split; intros H; try discriminate H; try (split; congruence);
    destruct H; congruence.
Qed.
(* the register process only has non-blocking assignments, and only to the state *)
Theorem C28_register_process_is_nonblocking :
  forall F f start moore rs cur nxt M k l e, realize F f moore start rs cur nxt = Ok M ->
    inside (SAssign k l e) (m_seq M) -> k = NonBlocking /\ l = LVar cur.
Proof.
  intros F f start moore rs cur nxt M k l e R I. unfold realize in R. destruct (e_states (encode F f)); [discriminate|].
  destruct start as [st|]; [|discriminate]. destruct (check_all _ _); try discriminate. cbn [obind] in R.
  destruct (gen_seq (encode F f) rs cur nxt st) as [sq| |] eqn:Q; try discriminate. cbn [obind] in R.
  destruct (gen_transition _ _ _ _ _) as [cb| |]; try discriminate. cbn [obind] in R. apply Ok_inj in R. subst M. cbn [m_seq] in I.
  unfold gen_seq in Q. destruct (enum_of _ st) as [c| |]; try discriminate. cbn [obind] in Q. apply Ok_inj in Q. subst sq.
  apply inside_subs in I. cbn in I. destruct I as [I|[I|[I|[]]]]; try discriminate; injection I as <- <- _; auto.
Qed.
Print Assumptions C28_reset_level.
Print Assumptions C28_register_process_is_nonblocking.
