(* C19, C20, C148..C151: clock enables and synchronous resets of a process *)
From Verif Require Import Base IR IRSem_spec IR_lemmas Gate_spec Gate_model Gate_proofs.
Local Open Scope Z_scope.

(* C19: with the enable high an edge does what it did before, for every process *)
Theorem C19_enabled_edge_as_before : forall G pt en body r, high G r en = true ->
  activate G (insert_enable pt en body) r = activate G body r.
Proof.
  intros G pt en body r H. unfold high in H. destruct (insert_enable_cases pt en body) as [->|[->|(c & t & f & -> & ->)]].
  - reflexivity.
  - now rewrite act_if, H.
  - rewrite !act_if, H. reflexivity.
Qed.
(* with the enable low and no reset branch taken nothing changes, unless the process begins with an if on
   an enable already *)
Theorem C19_disabled_edge_changes_nothing : forall G pt en body r, high G r en = false ->
  ~ starts_gated pt body -> (forall c t f, reset_process pt body c t f -> ~ starts_gated pt f /\ truth G r c = false) ->
  activate G (insert_enable pt en body) r = r.
Proof.
  intros G pt en body r H N R. unfold high in H.
  assert (has_clk_en pt body = false) as B by (destruct (has_clk_en pt body) eqn:E; [now apply clk_en_starts in E|reflexivity]).
  assert (activate G [SIf (EVar en) body []] r = r) as W by (rewrite act_if, H; apply act_nil).
  unfold insert_enable. rewrite B. destruct body as [|s l]; [reflexivity|].
  destruct s as [|c t f| | | | | |]; auto. destruct l as [|s2 l]; auto.
  destruct (has_type pt AsyncReset c || has_type pt SyncReset c) eqn:T; auto.
  assert (reset_process pt [SIf c t f] c t f) as P.
  { split; [reflexivity|]. apply orb_true_iff in T as [T|T]; apply has_type_leaf in T as (x & I & E); exists x; auto. }
  destruct (R _ _ _ P) as [Nf Tc]. assert (has_clk_en pt f = false) as F by (destruct (has_clk_en pt f) eqn:E; [now apply clk_en_starts in E|reflexivity]).
  rewrite F, act_if, Tc, act_if, H. apply act_nil.
Qed.
(* a process that as a whole stands under the enable already is frozen as well *)
Theorem C19_already_enabled : forall G pt en body r, pt en = ClockEnable -> high G r en = false ->
  activate G (insert_enable pt en [SIf (EVar en) body []]) r = r.
Proof.
  intros G pt en body r P H. unfold high in H. unfold insert_enable. cbn [has_type has_clk_en]. rewrite P. cbn [ptype_eqb orb]. rewrite act_if, H. apply act_nil.
Qed.
(* the reset branch of a process works whatever the enable is *)
Theorem C19_reset_ignores_the_enable : forall G pt en x c t f r, port_or_not x c -> pt x = AsyncReset \/ pt x = SyncReset -> truth G r c = true ->
  activate G (insert_enable pt en [SIf c t f]) r = activate G t r.
Proof.
  intros G pt en x c t f r S T H. assert (has_type pt AsyncReset c || has_type pt SyncReset c = true) as E.
  { destruct S as [->|(op & ->)]; cbn [has_type]; destruct T as [->| ->]; reflexivity. }
  unfold insert_enable. rewrite E. destruct (has_clk_en pt f); rewrite act_if, H; reflexivity.
Qed.
(* a whole history: the registers are those of the original process that only sees the edges with the
   enable high; the other edges only change the inputs *)
Theorem C19_history : forall G pt en body is r, ~ starts_gated pt body -> (forall c t f, ~ reset_process pt body c t f) ->
  edges G (insert_enable pt en body) is r = fold_left (fun r i => if high G (i r) en then activate G body (i r) else i r) is r.
Proof.
  intros G pt en body is. unfold edges. induction is as [|i is IH]; intros r N R; [reflexivity|]. cbn [fold_left]. rewrite <- IH by assumption. f_equal.
  destruct (high G (i r) en) eqn:H; [now apply C19_enabled_edge_as_before|]. apply C19_disabled_edge_changes_nothing; auto. intros c t f P. now apply R in P.
Qed.
(* variables: 0 clock enable, 1 reset, 2 and 3 registers, 4 data input *)
Definition ex_G : tenv := fun _ => {| d_width := 1; d_signed := false |}.
Definition ex_pt : ports := fun x => match x with 0%nat => ClockEnable | 1%nat => AsyncReset | 5%nat => SyncReset | _ => Data end.
Definition ex_set (x y : var) : stmt := SAssign NonBlocking (LVar x) (EVar y).
Definition ex_zero (x : var) : stmt := SAssign NonBlocking (LVar x) (EConst 0 1 false).
Arguments ex_set (x y)%nat_scope.
Arguments ex_zero x%nat_scope.
Example C19_ex :
  let body := [SIf (EVar 1) [ex_zero 2; ex_zero 3] [ex_set 2 4; ex_set 3 2]] in
  insert_enable ex_pt 0 body = [SIf (EVar 1) [ex_zero 2; ex_zero 3] [SIf (EVar 0) [ex_set 2 4; ex_set 3 2] []]]
  /\ ~ starts_gated ex_pt body /\ ~ starts_gated ex_pt [ex_set 2 4; ex_set 3 2]
  /\ ~ starts_gated ex_pt [ex_set 2 4] /\ (forall c t f, ~ reset_process ex_pt [ex_set 2 4] c t f).
Proof.
  cbv zeta. split; [reflexivity|]. repeat split.
  - intros (x & t & f & r & E & P). injection E as E1 E2 E3 E4. subst. discriminate P.
  - intros (x & t & f & r & E & P). discriminate E.
  - intros (x & t & f & r & E & P). discriminate E.
  - intros c t f (E & _). discriminate E.
Qed.

(* C148: a process that only begins with an if on the enable is left as it is, and its other statements
   run with the enable low *)
Theorem C148_partly_enabled_process_refuted : forall pt en t f s l, pt en = ClockEnable ->
  insert_enable pt en (SIf (EVar en) t f :: s :: l) = SIf (EVar en) t f :: s :: l.
Proof. intros pt en t f s l P. unfold insert_enable. cbn [has_clk_en]. rewrite P. reflexivity. Qed.
Theorem C148_register_changes_refuted :
  let body := [SIf (EVar 0) [ex_set 2 4] []; ex_set 3 4] in let r := fun x => if Nat.eqb x 4 then 1 else 0 in
  high ex_G r 0 = false /\ activate ex_G (insert_enable ex_pt 0 body) r 3%nat = 1 /\ r 3%nat = 0.
Proof. repeat split; reflexivity. Qed.
Example C148_ex : ex_pt 0%nat = ClockEnable. Proof. reflexivity. Qed.

(* C149: next to other statements, or under a condition with other variables, the reset branch is
   disabled with the rest *)
Theorem C149_reset_beside_other_statements_refuted : forall G pt en c t f s l r, (forall x, c <> EVar x) \/ (forall x, c = EVar x -> pt x <> ClockEnable) ->
  high G r en = false -> activate G (insert_enable pt en (SIf c t f :: s :: l)) r = r.
Proof.
  intros G pt en c t f s l r N H. unfold high in H. unfold insert_enable. assert (has_clk_en pt (SIf c t f :: s :: l) = false) as ->.
  { cbn [has_clk_en]. destruct c as [x| | | | | | |]; try reflexivity. destruct N as [N|N]; [now destruct (N x)|]. specialize (N x eq_refl). destruct (pt x); cbn; try reflexivity. congruence. }
  rewrite act_if, H. apply act_nil.
Qed.
Example C149_ex : let r := fun x => if Nat.eqb x 1 || Nat.eqb x 2 then 1 else 0 in
  let body := [SIf (EVar 1) [ex_zero 2] []; ex_set 3 4] in
  activate ex_G body r 2%nat = 0 /\ activate ex_G (insert_enable ex_pt 0 body) r 2%nat = 1.
Proof. split; reflexivity. Qed.

(* C20: what a process with an asynchronous reset branch does after the insertion.  With the option to
   put the reset above the enable, or without an enable: *)
Lemma no_sync_type : forall pt e, no_sync pt e -> has_type pt SyncReset e = false.
Proof. intros pt e N. destruct (has_type pt SyncReset e) eqn:E; auto. apply has_type_leaf in E as (x & I & E). now apply N in I. Qed.
Theorem C20_reset_above_everything : forall G pt over rst x c t f r, port_or_not x c -> pt x = AsyncReset ->
  (forall e t2 f2, f = [SIf e t2 f2] -> no_sync pt e /\ (over = true \/ forall y, In y (evars e) -> pt y <> ClockEnable)) ->
  activate G (insert_reset pt over rst [SIf c t f]) r
  = if truth G r c then activate G t r else if high G r rst then activate G t r else activate G f r.
Proof.
  intros G pt over rst x c t f r S T N. unfold high. assert (has_type pt AsyncReset c = true /\ has_type pt SyncReset c = false) as [E1 E2].
  { destruct S as [->|(op & ->)]; cbn [has_type]; rewrite T; split; reflexivity. }
  assert (activate G [SIf c t [SIf (EVar rst) t f]] r = if truth G r c then activate G t r else if truth G r (EVar rst) then activate G t r else activate G f r) as P by now rewrite !act_if.
  unfold insert_reset. rewrite E1, E2. cbn [negb orb]. destruct f as [|s l]; auto. destruct s as [|e t2 f2| | | | | |]; auto. destruct l; auto.
  destruct (N e t2 f2 eq_refl) as [Ns Nc]. rewrite (no_sync_type pt e Ns). replace (has_type pt ClockEnable e && negb over) with false; [exact P|].
  destruct Nc as [->|Nc]; [now rewrite andb_false_r|]. destruct (has_type pt ClockEnable e) eqn:E; auto. apply has_type_leaf in E as (y & I & E). now apply Nc in I.
Qed.
(* without the option and with an enable: the reset acts with the enable high *)
Theorem C20_reset_below_the_enable : forall G pt rst x en c t t2 f2 r, port_or_not x c -> pt x = AsyncReset -> pt en = ClockEnable ->
  (forall c2 t3 f3 l, t2 = SIf c2 t3 f3 :: l -> no_sync pt c2) ->
  activate G (insert_reset pt false rst [SIf c t [SIf (EVar en) t2 f2]]) r
  = if truth G r c then activate G t r else if high G r en then (if high G r rst then activate G t r else activate G t2 r) else activate G f2 r.
Proof.
  intros G pt rst x en c t t2 f2 r S T C N. unfold high. assert (has_type pt AsyncReset c = true /\ has_type pt SyncReset c = false) as [E1 E2].
  { destruct S as [->|(op & ->)]; cbn [has_type]; rewrite T; split; reflexivity. }
  assert (activate G [SIf c t [SIf (EVar en) [SIf (EVar rst) t t2] f2]] r
    = if truth G r c then activate G t r else if truth G r (EVar en) then (if truth G r (EVar rst) then activate G t r else activate G t2 r) else activate G f2 r) as P by now rewrite !act_if.
  unfold insert_reset. rewrite E1, E2. cbn [negb orb has_type]. rewrite C. cbn [ptype_eqb andb negb].
  destruct t2 as [|s l]; auto. destruct s as [|c2 t3 f3| | | | | |]; auto. rewrite (no_sync_type pt c2 (N _ _ _ _ eq_refl)). exact P.
Qed.
(* with the reset low every process behaves as before *)
Theorem C20_reset_low_as_before : forall G pt over rst body r, high G r rst = false ->
  activate G (insert_reset pt over rst body) r = activate G body r.
Proof.
  intros G pt over rst body r H. unfold high in H. unfold insert_reset. destruct body as [|s l]; auto. destruct s as [|c t f| | | | | |]; auto. destruct l; auto.
  destruct (negb _ || _); auto.
  assert (activate G [SIf c t [SIf (EVar rst) t f]] r = activate G [SIf c t f] r) as P by (rewrite !act_if, H; reflexivity).
  destruct f as [|s l]; auto. destruct s as [|e t2 f2| | | | | |]; auto. destruct l; auto.
  assert (activate G [SIf c t [SIf e [SIf (EVar rst) t t2] f2]] r = activate G [SIf c t [SIf e t2 f2]] r) as Q by (rewrite !act_if, H; reflexivity).
  destruct (has_type pt ClockEnable e && negb over).
  - destruct t2 as [|s l]; auto. destruct s as [|c2 t3 f3| | | | | |]; auto. destruct (has_type pt SyncReset c2); auto.
  - destruct (has_type pt SyncReset e); auto.
Qed.
Example C20_ex : insert_reset ex_pt false 5 [SIf (EVar 1) [ex_zero 2] [SIf (EVar 0) [ex_set 2 4] []]] = [SIf (EVar 1) [ex_zero 2] [SIf (EVar 0) [SIf (EVar 5) [ex_zero 2] [ex_set 2 4]] []]]
  /\ insert_reset ex_pt true 5 [SIf (EVar 1) [ex_zero 2] [SIf (EVar 0) [ex_set 2 4] []]] = [SIf (EVar 1) [ex_zero 2] [SIf (EVar 5) [ex_zero 2] [SIf (EVar 0) [ex_set 2 4] []]]]
  /\ port_or_not 1 (EUn UNot (EVar 1)).
Proof. repeat split; try reflexivity. right. now exists UNot. Qed.

(* C150: a process that resets one of its registers already gets no reset for the others *)
Theorem C150_partial_reset_refuted : forall pt rst x c t y t3 f3 l en f2, port_or_not x c -> pt x = AsyncReset -> pt en = ClockEnable -> pt y = SyncReset ->
  let body := [SIf c t [SIf (EVar en) (SIf (EVar y) t3 f3 :: l) f2]] in insert_reset pt false rst body = body.
Proof.
  intros pt rst x c t y t3 f3 l en f2 S T C Y body. unfold body, insert_reset. assert (has_type pt AsyncReset c = true /\ has_type pt SyncReset c = false) as [E1 E2].
  { destruct S as [->|(op & ->)]; cbn [has_type]; rewrite T; split; reflexivity. }
  rewrite E1, E2. cbn [negb orb has_type]. rewrite C, Y. reflexivity.
Qed.
Example C150_ex : let r := fun x => if Nat.eqb x 1 then 0 else 1 in
  let body := [SIf (EVar 1) [ex_zero 2; ex_zero 3] [SIf (EVar 0) [SIf (EVar 5) [ex_zero 2] [ex_set 2 4]; ex_set 3 4] []]] in
  activate ex_G (insert_reset ex_pt false 5 body) r 3%nat = 1 /\ activate ex_G [ex_zero 2; ex_zero 3] r 3%nat = 0.
Proof. split; reflexivity. Qed.

(* C151: a reset that is to act above the enable does so only if the enable was inserted before; inserted
   afterwards, the enable disables the reset *)
Theorem C151_order_of_insertion_refuted : forall G pt en rst x c t f r, port_or_not x c -> pt x = AsyncReset -> pt en = ClockEnable -> ~ starts_gated pt f ->
  (forall e t2 f2, f = [SIf e t2 f2] -> no_sync pt e) -> en <> rst -> pt rst = SyncReset ->
  truth G r c = false -> high G r rst = true -> high G r en = false ->
  activate G (insert_reset pt true rst (insert_enable pt en [SIf c t f])) r = activate G t r
  /\ activate G (insert_enable pt en (insert_reset pt true rst [SIf c t f])) r = r.
Proof.
  intros G pt en rst x c t f r S T C Ng N D Pr Hc Hr He. assert (has_type pt AsyncReset c = true /\ has_type pt SyncReset c = false) as [E1 E2].
  { destruct S as [->|(op & ->)]; cbn [has_type]; rewrite T; split; reflexivity. }
  assert (has_clk_en pt f = false) as F by (destruct (has_clk_en pt f) eqn:E; [now apply clk_en_starts in E|reflexivity]). unfold high in *. split.
  - unfold insert_enable. rewrite E1, F. cbn [orb]. unfold insert_reset. rewrite E1, E2. cbn [negb orb has_type]. rewrite C. cbn [ptype_eqb andb negb]. rewrite !act_if, Hc, Hr. reflexivity.
  - assert (insert_reset pt true rst [SIf c t f] = [SIf c t [SIf (EVar rst) t f]]) as ->.
    { unfold insert_reset. rewrite E1, E2. cbn [negb orb]. destruct f as [|s l]; auto. destruct s as [|e t2 f2| | | | | |]; auto. destruct l; auto. rewrite (no_sync_type pt e (N _ _ _ eq_refl)), andb_false_r. reflexivity. }
    unfold insert_enable. rewrite E1. cbn [orb has_clk_en]. rewrite Pr. cbn [ptype_eqb]. rewrite !act_if, Hc, He. apply act_nil.
Qed.
Example C151_ex : ex_pt 0%nat = ClockEnable /\ ex_pt 1%nat = AsyncReset /\ ex_pt 5%nat = SyncReset /\ ~ starts_gated ex_pt [ex_set 2 4].
Proof. repeat split. intros (x & t & f & r & E & P). discriminate E. Qed.
Print Assumptions C19_enabled_edge_as_before.
Print Assumptions C19_disabled_edge_changes_nothing.
Print Assumptions C19_already_enabled.
Print Assumptions C19_reset_ignores_the_enable.
Print Assumptions C19_history.
Print Assumptions C148_partly_enabled_process_refuted.
Print Assumptions C148_register_changes_refuted.
Print Assumptions C149_reset_beside_other_statements_refuted.
Print Assumptions C20_reset_above_everything.
Print Assumptions C20_reset_below_the_enable.
Print Assumptions C20_reset_low_as_before.
Print Assumptions C150_partial_reset_refuted.
Print Assumptions C151_order_of_insertion_refuted.
