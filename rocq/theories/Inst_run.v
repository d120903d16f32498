From Verif Require Import Base SV_spec IR IRSem_spec IR_lemmas IfCase_proofs IR_frame Flow_spec Flow_proofs Design_spec Design_proofs Dce_spec Dce_model Dce_proofs
  Fan_spec Fan_model Retarget_proofs Fan_proofs Tie_model Tie_proofs Tie_props Move_spec Move_model Move_proofs Move_props Pass_spec Pass_proofs Inline_spec Inline_model Inline_proofs
  Inst_spec Inst_model Inst_proofs Inst_steps.
Local Open Scope Z_scope.

Notation used := uses_port (only parsing).
Lemma in_statements : forall f d it s, In (it, s) (statements f d) <-> In it d /\ inside s (body it) /\ f s = true.
Proof.
  intros f d it s. unfold statements. rewrite in_flat_map. split.
  - intros (it0 & I & J). apply in_map_iff in J. destruct J as (s0 & E & J). injection E as -> ->. apply filter_In in J. destruct J as [J1 J2]. apply body_stmts in J1. auto.
  - intros (I & J & E). exists it. split; [exact I|]. apply in_map, filter_In. split; [now apply body_stmts|exact E].
Qed.
Lemma no_elements : forall {A} (l : list A), (forall x, ~ In x l) -> l = [].
Proof. intros A [|a l] N; [reflexivity|]. exfalso. apply (N a). now left. Qed.
Lemma fresh_new : forall d it, In it d -> (i_id it < fresh d)%nat.
Proof.
  intros d it I. unfold fresh. assert (i_id it <= fold_right Nat.max 0 (map i_id d))%nat; [|lia].
  induction d as [|q r IH]; [destruct I|]. cbn. destruct I as [->|I]; [lia|]. specialize (IH I). lia.
Qed.
Lemma filter_map_same : forall {A} (f : A -> bool) (m : A -> A) l, (forall x, In x l -> f (m x) = f x) -> filter f (map m l) = map m (filter f l).
Proof.
  intros A f m l E. induction l as [|x r IH]; [reflexivity|]. cbn [map filter]. rewrite (E x (or_introl eq_refl)). rewrite IH by (intros; apply E; now right). now destruct (f x).
Qed.
Lemma wire_statements : forall f w x y, i_proc w = PWire (LVar y) (EVar x) -> statements f [w] = if f (SAssign Blocking (LVar y) (EVar x)) then [(w, SAssign Blocking (LVar y) (EVar x))] else [].
Proof. intros f w x y E. unfold statements. cbn [flat_map]. rewrite E. cbn. destruct (f _); reflexivity. Qed.
Lemma right_var : forall a b e z, right a b e = EVar z -> exists y, e = EVar y /\ z = if Nat.eqb y a then b else y.
Proof.
  intros a b e z E. unfold right, set_right in E. destruct e as [y|v w s|op x|op x y|c x y|x hi lo|x y|x w].
  - exists y. split; [reflexivity|]. destruct (Nat.eqb y a); injection E as <-; reflexivity.
  - discriminate.
  - discriminate.
  - discriminate.
  - discriminate.
  - destruct (rooted a (ESlice x hi lo)) eqn:R; [|discriminate]. unfold slice_to in E. rewrite R in E. discriminate.
  - cbn [change fst] in E. destruct (match x with ESlice _ _ _ => (x, false) | _ => change a b x end) as [x' f]. destruct (match y with EVar v => _ | _ => _ end) as [y' f']. discriminate.
  - cbn [change fst] in E. destruct x; discriminate.
Qed.

Section Keep.
  Variables (H : hierarchy) (D : design) (F : item -> item) (g0 : nat) (p0 v0 : var) (w : item).
  Hypothesis HF : forall it, mild g0 p0 v0 it (F it).
  Hypothesis Hid : i_id w = fresh D.
  Hypothesis Hg : i_gen w = g0.
  Hypothesis Hw : i_proc w = PWire (LVar p0) (EVar v0) \/ i_proc w = PWire (LVar v0) (EVar p0).
  Notation D' := (map F D ++ [w])%list.
  Lemma w_reads : forall x, reads x (body w) -> x = p0 \/ x = v0.
  Proof using Hw. clear - Hw. intros x R. destruct Hw as [E|E]; rewrite E in R; apply wire_reads in R; auto. Qed.
  Lemma w_touches : forall x, touches x (body w) -> x = p0 \/ x = v0.
  Proof using Hw. clear - Hw. intros x R. destruct Hw as [E|E]; rewrite E in R; apply wire_touches in R; auto. Qed.
  Lemma w_events : events_of (i_proc w) = [].
  Proof using Hw. clear - Hw. destruct Hw as [E|E]; now rewrite E. Qed.
  Lemma in_D' : forall it, In it D' <-> (exists it0, In it0 D /\ it = F it0) \/ it = w.
  Proof using.
    clear. intros it. rewrite in_app_iff, in_map_iff. cbn. split.
    - intros [(it0 & <- & I)|[<-|[]]]; [left; eauto|now right].
    - intros [(it0 & I & ->)| ->]; [left; eauto|right; now left].
  Qed.
  Lemma keep_ids : NoDup (map i_id D) -> NoDup (map i_id D').
  Proof using HF Hid Hg.
    intros N. rewrite map_app, map_map. rewrite (map_ext _ i_id) by (intros it; apply (md_id _ _ _ _ _ (HF it))). cbn [map].
    assert (~ In (i_id w) (map i_id D)) as Nw by (intros I; apply in_map_iff in I; destruct I as (it & E & I); pose proof (fresh_new D it I); lia).
    clear HF Hid. induction (map i_id D) as [|a l IH]; cbn; [constructor; [intros []|constructor]|]. inversion N; subst. constructor; [|apply IH; [assumption|intros X; apply Nw; now right]].
    rewrite in_app_iff. cbn. intros [X|[X|[]]]; [contradiction|]. apply Nw. now left.
  Qed.
  Lemma keep_scope : h_owner H v0 = g0 -> (h_parent H (h_owner H p0) = Some g0 /\ h_kind H p0 <> KVar) ->
    (forall it x, In it D -> reads x (body it) \/ touches x (body it) -> h_owner H x = i_gen it \/ (h_parent H (h_owner H x) = Some (i_gen it) /\ h_kind H x <> KVar)) ->
    forall it x, In it D' -> reads x (body it) \/ touches x (body it) -> h_owner H x = i_gen it \/ (h_parent H (h_owner H x) = Some (i_gen it) /\ h_kind H x <> KVar).
  Proof using HF Hg Hw.
    intros Ov Op Sc it x I X. apply in_D' in I. destruct I as [(it0 & I & ->)| ->].
    - rewrite (md_gen _ _ _ _ _ (HF it0)). assert ((reads x (body it0) \/ touches x (body it0)) \/ (x = v0 /\ i_gen it0 = g0)) as [Y|[-> E]].
      { destruct X as [X|X]; [apply (md_reads_only _ _ _ _ _ (HF it0)) in X|apply (md_touches_only _ _ _ _ _ (HF it0)) in X]; tauto. }
      + now apply Sc.
      + left. congruence.
    - rewrite Hg. assert (x = p0 \/ x = v0) as [-> | ->] by (destruct X as [X|X]; [now apply w_reads|now apply w_touches]); auto.
  Qed.
  Variables (x : var).
  Hypothesis Xp : x <> p0.
  Hypothesis Xv : x <> v0.
  Lemma keep_in : forall g, (forall it, In it D -> (touches x (body it) -> i_gen it = g /\ ~ reads x (body it)) /\ ~ loops_over x (body it)) ->
    forall it, In it D' -> (touches x (body it) -> i_gen it = g /\ ~ reads x (body it)) /\ ~ loops_over x (body it).
  Proof using HF Hg Hw Xp Xv.
    intros g K it I. apply in_D' in I. destruct I as [(it0 & I & ->)| ->].
    - rewrite (md_gen _ _ _ _ _ (HF it0)), (md_touches _ _ _ _ _ (HF it0) x Xp Xv), (md_reads _ _ _ _ _ (HF it0) x Xp Xv), (md_loops _ _ _ _ _ (HF it0)). now apply K.
    - split; [intros T|intros T; assert (touches x (body w)) as T' by (now right); clear T; rename T' into T]; apply w_touches in T; destruct T; contradiction.
  Qed.
  Lemma keep_out : forall g, (forall it, In it D -> i_gen it = g -> ~ touches x (body it) /\ forall s, inside s (body it) -> ~ stuck x s) ->
    forall it, In it D' -> i_gen it = g -> ~ touches x (body it) /\ forall s, inside s (body it) -> ~ stuck x s.
  Proof using HF Hg Hw Xp Xv.
    intros g K it I E. apply in_D' in I. destruct I as [(it0 & I & ->)| ->].
    - rewrite (md_gen _ _ _ _ _ (HF it0)) in E. destruct (K it0 I E) as [A B]. split; [now rewrite (md_touches _ _ _ _ _ (HF it0) x Xp Xv)|].
      intros s Is S0. destruct (md_stuck _ _ _ _ _ (HF it0) x s Xp Xv Is S0) as (s0 & I0 & S1). exact (B s0 I0 S1).
    - split; [intros T; apply w_touches in T; destruct T; contradiction|]. intros s Is S0. apply stuck_reads in S0. assert (reads x (body w)) as R by (exists s; auto). apply w_reads in R. destruct R; contradiction.
  Qed.
  Lemma keep_new : (forall it, In it D -> ~ reads x (body it) /\ ~ touches x (body it) /\ ~ In x (map snd (events_of (i_proc it)))) ->
    forall it, In it D' -> ~ reads x (body it) /\ ~ touches x (body it) /\ ~ In x (map snd (events_of (i_proc it))).
  Proof using HF Hg Hw Xp Xv.
    intros K it I. apply in_D' in I. destruct I as [(it0 & I & ->)| ->].
    - rewrite (md_touches _ _ _ _ _ (HF it0) x Xp Xv), (md_reads _ _ _ _ _ (HF it0) x Xp Xv), (md_events _ _ _ _ _ (HF it0)). now apply K.
    - split; [intros R; apply w_reads in R; destruct R; contradiction|]. split; [intros R; apply w_touches in R; destruct R; contradiction|]. rewrite w_events. auto.
  Qed.
  Lemma keep_used : forall g, used D' g x <-> used D g x.
  Proof using HF Hg Hw Xp Xv.
    intros g. split.
    - intros (it & I & E & R). apply in_D' in I. destruct I as [(it0 & I & ->)| ->]; [|apply w_reads in R; destruct R; contradiction].
      exists it0. rewrite (md_gen _ _ _ _ _ (HF it0)) in E. rewrite (md_reads _ _ _ _ _ (HF it0) x Xp Xv) in R. auto.
    - intros (it & I & E & R). exists (F it). split; [apply in_D'; left; eauto|]. rewrite (md_gen _ _ _ _ _ (HF it)), (md_reads _ _ _ _ _ (HF it) x Xp Xv). auto.
  Qed.
End Keep.

(* ---- ports that are done ---- *)
Definition joined_in (H : hierarchy) (D : design) (g : nat) (p : var) : Prop :=
  exists it e, sources_of D p = [(it, SAssign Blocking (LVar p) e)] /\ In it D /\ i_gen it = g /\ i_proc it = PWire (LVar p) e /\ connectable e /\ in_gen H g e = true.
Definition in_generator (g : nat) (k : item * stmt) : bool := Nat.eqb (i_gen (fst k)) g.
Definition joined_out (H : hierarchy) (new : var -> var) (d0 : design) (st : pstate2) (g : nat) (p : var) : Prop :=
  (In p (p_moved st) /\ used d0 g p /\
   exists it, filter (recorded new p st) (sinks_of (p_design st) p) = [(it, SAssign Blocking (LVar (new p)) (EVar p))] /\ In it (p_design st) /\ i_gen it = g /\ i_proc it = PWire (LVar (new p)) (EVar p)) \/
  (~ In p (p_moved st) /\ ~ used d0 g p /\ filter (in_generator g) (sinks_of (p_design st) p) = []) \/
  (~ In p (p_moved st) /\ used d0 g p /\
   exists it x, filter (in_generator g) (sinks_of (p_design st) p) = [(it, SAssign Blocking (LVar x) (EVar p))] /\ In it (p_design st) /\ i_gen it = g /\ i_proc it = PWire (LVar x) (EVar p) /\ h_owner H x = g).

Lemma move_wire : forall p v g it l e, i_proc it = PWire l e -> i_proc (move_item p v g it) = PWire l (if Nat.eqb (i_gen it) g then moved_right p v Blocking l e else e).
Proof.
  intros p v g it l e E. unfold move_item. destruct (Nat.eqb (i_gen it) g); [|exact E]. cbn [i_proc]. rewrite E. cbn [move_proc]. unfold moved_right. now destruct (uses p (SAssign Blocking l e)).
Qed.
Lemma to_in_wire : forall p v g it l e, i_proc it = PWire l e -> i_proc (to_in g p v it) = PWire (if Nat.eqb (i_gen it) g then to_lhs p v l else l) e.
Proof. intros p v g it l e E. unfold to_in. destruct (Nat.eqb (i_gen it) g); [|exact E]. cbn [to_item i_proc]. rewrite E. reflexivity. Qed.
Lemma moved_right_same : forall p v k l e, ~ In p (lhs_reads l) -> ~ In p (evars e) -> moved_right p v k l e = e.
Proof.
  intros p v k l e N1 N2. unfold moved_right, uses. destruct (mem p (stmt_sinks (SAssign k l e))) eqn:M; [|reflexivity]. apply mem_In in M. cbn in M. apply in_app_or in M. tauto.
Qed.
Lemma to_lhs_same : forall p v l, lhs_var l <> p -> to_lhs p v l = l.
Proof. intros p v [x|x hi lo|x i w] N; cbn in *; destruct (Nat.eqb_spec x p); congruence. Qed.

Section Done.
  Variables (H : hierarchy) (new : var -> var) (d0 : design) (D : design) (mv : list var) (g0 : nat) (p0 v0 : var) (w : item).
  Hypothesis Ov : h_owner H v0 = g0.
  Hypothesis Op : h_owner H p0 <> g0.
  (* p0 -> v0, an input *)
  Section StepIn.
    Hypothesis Hw : i_proc w = PWire (LVar p0) (EVar v0).
    Notation F := (to_in g0 p0 v0).
    Notation D' := (map F D ++ [w])%list.
    Notation st := {| p_design := D; p_moved := mv |}.
    Notation st' := {| p_design := D'; p_moved := mv |}.
    Lemma in_keeps_in : forall g p, p <> p0 -> p <> v0 -> joined_in H D g p -> joined_in H D' g p.
    Proof using Hw.
      intros g p Np Nv (it & e & Es & I & Eg & Ep & C & Ge). exists (F it), e. split; [|split; [|split; [|split]]]; auto.
      - unfold sources_of. rewrite statements_app. fold (sources_of (map F D) p). rewrite (sources_in g0 p0 v0 D p Np Nv), Es. rewrite (wire_statements _ w _ _ Hw). cbn [assigns_to lhs_var].
        destruct (Nat.eqb_spec p0 p); [congruence|]. rewrite app_nil_r. cbn [map]. unfold FS. cbn [fst snd to_stmt to_lhs]. destruct (Nat.eqb_spec p p0); [contradiction|]. now destruct (Nat.eqb (i_gen it) g0).
      - apply in_or_app. left. now apply in_map.
      - rewrite (md_gen _ _ _ _ _ (mild_in g0 p0 v0 it)). exact Eg.
      - rewrite (to_in_wire p0 v0 g0 it _ _ Ep). destruct (Nat.eqb (i_gen it) g0); [rewrite to_lhs_same by exact Np|]; reflexivity.
    Qed.
    Lemma in_keeps_out : forall g p, p <> p0 -> p <> v0 -> new p <> p0 -> new p <> v0 -> joined_out H new d0 st g p -> joined_out H new d0 st' g p.
    Proof using Hw Op.
      intros g p Np Nv Nnp Nnv J.
      assert (sinks_of D' p = map (FS g0 (to_stmt p0 v0) F) (sinks_of D p)) as Es.
      { unfold sinks_of. rewrite statements_app. fold (sinks_of (map F D) p). rewrite (sinks_in g0 p0 v0 D p). rewrite (wire_statements _ w _ _ Hw). cbn [stmt_sinks lhs_reads evars app]. 
        assert (mem p [v0] = false) as -> by (apply mem_false; intros [X|[]]; congruence). apply app_nil_r. }
      assert (filter (in_generator g) (sinks_of D' p) = map (FS g0 (to_stmt p0 v0) F) (filter (in_generator g) (sinks_of D p))) as Eg.
      { rewrite Es. apply filter_map_same. intros k _. unfold in_generator, FS. cbn [fst]. now rewrite (md_gen _ _ _ _ _ (mild_in g0 p0 v0 (fst k))). }
      assert (filter (recorded new p st') (sinks_of D' p) = map (FS g0 (to_stmt p0 v0) F) (filter (recorded new p st) (sinks_of D p))) as Er.
      { rewrite Es. apply filter_map_same. intros k _. unfold recorded, FS. cbn [fst p_moved]. destruct (mem p mv); [|reflexivity].
        destruct (i_proc (fst k)) as [l e|b|evs b] eqn:Ep.
        - rewrite (to_in_wire p0 v0 g0 _ _ _ Ep). destruct (Nat.eqb (i_gen (fst k)) g0); [|reflexivity]. destruct l as [x|x hi lo|x i wd]; cbn [to_lhs]; try (destruct (Nat.eqb x p0); reflexivity).
          destruct (Nat.eqb_spec x p0) as [->|N]; [|reflexivity]. destruct e; try reflexivity. destruct (Nat.eqb_spec v0 (new p)), (Nat.eqb_spec p0 (new p)); congruence.
        - unfold to_in. destruct (Nat.eqb (i_gen (fst k)) g0); cbn [to_item i_proc]; rewrite Ep; reflexivity.
        - unfold to_in. destruct (Nat.eqb (i_gen (fst k)) g0); cbn [to_item i_proc]; rewrite Ep; reflexivity. }
      destruct J as [(M & U & it & E & I & G0 & Ep)|[(M & U & E)|(M & U & it & x & E & I & G0 & Ep & Ox)]].
      - left. split; [exact M|]. split; [exact U|]. exists (F it). cbn [p_design] in *. rewrite Er, E. cbn [map]. unfold FS. cbn [fst snd to_stmt to_lhs]. destruct (Nat.eqb_spec (new p) p0); [contradiction|].
        split; [now destruct (Nat.eqb (i_gen it) g0)|]. split; [apply in_or_app; left; now apply in_map|]. split; [now rewrite (md_gen _ _ _ _ _ (mild_in g0 p0 v0 it))|].
        rewrite (to_in_wire p0 v0 g0 it _ _ Ep). destruct (Nat.eqb (i_gen it) g0); [rewrite to_lhs_same by exact Nnp|]; reflexivity.
      - right. left. cbn [p_design p_moved] in *. rewrite Eg, E. auto.
      - right. right. split; [exact M|]. split; [exact U|]. exists (F it), x. cbn [p_design] in *. rewrite Eg, E. cbn [map]. unfold FS. cbn [fst snd to_stmt].
        assert (i_gen it = g0 -> x <> p0) as Nx by (intros X ->; apply Op; congruence).
        split; [destruct (Nat.eqb_spec (i_gen it) g0) as [X|]; [rewrite (to_lhs_same p0 v0 (LVar x)) by (now apply Nx)|]; reflexivity|].
        split; [apply in_or_app; left; now apply in_map|]. split; [now rewrite (md_gen _ _ _ _ _ (mild_in g0 p0 v0 it))|]. split; [|exact Ox].
        rewrite (to_in_wire p0 v0 g0 it _ _ Ep). destruct (Nat.eqb_spec (i_gen it) g0) as [X|]; [rewrite to_lhs_same by (now apply Nx)|]; reflexivity.
    Qed.
  End StepIn.
  (* the uses of p0 -> v0, an output *)
  Section StepOut.
    Hypothesis Hw : i_proc w = PWire (LVar v0) (EVar p0).
    Hypothesis Ns : forall it s, In it D -> i_gen it = g0 -> inside s (body it) -> ~ stuck p0 s.
    Notation F := (move_item p0 v0 g0).
    Notation D' := (map F D ++ [w])%list.
    Notation st := {| p_design := D; p_moved := mv |}.
    Notation st' := {| p_design := D'; p_moved := p0 :: mv |}.
    Lemma out_keeps_in : forall g p, p <> p0 -> p <> v0 -> joined_in H D g p -> joined_in H D' g p.
    Proof using Hw Ns Op.
      intros g p Np Nv (it & e & Es & I & Eg & Ep & C & Ge).
      assert (i_gen it = g0 -> moved_right p0 v0 Blocking (LVar p) e = e) as Me.
      { intros X. apply moved_right_same; [intros []|]. intros J. subst g. destruct e as [y| | | | |y hi lo| |]; try (destruct C; fail).
        - cbn in J. destruct J as [->|[]]. cbn in Ge. apply Nat.eqb_eq in Ge. congruence.
        - destruct J.
        - apply (Ns it (SAssign Blocking (LVar p) (ESlice y hi lo)) I X); [rewrite Ep; apply inside_self|]. constructor; [now right|]. cbn [elsewhere]. intros R.
          assert (forall e z, root e = Some z -> gen_of H e = Some (h_owner H z)) as K by (clear; induction e; intros z R; cbn in *; try discriminate; [injection R as ->; reflexivity|auto]).
          unfold in_gen in Ge. rewrite (K _ _ R) in Ge. apply Nat.eqb_eq in Ge. congruence. }
      exists (F it), e. split; [|split; [|split; [|split]]]; auto.
      - unfold sources_of. rewrite statements_app. fold (sources_of (map F D) p). rewrite (sources_out g0 p0 v0 D p), Es. rewrite (wire_statements _ w _ _ Hw). cbn [assigns_to lhs_var].
        destruct (Nat.eqb_spec v0 p); [congruence|]. rewrite app_nil_r. cbn [map]. unfold FS. cbn [fst snd]. destruct (Nat.eqb_spec (i_gen it) g0); [|reflexivity]. rewrite ms_assign, Me by assumption. reflexivity.
      - apply in_or_app. left. now apply in_map.
      - rewrite (md_gen _ _ _ _ _ (mild_out g0 p0 v0 it)). exact Eg.
      - rewrite (move_wire p0 v0 g0 it _ _ Ep). destruct (Nat.eqb_spec (i_gen it) g0); [rewrite Me by assumption|]; reflexivity.
    Qed.
    Lemma out_keeps_out : forall g p, p <> p0 -> p <> v0 -> new p <> p0 -> new p <> v0 -> joined_out H new d0 st g p -> joined_out H new d0 st' g p.
    Proof using Hw.
      intros g p Np Nv Nnp Nnv J.
      assert (sinks_of D' p = map (FS g0 (move_stmt p0 v0) F) (sinks_of D p)) as Es.
      { unfold sinks_of. rewrite statements_app. fold (sinks_of (map F D) p). rewrite (sinks_out g0 p0 v0 D p Np Nv). rewrite (wire_statements _ w _ _ Hw). cbn [stmt_sinks lhs_reads evars app].
        assert (mem p [p0] = false) as -> by (apply mem_false; intros [X|[]]; congruence). apply app_nil_r. }
      assert (filter (in_generator g) (sinks_of D' p) = map (FS g0 (move_stmt p0 v0) F) (filter (in_generator g) (sinks_of D p))) as Eg.
      { rewrite Es. apply filter_map_same. intros k _. unfold in_generator, FS. cbn [fst]. now rewrite (md_gen _ _ _ _ _ (mild_out g0 p0 v0 (fst k))). }
      assert (mem p (p0 :: mv) = mem p mv) as Em by (apply mem_iff; cbn; split; [intros [X|X]; [congruence|exact X]|now right]).
      assert (filter (recorded new p st') (sinks_of D' p) = map (FS g0 (move_stmt p0 v0) F) (filter (recorded new p st) (sinks_of D p))) as Er.
      { rewrite Es. rewrite (filter_ext_in (recorded new p st') (recorded new p st)); [apply filter_map_same|].
        - intros k _. unfold recorded, FS. cbn [fst p_moved]. destruct (mem p mv); [|reflexivity].
          destruct (i_proc (fst k)) as [l e|b|evs b] eqn:Ep.
          + rewrite (move_wire p0 v0 g0 _ _ _ Ep). destruct (Nat.eqb (i_gen (fst k)) g0); [|reflexivity]. destruct l as [x|x hi lo|x i wd]; try reflexivity.
            unfold moved_right. destruct (uses p0 (SAssign Blocking (LVar x) e)); [|reflexivity].
            destruct (right p0 v0 e) eqn:Er; try (destruct e as [y| | | | | | |]; try reflexivity; unfold right, set_right in Er; destruct (Nat.eqb y p0); discriminate).
            apply right_var in Er. destruct Er as (y & -> & ->). destruct (Nat.eqb_spec y p0) as [->|]; [|reflexivity]. destruct (Nat.eqb_spec v0 p), (Nat.eqb_spec p0 p); try congruence.
          + unfold move_item. destruct (Nat.eqb (i_gen (fst k)) g0); cbn [i_proc]; rewrite Ep; reflexivity.
          + unfold move_item. destruct (Nat.eqb (i_gen (fst k)) g0); cbn [i_proc]; rewrite Ep; reflexivity.
        - intros k _. unfold recorded. cbn [p_moved]. now rewrite Em. }
      assert (forall l it, lhs_reads l = [] -> (if Nat.eqb (i_gen it) g0 then move_stmt p0 v0 (SAssign Blocking l (EVar p)) else SAssign Blocking l (EVar p)) = SAssign Blocking l (EVar p)) as Ms.
      { intros l it Er0. destruct (Nat.eqb (i_gen it) g0); [|reflexivity]. rewrite ms_assign, moved_right_same; [reflexivity|rewrite Er0; intros []|intros [X|[]]; congruence]. }
      assert (forall l it, lhs_reads l = [] -> i_proc it = PWire l (EVar p) -> i_proc (F it) = PWire l (EVar p)) as Mp.
      { intros l it Er0 Ep. rewrite (move_wire p0 v0 g0 it _ _ Ep). rewrite moved_right_same; [now destruct (Nat.eqb (i_gen it) g0)|rewrite Er0; intros []|intros [X|[]]; congruence]. }
      destruct J as [(M & U & it & E & I & G0 & Ep)|[(M & U & E)|(M & U & it & x & E & I & G0 & Ep & Ox)]]; cbn [p_design p_moved] in *.
      - left. split; [now right|]. split; [exact U|]. exists (F it). cbn [p_design]. rewrite Er, E. cbn [map]. unfold FS. cbn [fst snd]. split; [now rewrite Ms|].
        split; [apply in_or_app; left; now apply in_map|]. split; [now rewrite (md_gen _ _ _ _ _ (mild_out g0 p0 v0 it))|]. now apply Mp.
      - right. left. cbn [p_design p_moved]. rewrite Eg, E. split; [intros [X|X]; [congruence|contradiction]|auto].
      - right. right. split; [intros [X|X]; [congruence|contradiction]|]. split; [exact U|]. exists (F it), x. cbn [p_design]. rewrite Eg, E. cbn [map]. unfold FS. cbn [fst snd]. split; [now rewrite Ms|].
        split; [apply in_or_app; left; now apply in_map|]. split; [now rewrite (md_gen _ _ _ _ _ (mild_out g0 p0 v0 it))|]. split; [now apply Mp|exact Ox].
    Qed.
  End StepOut.
End Done.
