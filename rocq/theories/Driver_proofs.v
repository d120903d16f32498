(* Proofs about Driver_model. *)
From Coq Require Import Permutation.
From Verif Require Import Base IR IRSem_spec IR_lemmas IfCase_proofs Driver_spec Driver_model.
Local Open Scope Z_scope.

Lemma bits_in : forall lo hi b, In b (bits_between lo hi) <-> lo <= b <= hi.
Proof.
  intros lo hi b. unfold bits_between. rewrite in_map_iff. split.
  - intros (k & <- & K). apply in_seq in K. lia.
  - intros H. exists (Z.to_nat (b - lo)). split; [lia|]. apply in_seq. lia.
Qed.
Definition covers_d (d : drv) (b : Z) : Prop :=
  v_for d = false /\ exists lo hi, v_range d = Some (lo, hi) /\ lo <= b <= hi.

(* folding never recovers from a throw *)
Lemma bit_fold_ok : forall d l acc p, fold_left (bit_step d) l acc = Ok p -> exists p0, acc = Ok p0.
Proof.
  induction l as [|i l IH]; intros acc p H; [eauto|]. cbn [fold_left] in H. destruct (IH _ _ H) as [q E].
  unfold bit_step in E. destruct acc; [eauto|discriminate|discriminate].
Qed.
Lemma drv_fold_ok : forall l acc p, fold_left drv_step l acc = Ok p -> exists p0, acc = Ok p0.
Proof.
  induction l as [|d l IH]; intros acc p H; [eauto|]. cbn [fold_left] in H. destruct (IH _ _ H) as [q E].
  unfold drv_step in E. destruct (v_for d); [eauto|]. destruct (v_range d) as [[lo hi]|]; [|eauto].
  eapply bit_fold_ok; eauto.
Qed.
(* entries stay, and a driver is recorded or agrees with the entry *)
Lemma bit_fold : forall d l p0 p, fold_left (bit_step d) l (Ok p0) = Ok p ->
  (forall b r, p0 b = Some r -> p b = Some r)
  /\ (forall b r, p b = Some r -> p0 b = Some r \/ r = d)
  /\ (forall b, In b l -> exists r, p b = Some r /\ (r = d \/ conflict d r = false)).
Proof.
  induction l as [|i l IH]; intros p0 p H; cbn [fold_left] in H.
  - apply Ok_inj in H. subst. split; [auto|]. split; [auto|]. intros b [].
  - destruct (bit_fold_ok _ _ _ _ H) as [p1 E]. rewrite E in H. destruct (IH _ _ H) as (A & B & C).
    unfold bit_step in E. cbn [obind] in E. destruct (p0 i) as [r|] eqn:Ei.
    + destruct (conflict d r) eqn:Ec; [discriminate|]. apply Ok_inj in E. subst p1.
      split; [exact A|]. split; [exact B|]. intros b [->|I]; [|auto]. exists r. auto.
    + apply Ok_inj in E. subst p1. split; [|split].
      * intros b r Q. apply A. destruct (Z.eqb_spec b i) as [->|]; [congruence|exact Q].
      * intros b r Q. destruct (B b r Q) as [K|K]; [|auto]. destruct (b =? i); [inversion K; auto|auto].
      * intros b [->|I]; [|auto]. exists d. split; [|auto]. apply A. rewrite Z.eqb_refl. reflexivity.
Qed.
Lemma drv_fold : forall l p0 p, fold_left drv_step l (Ok p0) = Ok p ->
  (forall b r, p0 b = Some r -> p b = Some r)
  /\ (forall b r, p b = Some r -> p0 b = Some r \/ In r l)
  /\ (forall d b, In d l -> covers_d d b -> exists r, p b = Some r /\ (r = d \/ conflict d r = false)).
Proof.
  induction l as [|d l IH]; intros p0 p H; cbn [fold_left] in H.
  - apply Ok_inj in H. subst. split; [auto|]. split; [auto|]. intros d b [].
  - destruct (drv_fold_ok _ _ _ H) as [p1 E]. rewrite E in H. destruct (IH _ _ H) as (A & B & C).
    unfold drv_step in E. destruct (v_for d) eqn:Fd.
    { apply Ok_inj in E. subst p1. split; [exact A|]. split.
      - intros b r Q. destruct (B b r Q); auto. right. right. assumption.
      - intros d' b [->|I] Cv; [destruct Cv; congruence|]. exact (C d' b I Cv). }
    destruct (v_range d) as [[lo hi]|] eqn:Rd.
    2:{ apply Ok_inj in E. subst p1. split; [exact A|]. split.
      - intros b r Q. destruct (B b r Q); auto. right. right. assumption.
      - intros d' b [->|I] Cv; [destruct Cv as (_ & ? & ? & ? & _); congruence|]. exact (C d' b I Cv). }
    destruct (bit_fold _ _ _ _ E) as (A1 & B1 & C1). split; [|split].
    + auto.
    + intros b r Q. destruct (B b r Q) as [K|K]; [|right; right; exact K].
      destruct (B1 b r K) as [K1| ->]; [auto|]. right. left. reflexivity.
    + intros d' b [->|I] Cv; [|exact (C d' b I Cv)].
      destruct Cv as (_ & lo' & hi' & Q & R). rewrite Rd in Q. inversion Q; subst.
      destruct (C1 b (proj2 (bits_in _ _ _) R)) as (r & K1 & K2). exists r. auto.
Qed.
Lemma check_ref : forall srcs, check_var srcs = Ok tt ->
  forall b, (exists d, In d srcs /\ covers_d d b) ->
  exists r, In r srcs /\ forall d, In d srcs -> covers_d d b -> r = d \/ conflict d r = false.
Proof.
  intros srcs H b (d0 & I0 & C0). unfold check_var in H. apply obind_Ok in H as (p & E & _).
  destruct (drv_fold _ _ _ E) as (_ & B & C). destruct (C d0 b I0 C0) as (r & Q & _).
  exists r. split; [destruct (B b r Q) as [K|K]; [discriminate|exact K]|].
  intros d I Cv. destruct (C d b I Cv) as (r' & Q' & K). assert (r' = r) as <- by congruence. exact K.
Qed.
Lemma conflict_root : forall d r, conflict d r = false -> v_root d = v_root r.
Proof.
  intros d r H. unfold conflict in H. destruct (Nat.eqb_spec (v_root d) (v_root r)); [assumption|discriminate].
Qed.
Lemma same_root : forall srcs, check_var srcs = Ok tt ->
  forall b d1 d2, In d1 srcs -> In d2 srcs -> covers_d d1 b -> covers_d d2 b -> v_root d1 = v_root d2.
Proof.
  intros srcs H b d1 d2 I1 I2 C1 C2. destruct (check_ref srcs H b) as (r & _ & K); [eauto|].
  assert (forall d, In d srcs -> covers_d d b -> v_root d = v_root r) as R.
  { intros d I C. destruct (K d I C) as [->|Q]; [reflexivity|]. apply conflict_root, Q. }
  rewrite (R d1 I1 C1), (R d2 I2 C2). reflexivity.
Qed.
(* two assignments in one scope, in a clocked process *)
Lemma same_scope : forall srcs, check_var srcs = Ok tt ->
  forall b d1 d2, In d1 srcs -> In d2 srcs -> covers_d d1 b -> covers_d d2 b ->
  v_path d1 = v_path d2 -> v_kind d1 = TSeq -> v_kind d2 = TSeq -> d1 = d2 \/
  exists r, In r srcs /\ v_root r = v_root d1 /\ v_path r <> v_path d1 /\ share_root (v_path d1) (v_path r) = true.
Proof.
  intros srcs H b d1 d2 I1 I2 C1 C2 P K1 K2. destruct (check_ref srcs H b) as (r & Ir & K); [eauto|].
  destruct (K d1 I1 C1) as [Q1|Q1], (K d2 I2 C2) as [Q2|Q2].
  - left. congruence.
  - subst r. exfalso. unfold conflict in Q2. rewrite K2 in Q2. destruct (negb _); [discriminate|].
    unfold same_path in Q2. destruct (list_eq_dec Nat.eq_dec (v_path d2) (v_path d1)); [discriminate|congruence].
  - subst r. exfalso. unfold conflict in Q1. rewrite K1 in Q1. destruct (negb _); [discriminate|].
    unfold same_path in Q1. destruct (list_eq_dec Nat.eq_dec (v_path d1) (v_path d2)); [discriminate|congruence].
  - right. exists r. split; [exact Ir|]. pose proof (conflict_root _ _ Q1) as Rt. split; [auto|].
    unfold conflict in Q1. rewrite K1 in Q1. destruct (negb (Nat.eqb _ _)); [discriminate|].
    unfold same_path in Q1. destruct (list_eq_dec Nat.eq_dec (v_path d1) (v_path r)); [discriminate|].
    split; [congruence|]. apply negb_false_iff in Q1. exact Q1.
Qed.

(* ---- the collected drivers ---- *)
Section Collect.
  Variables (G : tenv) (x : var) (root : nat) (kind : tkind).
  Notation drvs := (drvs G x root kind).
  Notation drvs_block := (drvs_block G x root kind).
  Notation drvs_cases := (drvs_cases G x root kind).
  Lemma drvs_if : forall c t f n p b, drvs (SIf c t f) n p b =
    drvs_block t 0 (p ++ [n; 0%nat]) b ++ drvs_block f 0 (p ++ [n; 1%nat]) b.
  Proof. reflexivity. Qed.
  Lemma drvs_switch : forall e cs d n p b, drvs (SSwitch e cs d) n p b =
    (match d with None => [] | Some x => drvs_block x 0 (p ++ [n; 0%nat]) b end) ++ drvs_cases cs 1 n p b.
  Proof.
    intros e cs d n p b.
    assert (forall j, (fix goc (l : list (Z * list stmt)) (j : nat) : list drv :=
              match l with
              | [] => []
              | cb :: r => drvs_block (snd cb) 0 (p ++ [n; j]) b ++ goc r (S j)
              end) cs j = drvs_cases cs j n p b) as H.
    { induction cs as [|cb cs IH]; intros j; [reflexivity|].
      cbn [Driver_model.drvs_cases]. rewrite <- IH. reflexivity. }
    rewrite <- H. destruct d; reflexivity.
  Qed.
  Lemma drvs_in_block : forall s l n p b d, In s l -> (forall m, In (d m) (drvs s m p b)) ->
    exists m, In (d m) (drvs_block l n p b).
  Proof.
    intros s l n p b d I H. revert n. induction l as [|a l IH]; intros n; [destruct I|].
    cbn [Driver_model.drvs_block]. destruct I as [->|I].
    - exists n. apply in_app_iff. left. apply H.
    - destruct (IH I (S n)) as [m K]. exists m. apply in_app_iff. auto.
  Qed.
  Lemma drvs_in_case : forall k bd cs n p b (Q : drv -> Prop), In (k, bd) cs ->
    (forall p', exists d, Q d /\ In d (drvs_block bd 0 p' b)) ->
    forall j, exists d, Q d /\ In d (drvs_cases cs j n p b).
  Proof.
    intros k bd cs n p b Q I H. induction cs as [|cb cs IH]; intros j; [destruct I|].
    cbn [Driver_model.drvs_cases]. destruct I as [->|I].
    - destruct (H (p ++ [n; j])) as (d & K1 & K2). exists d. split; [exact K1|]. apply in_app_iff. auto.
    - destruct (IH I (S j)) as (d & K1 & K2). exists d. split; [exact K1|]. apply in_app_iff. auto.
  Qed.
  Lemma ex_block : forall s l b (Q : drv -> Prop), In s l ->
    (forall n p, exists d, Q d /\ In d (drvs s n p b)) -> forall n p, exists d, Q d /\ In d (drvs_block l n p b).
  Proof.
    intros s l b Q I H. induction l as [|a l IH]; intros n p; [destruct I|]. cbn [Driver_model.drvs_block].
    destruct I as [->|I].
    - destruct (H n p) as (d & K1 & K2). exists d. split; [exact K1|]. apply in_app_iff. auto.
    - destruct (IH I (S n) p) as (d & K1 & K2). exists d. split; [exact K1|]. apply in_app_iff. auto.
  Qed.
  Lemma placed_drv : forall k l e body b, placed (SAssign k l e) body -> covers G l x b ->
    forall n p, exists d, (v_root d = root /\ covers_d d b) /\ In d (drvs_block body n p false).
  Proof.
    intros k l e body b H C.
    induction H as [bd I|bd c t f I _ IH|bd c t f I _ IH|bd e0 cs d k0 bb I Ic _ IH|bd e0 cs bb I _ IH|bd bb I _ IH];
      eapply ex_block; try eassumption; intros n p.
    - cbn [Driver_model.drvs]. destruct l as [y|y hi lo|y i w]; cbn in C; [| |contradiction];
        destruct C as [-> C]; cbn [lhs_var]; rewrite Nat.eqb_refl; eexists; (split; [|left; reflexivity]);
        (split; [reflexivity|]); (split; [reflexivity|]); cbn; do 2 eexists; (split; [reflexivity|lia]).
    - rewrite drvs_if. destruct (IH 0%nat (p ++ [n; 0%nat])) as (d & K1 & K2). exists d. split; [exact K1|].
      apply in_app_iff. auto.
    - rewrite drvs_if. destruct (IH 0%nat (p ++ [n; 1%nat])) as (d & K1 & K2). exists d. split; [exact K1|].
      apply in_app_iff. auto.
    - rewrite drvs_switch.
      destruct (drvs_in_case k0 bb cs n p false (fun d => v_root d = root /\ covers_d d b) Ic (IH 0%nat) 1%nat)
        as (d' & K1 & K2). exists d'. split; [exact K1|]. apply in_app_iff. auto.
    - rewrite drvs_switch. destruct (IH 0%nat (p ++ [n; 0%nat])) as (d & K1 & K2). exists d. split; [exact K1|].
      apply in_app_iff. auto.
    - change (drvs (SBlock bb) n p false) with (drvs_block bb 0 (p ++ [n]) false). apply IH.
  Qed.
End Collect.
Lemma drivers_nth : forall G x m i k b j, nth_error m i = Some (k, b) ->
  incl (drvs_block G x (j + i)%nat k b 0 [] false) (drivers_from G x m j).
Proof.
  induction m as [|[k0 b0] m IH]; intros i k b j H; [destruct i; discriminate|].
  destruct i as [|i]; cbn [nth_error drivers_from] in *.
  - inversion H; subst. rewrite Nat.add_0_r. apply incl_appl, incl_refl.
  - apply incl_appr. replace (j + S i)%nat with (S j + i)%nat by lia. apply IH, H.
Qed.
Lemma drives_in : forall G x m i k body b, nth_error m i = Some (k, body) -> drives G x b body ->
  exists d, v_root d = i /\ covers_d d b /\ In d (drivers G x m).
Proof.
  intros G x m i k body b H (kk & l & e & P & C).
  destruct (placed_drv G x i k kk l e body b P C 0%nat []) as (d & [K1 K2] & K3).
  exists d. split; [exact K1|]. split; [exact K2|]. apply (drivers_nth G x m i k body 0 H). exact K3.
Qed.

(* ---- when the check accepts ---- *)
Lemma bit_fold_accepts : forall d l p0,
  NoDup l -> (forall b r, In b l -> p0 b = Some r -> conflict d r = false) ->
  exists p, fold_left (bit_step d) l (Ok p0) = Ok p.
Proof.
  induction l as [|i l IH]; intros p0 N H; [eexists; reflexivity|]. apply NoDup_cons_iff in N as [N1 N2].
  cbn [fold_left]. unfold bit_step at 2. cbn [obind]. destruct (p0 i) as [r|] eqn:E.
  - rewrite (H i r (or_introl eq_refl) E). apply IH; [exact N2|]. intros b r' I. apply H. right. exact I.
  - apply IH; [exact N2|]. intros b r I Q. destruct (Z.eqb_spec b i) as [->|]; [contradiction|].
    eapply H; eauto. right. exact I.
Qed.
Lemma bits_nodup : forall lo hi, NoDup (bits_between lo hi).
Proof.
  intros lo hi. unfold bits_between. apply FinFun.Injective_map_NoDup; [|apply seq_NoDup].
  intros a b H. lia.
Qed.
Lemma drv_fold_accepts : forall l p0,
  (forall d1 d2, In d1 l -> In d2 l -> conflict d1 d2 = false) ->
  (forall d b r, In d l -> p0 b = Some r -> conflict d r = false) ->
  exists p, fold_left drv_step l (Ok p0) = Ok p.
Proof.
  induction l as [|d l IH]; intros p0 H1 H2; [eexists; reflexivity|]. cbn [fold_left]. unfold drv_step at 2.
  assert (exists p, fold_left drv_step l (Ok p0) = Ok p) as K.
  { apply IH; intros; [apply H1|eapply H2; eauto]; try (right; assumption). }
  destruct (v_for d); [exact K|]. destruct (v_range d) as [[lo hi]|]; [|exact K].
  destruct (bit_fold_accepts d (bits_between lo hi) p0 (bits_nodup lo hi)) as [p1 E].
  { intros b r _ Q. eapply H2; eauto. left. reflexivity. }
  rewrite E. destruct (bit_fold _ _ _ _ E) as (_ & B & _). apply IH.
  - intros. apply H1; right; assumption.
  - intros d' b r I Q. destruct (B b r Q) as [Q1| ->].
    + eapply H2; eauto. right. exact I.
    + apply H1; [right; exact I|left; reflexivity].
Qed.
Lemma drv_single : forall d, exists p, fold_left drv_step [d] (Ok (fun _ => None)) = Ok p.
Proof.
  intros d. cbn [fold_left]. unfold drv_step. destruct (v_for d); [eauto|].
  destruct (v_range d) as [[lo hi]|]; [|eauto]. apply bit_fold_accepts; [apply bits_nodup|discriminate].
Qed.

(* every collected driver comes from an assignment to x *)
Section From.
  Variables (G : tenv) (x : var) (root : nat) (kind : tkind).
  Definition from_ok (d : drv) (body : list stmt) : Prop :=
    v_root d = root /\ v_kind d = kind /\ exists k l e, inside (SAssign k l e) body /\ lhs_var l = x.
  Lemma from_block : forall l, Forall (fun s => forall n p b d, In d (drvs G x root kind s n p b) -> from_ok d [s]) l ->
    forall n p b d, In d (drvs_block G x root kind l n p b) -> from_ok d l.
  Proof.
    induction l as [|s l IH]; intros H n p b d I; [destruct I|]. apply Forall_cons_iff in H as [H1 H2].
    cbn [drvs_block] in I. apply in_app_iff in I as [I|I].
    - destruct (H1 _ _ _ _ I) as (A & B & k & l' & e & C & D). split; [exact A|]. split; [exact B|].
      exists k, l', e. split; [|exact D]. eapply inside_elem; [|exact C]. left. reflexivity.
    - destruct (IH H2 _ _ _ _ I) as (A & B & k & l' & e & C & D). split; [exact A|]. split; [exact B|].
      exists k, l', e. split; [|exact D]. eapply inside_mono; [exact C|]. intros y Hy. right. exact Hy.
  Qed.
  Lemma from_cases : forall cs, Forall (fun cb => Forall (fun s => forall n p b d, In d (drvs G x root kind s n p b) -> from_ok d [s]) (snd cb)) cs ->
    forall j n p b d, In d (drvs_cases G x root kind cs j n p b) -> exists cb, In cb cs /\ from_ok d (snd cb).
  Proof.
    induction cs as [|cb cs IH]; intros H j n p b d I; [destruct I|]. apply Forall_cons_iff in H as [H1 H2].
    cbn [drvs_cases] in I. apply in_app_iff in I as [I|I].
    - exists cb. split; [left; reflexivity|]. eapply from_block; eauto.
    - destruct (IH H2 _ _ _ _ _ I) as (c' & A & B). exists c'. split; [right; exact A|exact B].
  Qed.
  Lemma from_all : forall s n p b d, In d (drvs G x root kind s n p b) -> from_ok d [s].
  Proof.
    induction s using stmt_ind'; intros n p bb d' I; try (destruct I; fail).
    - cbn [drvs] in I. destruct (Nat.eqb_spec (lhs_var l) x) as [E|]; [|destruct I]. destruct I as [<-|[]].
      split; [reflexivity|]. split; [reflexivity|]. do 3 eexists. split; [apply inside_self|exact E].
    - rewrite drvs_if in I. apply in_app_iff in I as [I|I]; eapply from_block in I; eauto;
        destruct I as (A & B & k & l' & e & C & D); (split; [exact A|]); (split; [exact B|]); exists k, l', e;
        (split; [|exact D]); [eapply in_then|eapply in_else]; try (left; reflexivity); exact C.
    - rewrite drvs_switch in I. apply in_app_iff in I as [I|I].
      + destruct d as [bd|]; [|destruct I]. eapply from_block in I; eauto.
        destruct I as (A & B & k & l' & e' & C & D). (split; [exact A|]); (split; [exact B|]); exists k, l', e'.
        split; [|exact D]. eapply in_default; [left; reflexivity|exact C].
      + eapply from_cases in I; eauto. destruct I as ([kk bd] & Ic & A & B & k & l' & e' & C & D).
        (split; [exact A|]); (split; [exact B|]); exists k, l', e'.
        split; [|exact D]. eapply in_case; [left; reflexivity|exact Ic|exact C].
    - change (In d' (drvs_block G x root kind body 0 (p ++ [n; 0%nat]) true)) in I. eapply from_block in I; eauto.
      destruct I as (A & B & k & l' & e' & C & D). (split; [exact A|]); (split; [exact B|]); exists k, l', e'.
      split; [|exact D]. eapply in_for; [left; reflexivity|exact C].
    - change (In d' (drvs_block G x root kind body 0 (p ++ [n]) bb)) in I. eapply from_block in I; eauto.
      destruct I as (A & B & k & l' & e' & C & D). (split; [exact A|]); (split; [exact B|]); exists k, l', e'.
      split; [|exact D]. eapply in_block; [left; reflexivity|exact C].
  Qed.
End From.
Lemma drivers_from_ok : forall G x m j d, In d (drivers_from G x m j) ->
  exists i k body, nth_error m i = Some (k, body) /\ v_root d = (j + i)%nat /\ v_kind d = k
    /\ exists kk l e, inside (SAssign kk l e) body /\ lhs_var l = x.
Proof.
  induction m as [|[k b] m IH]; intros j d I; [destruct I|]. cbn [drivers_from] in I.
  apply in_app_iff in I as [I|I].
  - eapply from_block in I; [|apply Forall_forall; intros; eapply from_all; eauto].
    destruct I as (A & B & C). exists 0%nat, k, b. rewrite Nat.add_0_r. auto.
  - destruct (IH _ _ I) as (i & k' & b' & A & B & C & D). exists (S i), k', b'.
    split; [exact A|]. split; [lia|]. auto.
Qed.
