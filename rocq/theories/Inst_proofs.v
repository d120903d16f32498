From Verif Require Import Base SV_spec IR IRSem_spec IR_lemmas IfCase_proofs IR_frame Flow_spec Flow_proofs Design_spec Design_proofs Dce_spec Dce_model Dce_proofs
  Fan_spec Fan_model Retarget_proofs Fan_proofs Tie_model Tie_proofs Tie_props Move_spec Move_model Move_proofs Move_props Pass_spec Pass_proofs Inline_spec Inline_model Inline_proofs
  Inst_spec Inst_model.
Local Open Scope Z_scope.

Record legal (G : tenv) (H : hierarchy) (new : var -> var) (cs : list nat) (d : design) : Prop := { lg_sound : sound G H new cs d; lg_in : drives_only H cs d }.
Definition lg_good G H new cs d (L : legal G H new cs d) := sd_good _ _ _ _ _ (lg_sound _ _ _ _ _ L).
Definition lg_once G H new cs d (L : legal G H new cs d) := sd_once _ _ _ _ _ (lg_sound _ _ _ _ _ L).
Definition lg_ports G H new cs d (L : legal G H new cs d) := sd_ports _ _ _ _ _ (lg_sound _ _ _ _ _ L).
Definition lg_new G H new cs d (L : legal G H new cs d) := sd_new _ _ _ _ _ (lg_sound _ _ _ _ _ L).
Definition lg_apart G H new cs d (L : legal G H new cs d) := sd_apart _ _ _ _ _ (lg_sound _ _ _ _ _ L).
Definition lg_made G H new cs d (L : legal G H new cs d) := sd_made _ _ _ _ _ (lg_sound _ _ _ _ _ L).
Definition lg_out G H new cs d (L : legal G H new cs d) := sd_out _ _ _ _ _ (lg_sound _ _ _ _ _ L).
Definition lg_moves G H new cs d (L : legal G H new cs d) := sd_moves _ _ _ _ _ (lg_sound _ _ _ _ _ L).

(* ---- histories depend on the processes, and for clocked ones on their order ---- *)
Definition on_clock (it : item) : bool := match events_of (i_proc it) with [] => false | _ => true end.
Lemma fired_on_clock : forall G d r r', flat_map (fun it => queued G it r) (fired G d r r') = flat_map (fun it => queued G it r) (fired G (filter on_clock d) r r').
Proof.
  intros G d r r'. unfold fired. induction d as [|it l IH]; [reflexivity|]. cbn [filter]. destruct (on_clock it) eqn:E.
  - cbn [filter]. destruct (existsb (edge G r r') (events_of (i_proc it))); cbn [flat_map]; rewrite IH; reflexivity.
  - unfold on_clock in E. destruct (events_of (i_proc it)); [exact IH|discriminate].
Qed.
Lemma queue_procs : forall G r r' d d', map i_proc d = map i_proc d' -> flat_map (fun it => queued G it r) (fired G d r r') = flat_map (fun it => queued G it r) (fired G d' r r').
Proof.
  intros G r r' d. unfold fired. induction d as [|it l IH]; intros [|it' l'] E; try discriminate; [reflexivity|]. cbn [map] in E. injection E as E1 E2. cbn [filter]. rewrite <- E1.
  destruct (existsb (edge G r r') (events_of (i_proc it))); cbn [flat_map]; rewrite (IH l' E2); [|reflexivity]. unfold queued. now rewrite E1.
Qed.
Section Same.
  Variables (G : tenv) (d d' : design).
  Hypothesis HW : forall p, events_of p = [] -> In p (map i_proc d) <-> In p (map i_proc d').
  Hypothesis HC : map i_proc (filter on_clock d) = map i_proc (filter on_clock d').
  Lemma same_settled : forall r, settled G d r <-> settled G d' r.
  Proof.
    intros r. split; intros S0 it I E x.
    - assert (In (i_proc it) (map i_proc d)) as J by (apply (HW _ E); now apply in_map). apply in_map_iff in J. destruct J as (it0 & E0 & J). rewrite <- E0. apply (S0 it0 J). now rewrite E0.
    - assert (In (i_proc it) (map i_proc d')) as J by (apply (HW _ E); now apply in_map). apply in_map_iff in J. destruct J as (it0 & E0 & J). rewrite <- E0. apply (S0 it0 J). now rewrite E0.
  Qed.
  Lemma clocked_procs : forall D x, clocked D x <-> exists p, In p (map i_proc (filter on_clock D)) /\ assigns x (body_of p).
  Proof using.
    clear. intros D x. split.
    - intros (it & I & E & A). exists (i_proc it). split; [|exact A]. apply in_map, filter_In. split; [exact I|]. unfold on_clock. destruct (events_of (i_proc it)); congruence.
    - intros (p & I & A). apply in_map_iff in I. destruct I as (it & <- & I). apply filter_In in I. destruct I as [I C]. exists it. split; [exact I|]. split; [|exact A]. unfold on_clock in C. destruct (events_of (i_proc it)); congruence.
  Qed.
  Lemma same_next : forall r r', next G d r r' <-> next G d' r r'.
  Proof.
    intros r r'. unfold next. rewrite (same_settled r'), (fired_on_clock G d), (fired_on_clock G d'), (queue_procs G r r' _ _ HC). apply and_iff_compat_l.
    split; intros N x C; apply N; apply clocked_procs; [rewrite HC|rewrite <- HC]; now apply clocked_procs.
  Qed.
  Lemma same_history : forall h, history G d h <-> history G d' h.
  Proof.
    intros h. split; intros Hh; (induction Hh as [r S0|r r' l Hh IH N]; [apply h_first; now apply same_settled|apply h_next; [exact IH|now apply same_next]]).
  Qed.
End Same.

(* ---- a wire ---- *)
Lemma wire_history : forall G i g x y d h, x <> y -> G x = G y -> Forall (in_range G) h ->
  history G (d ++ [give i g y (EVar x)]) h <-> history G d h /\ Forall (fun r => r y = r x) h.
Proof.
  intros G i g x y d h Nxy HG R. set (w := give i g y (EVar x)).
  assert (forall r, in_range G r -> settled G (d ++ [w]) r <-> settled G d r /\ r y = r x) as S1.
  { intros r Rr. split.
    - intros S0. split; [intros it I; apply S0; apply in_or_app; now left|]. apply (proj1 (wire_eq G x y r Rr HG)). refine (S0 w _ eq_refl y). apply in_or_app. right. now left.
    - intros [S0 E] it I Ev. apply in_app_or in I. destruct I as [I|[<-|[]]]; [now apply S0|]. intros z. destruct (Nat.eq_dec z y) as [->|N]; [now apply (wire_eq G x y r Rr HG)|].
      unfold w. cbn [give i_proc body_of]. rewrite wire_activate. destruct (Nat.eqb_spec z y); [contradiction|reflexivity]. }
  assert (forall r r', fired G (d ++ [w]) r r' = fired G d r r') as F1 by (intros; unfold fired; rewrite filter_app; cbn; apply app_nil_r).
  assert (forall z, clocked (d ++ [w]) z <-> clocked d z) as C1.
  { intros z. split; intros (it & I & E & A); [|exists it; split; [apply in_or_app; now left|auto]]. apply in_app_or in I. destruct I as [I|[<-|[]]]; [exists it; auto|]. now exfalso; apply E. }
  assert (forall r r', in_range G r' -> next G (d ++ [w]) r r' <-> next G d r r' /\ r' y = r' x) as N1.
  { intros r r' R'. unfold next. rewrite (S1 r' R'), F1. split.
    - intros [[A B] C]. split; [split; [exact A|]|exact B]. intros z Cz. apply C. now apply C1.
    - intros [[A C] B]. split; [auto|]. intros z Cz. apply C. now apply C1. }
  split.
  - intros Hh. remember (d ++ [w])%list as D eqn:ED. induction Hh as [r S0|r r' l Hh IH N]; inversion R as [|? ? R1 R2]; subst.
    + apply S1 in S0; [|exact R1]. destruct S0 as [S0 E]. split; [now apply h_first|auto].
    + apply N1 in N; [|exact R1]. destruct N as [N E]. destruct (IH R2) as [A B]. split; [now apply h_next|constructor; auto].
  - intros [Hh F]. induction Hh as [r S0|r r' l Hh IH N]; inversion R as [|? ? R1 R2]; subst; inversion F as [|? ? F1' F2]; subst.
    + apply h_first. now apply S1.
    + apply h_next; [now apply IH|]. now apply N1.
Qed.

(* a design with additional variables *)
Definition extends (G : tenv) (hid : var -> Prop) (d d' : design) : Prop :=
  (forall h, Forall (in_range G) h -> history G d h -> exists h', Forall (in_range G) h' /\ history G d' h' /\ Forall2 (fun r r' => forall x, ~ hid x -> r x = r' x) h h') /\
  (forall h', Forall (in_range G) h' -> history G d' h' -> history G d h').
Lemma agree_refl : forall (hid : var -> Prop) (h : list venv), Forall2 (fun r r' => forall x, ~ hid x -> r x = r' x) h h.
Proof. intros hid. induction h; constructor; auto. Qed.
Lemma agree_trans : forall (hid : var -> Prop) (h1 h2 h3 : list venv), Forall2 (fun r r' => forall x, ~ hid x -> r x = r' x) h1 h2 ->
  Forall2 (fun r r' => forall x, ~ hid x -> r x = r' x) h2 h3 -> Forall2 (fun r r' => forall x, ~ hid x -> r x = r' x) h1 h3.
Proof.
  intros hid. induction h1 as [|r1 h1 IH]; intros h2 h3 A B; inversion A; subst; inversion B; subst; constructor; [|now apply (IH l')].
  intros x N. rewrite H1 by exact N. now apply H2.
Qed.
Lemma extends_refl : forall G hid d, extends G hid d d.
Proof. intros G hid d. split; [|auto]. intros h R Hh. exists h. split; [exact R|]. split; [exact Hh|apply agree_refl]. Qed.
Lemma extends_trans : forall G hid d1 d2 d3, extends G hid d1 d2 -> extends G hid d2 d3 -> extends G hid d1 d3.
Proof.
  intros G hid d1 d2 d3 [A1 B1] [A2 B2]. split; [|auto]. intros h R Hh. destruct (A1 h R Hh) as (h2 & R2 & H2 & F2). destruct (A2 h2 R2 H2) as (h3 & R3 & H3 & F3).
  exists h3. split; [exact R3|]. split; [exact H3|]. now apply (agree_trans hid h h2 h3).
Qed.
Lemma extends_same : forall G hid d d' d'', extends G hid d d' -> (forall h, history G d' h <-> history G d'' h) -> extends G hid d d''.
Proof. intros G hid d d' d'' [A B] E. split; [|intros h R Hh; apply B; [exact R|now apply E]]. intros h R Hh. destruct (A h R Hh) as (h' & R' & H' & F). exists h'. split; [exact R'|]. split; [now apply E|exact F]. Qed.

(* ---- the two steps ---- *)
Section Two.
  Variables (G : tenv) (d : design) (g : nat) (p v : var) (hid : var -> Prop).
  Hypothesis Npv : p <> v.
  Hypothesis HG : G p = G v.
  Hypothesis Hv : forall it, In it d -> ~ reads v (body it) /\ ~ touches v (body it) /\ ~ In v (map snd (events_of (i_proc it))).
  Hypothesis Hh : hid v.
  Definition give_v (r : venv) : venv := fun x => if Nat.eqb x v then r p else r x.
  Lemma give_v_p : forall r, give_v r v = give_v r p.
  Proof using Npv. clear - Npv. intros r. unfold give_v. rewrite Nat.eqb_refl. destruct (Nat.eqb_spec p v); congruence. Qed.
  Lemma give_range : forall h, Forall (in_range G) h -> Forall (in_range G) (map give_v h).
  Proof using HG.
    clear - HG. intros h R. induction R as [|r l R1 _ IH]; constructor; [|exact IH]. intros x. unfold give_v. destruct (Nat.eqb_spec x v) as [->|]; [rewrite <- HG; apply R1|apply R1].
  Qed.
  Lemma give_history : forall h, history G d h -> history G d (map give_v h).
  Proof using Hv.
    clear - Hv. apply (hide_history G d (fun x => Nat.eqb x v) give_v).
    - intros x it E I. apply Nat.eqb_eq in E. subst x. split; apply (Hv it I).
    - intros x E (it & e & I & Ie & Es). apply Nat.eqb_eq in E. subst x. apply (Hv it I). rewrite <- Es. now apply in_map.
    - intros r x E. unfold give_v. now rewrite E.
  Qed.
  Lemma give_eq : forall h, Forall (fun r => r v = r p) (map give_v h).
  Proof using Npv. clear - Npv. induction h; constructor; [apply give_v_p|assumption]. Qed.
  Lemma give_agree : forall h, Forall2 (fun r r' => forall x, ~ hid x -> r x = r' x) h (map give_v h).
  Proof using Hh.
    clear - Hh. induction h as [|r l IH]; constructor; [|exact IH]. intros x N. unfold give_v. destruct (Nat.eqb_spec x v) as [->|]; [contradiction|reflexivity].
  Qed.
  Hypothesis Hin : forall it, In it d -> (touches p (body it) -> i_gen it = g /\ ~ reads p (body it)) /\ ~ loops_over p (body it).
  Lemma step_in : extends G hid d (move_src p v g d).
  Proof.
    assert (forall h, Forall (fun r => r p = r v) h -> history G d h <-> history G (map (to_in g p v) d) h) as K.
    { apply (out_history G d g p v Npv HG).
      - intros it I. destruct (Hin it I) as [A B]. split; [intros T; exact (proj2 (A T))|]. split; [apply (Hv it I)|]. split; [intros T; exact (proj1 (A T))|exact B].
      - intros it I R. exfalso. exact (proj1 (Hv it I) R). }
    split.
    - intros h R Hi. exists (map give_v h). split; [now apply give_range|]. split; [|apply give_agree].
      apply (wire_history G (fresh d) g v p); [congruence|now symmetry|now apply give_range|]. split.
      + apply K; [|now apply give_history]. eapply Forall_impl; [|apply give_eq]. intros r E. now symmetry.
      + eapply Forall_impl; [|apply give_eq]. intros r E. now symmetry.
    - intros h R Hi. apply (wire_history G (fresh d) g v p) in Hi; [|congruence|now symmetry|exact R]. destruct Hi as [Hi E]. now apply K.
  Qed.
End Two.
Section TwoOut.
  Variables (G : tenv) (d d' : design) (g : nat) (p v : var) (hid : var -> Prop).
  Hypothesis Npv : p <> v.
  Hypothesis HG : G p = G v.
  Hypothesis Hv : forall it, In it d -> ~ reads v (body it) /\ ~ touches v (body it) /\ ~ In v (map snd (events_of (i_proc it))).
  Hypothesis Hh : hid v.
  Hypothesis Hout : forall it, In it d -> i_gen it = g -> ~ touches p (body it).
  Hypothesis Hm : move_sinks p v g true d = Ok d'.
  Lemma step_out : extends G hid d d'.
  Proof.
    assert (forall h, Forall (in_range G) h -> history G (d ++ [give (fresh d) g v (EVar p)]) h <-> history G d' h) as K.
    { apply (C175_same_histories G p v g d d' Npv HG); [|exact Hm]. intros it I Eg _. split; intros C; apply changes_touches in C; [exact (Hout it I Eg C)|exact (proj1 (proj2 (Hv it I)) C)]. }
    split.
    - intros h R Hi. exists (map (give_v p v) h). pose proof (give_range G p v HG h R) as R'. split; [exact R'|]. split; [|now apply give_agree]. apply K; [exact R'|].
      apply (wire_history G (fresh d) g p v); [exact Npv|exact HG|exact R'|]. split; [now apply give_history|now apply give_eq].
    - intros h R Hi. apply K in Hi; [|exact R]. now apply (wire_history G (fresh d) g p v) in Hi; [|exact Npv|exact HG|exact R].
  Qed.
End TwoOut.
