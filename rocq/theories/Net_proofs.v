From Verif Require Import Base IR Net_spec Net_model.
Local Open Scope nat_scope.

Lemma put_true : forall f x i y j, put f x i true y j = true <-> f y j = true \/ (j = i /\ y = x).
Proof. intros f x i y j. unfold put. destruct (Nat.eqb_spec y x), (Nat.eqb_spec j i); cbn [andb]; intuition congruence. Qed.
Lemma put_false : forall f x i y j, put f x i false y j = true <-> f y j = true /\ ~ (j = i /\ y = x).
Proof. intros f x i y j. unfold put. destruct (Nat.eqb_spec y x), (Nat.eqb_spec j i); cbn [andb]; intuition congruence. Qed.
Ltac inv_o := match goal with
  | H : occurs _ NConst |- _ => inversion H | H : occurs _ (NVar _) |- _ => inversion H; subst; clear H | H : occurs _ (_ _) |- _ => inversion H; subst; clear H | H : occurs _ (_ _ _) |- _ => inversion H; subst; clear H | H : occurs _ (_ _ _ _) |- _ => inversion H; subst; clear H
  | H : drives _ NConst |- _ => inversion H | H : drives _ (_ _) |- _ => inversion H; subst; clear H | H : drives _ (_ _ _) |- _ => inversion H; subst; clear H | H : drives _ (_ _ _ _) |- _ => inversion H; subst; clear H
  | H : indexes _ NConst |- _ => inversion H | H : indexes _ (_ _) |- _ => inversion H; subst; clear H | H : indexes _ (_ _ _) |- _ => inversion H; subst; clear H | H : indexes _ (_ _ _ _) |- _ => inversion H; subst; clear H
  | H : open _ NConst |- _ => inversion H | H : open _ (_ _) |- _ => inversion H; subst; clear H | H : open _ (_ _ _) |- _ => inversion H; subst; clear H | H : open _ (_ _ _ _) |- _ => inversion H; subst; clear H
  end.
(* what each operation does *)
Lemma add_sink_sk : forall i e s y j, sk (add_sink i e s) y j = true <-> sk s y j = true \/ (j = i /\ occurs y e).
Proof.
  intros i e. induction e; intros s y j; cbn [add_sink]; rewrite ?IHe3, ?IHe2, ?IHe1, ?IHe.
  - cbn. rewrite put_true. split; (intros [A|[A B]]; [now left|right; split; [exact A|]]); [subst; constructor|now inv_o].
  - split; [now left|]. intros [A|[_ A]]; [exact A|inv_o].
  - intuition (try (right; split; [assumption|now constructor])). inv_o; auto.
  - split; [intros [[A|[A B]]|[A B]]|intros [A|[A B]]]; try inv_o; try tauto; right; (split; [exact A|]); [now apply oc_index_e|now apply oc_index_i].
  - split; [intros [[A|[A B]]|[A B]]|intros [A|[A B]]]; try inv_o; try tauto; right; (split; [exact A|]); [now apply oc_op_l|now apply oc_op_r].
  - split; [intros [A|[A B]]|intros [A|[A B]]]; try inv_o; try tauto; right; (split; [exact A|]); now constructor.
  - split; [intros [[[A|[A B]]|[A B]]|[A B]]|intros [A|[A B]]]; try inv_o; try tauto; right; (split; [exact A|]); [now apply oc_cond_c|now apply oc_cond_l|now apply oc_cond_r].
  - split; [intros [[A|[A B]]|[A B]]|intros [A|[A B]]]; try inv_o; try tauto; right; (split; [exact A|]); [now apply oc_cat_l|now apply oc_cat_r].
  - split; [intros [A|[A B]]|intros [A|[A B]]]; try inv_o; try tauto; right; (split; [exact A|]); now constructor.
  - split; [intros [A|[A B]]|intros [A|[A B]]]; try inv_o; try tauto; right; (split; [exact A|]); now constructor.
  - split; [intros [A|[A B]]|intros [A|[A B]]]; try inv_o; try tauto; right; (split; [exact A|]); now constructor.
Qed.
Lemma add_sink_rest : forall i e s, sr (add_sink i e s) = sr s /\ placed (add_sink i e s) = placed s /\ parented (add_sink i e s) = parented s.
Proof.
  intros i e. induction e; intros s; cbn [add_sink]; auto.
  all: repeat match goal with H : forall s, sr (add_sink ?i ?e s) = _ /\ _ |- context [add_sink ?i ?e ?s0] => destruct (H s0) as (-> & -> & ->); clear H end; auto.
Qed.
Lemma add_source_ok : forall i e s, target e -> exists s', add_source i e s = Ok s' /\ placed s' = placed s /\ parented s' = parented s /\
  (forall y j, sr s' y j = true <-> sr s y j = true \/ (j = i /\ drives y e)) /\ (forall y j, sk s' y j = true <-> sk s y j = true \/ (j = i /\ indexes y e)).
Proof.
  intros i e s T0. revert s. induction T0 as [x|e T0 IH|e k T0 IH|a b Ta IHa Tb IHb|e T0 IH]; intros s; cbn [add_source].
  - eexists. split; [reflexivity|]. split; [reflexivity|]. split; [reflexivity|]. cbn. split; intros y j.
    + rewrite put_true. split; (intros [A|[A B]]; [now left|right; split; [exact A|]]); [subst; constructor|now inv_o].
    + split; [now left|]. intros [A|[_ A]]; [exact A|inv_o].
  - destruct (IH s) as (s' & E & E1 & E2 & R & K). exists s'. repeat (split; [assumption|]). split; intros y j; [rewrite R|rewrite K]; (split; intros [A|[A B]]; try inv_o; try tauto; right; (split; [exact A|]); now constructor).
  - destruct (IH s) as (s' & E & E1 & E2 & R & K). rewrite E. cbn [obind]. eexists. split; [reflexivity|]. destruct (add_sink_rest i k s') as (-> & -> & ->). repeat (split; [assumption|]). split; intros y j.
    + rewrite R. split; intros [A|[A B]]; try inv_o; try tauto; right; (split; [exact A|]); now constructor.
    + rewrite add_sink_sk, K. split; [intros [[A|[A B]]|[A B]]|intros [A|[A B]]]; try inv_o; try tauto; right; (split; [exact A|]); [now apply ix_index|now apply ix_here].
  - destruct (IHa s) as (s1 & E & E1 & E2 & R & K). rewrite E. cbn [obind]. destruct (IHb s1) as (s2 & F & F1 & F2 & R2 & K2). exists s2. split; [exact F|]. split; [congruence|]. split; [congruence|]. split; intros y j.
    + rewrite R2, R. split; [intros [[A|[A B]]|[A B]]|intros [A|[A B]]]; try inv_o; try tauto; right; (split; [exact A|]); [now apply dr_cat_l|now apply dr_cat_r].
    + rewrite K2, K. split; [intros [[A|[A B]]|[A B]]|intros [A|[A B]]]; try inv_o; try tauto; right; (split; [exact A|]); [now apply ix_cat_l|now apply ix_cat_r].
  - destruct (IH s) as (s' & E & E1 & E2 & R & K). exists s'. repeat (split; [assumption|]). split; intros y j; [rewrite R|rewrite K]; (split; intros [A|[A B]]; try inv_o; try tauto; right; (split; [exact A|]); now constructor).
Qed.
Lemma remove_source_rest : forall i e s, sk (remove_source i e s) = sk s /\ placed (remove_source i e s) = placed s /\ parented (remove_source i e s) = parented s.
Proof.
  intros i e. induction e; intros s; cbn [remove_source]; auto.
  all: repeat match goal with H : forall s, sk (remove_source ?i ?e s) = _ /\ _ |- context [remove_source ?i ?e ?s0] => destruct (H s0) as (-> & -> & ->); clear H end; auto.
Qed.
(* sources of other statements stay, and none is added *)
Lemma remove_source_sr : forall i e s y j, (sr (remove_source i e s) y j = true -> sr s y j = true /\ (j = i -> ~ drives y e)) /\ (j <> i -> sr (remove_source i e s) y j = sr s y j).
Proof.
  intros i e. induction e; intros s y j; cbn [remove_source]; try (split; [intros A; split; [exact A|intros _ D; inv_o]|reflexivity]).
  - cbn. split; [rewrite put_false; intros [A B]; split; [exact A|]; intros E D; inv_o; auto|]. intros N. unfold put. destruct (Nat.eqb_spec j i); [contradiction|]. now rewrite andb_false_r.
  - destruct (IHe s y j) as [A B]. split; [|exact B]. intros C. destruct (A C) as [C1 C2]. split; [exact C1|]. intros E D. inv_o. now apply C2.
  - destruct (IHe1 s y j) as [A B]. destruct (IHe2 (remove_source i e1 s) y j) as [A2 B2]. split; [|intros N; rewrite B2, B; auto]. intros C. destruct (A2 C) as [C1 _]. destruct (A C1) as [D1 D2]. split; [exact D1|]. intros E D. inv_o. now apply D2.
  - destruct (IHe1 s y j) as [A B]. destruct (IHe2 (remove_source i e1 s) y j) as [A2 B2]. split; [|intros N; rewrite B2, B; auto]. intros C. destruct (A2 C) as [C1 C2]. destruct (A C1) as [D1 D2]. split; [exact D1|]. intros E D. inv_o; [now apply D2|now apply C2].
  - destruct (IHe s y j) as [A B]. split; [|exact B]. intros C. destruct (A C) as [C1 C2]. split; [exact C1|]. intros E D. inv_o.
  - destruct (IHe s y j) as [A B]. split; [|exact B]. intros C. destruct (A C) as [C1 C2]. split; [exact C1|]. intros E D. inv_o. now apply C2.
Qed.
Lemma remove_sink_rest : forall i e s, placed (remove_sink i e s) = placed s /\ parented (remove_sink i e s) = parented s /\
  (forall y j, sr (remove_sink i e s) y j = true -> sr s y j = true) /\ (forall y j, j <> i -> sr (remove_sink i e s) y j = sr s y j).
Proof.
  intros i e. induction e; intros s; cbn [remove_sink]; auto.
  - destruct (remove_source_rest i e s) as (_ & E1 & E2). repeat (split; [assumption|]). split; intros y j; apply remove_source_sr.
  - destruct (IHe2 (remove_source i e1 s)) as (A1 & A2 & A3 & A4). destruct (remove_source_rest i e1 s) as (_ & E1 & E2). rewrite A1, A2. repeat (split; [assumption|]). split; intros y j X; [apply A3 in X; now apply remove_source_sr in X|]. rewrite A4 by exact X. now apply remove_source_sr.
  - destruct (IHe2 (remove_sink i e1 s)) as (A1 & A2 & A3 & A4). destruct (IHe1 s) as (B1 & B2 & B3 & B4). rewrite A1, A2. repeat (split; [assumption|]). split; intros y j X; [auto|rewrite A4, B4; auto].
  - destruct (IHe3 (remove_sink i e2 (remove_sink i e1 s))) as (A1 & A2 & A3 & A4). destruct (IHe2 (remove_sink i e1 s)) as (B1 & B2 & B3 & B4). destruct (IHe1 s) as (C1 & C2 & C3 & C4). rewrite A1, A2, B1, B2. repeat (split; [assumption|]).
    split; intros y j X; [auto|rewrite A4, B4, C4; auto].
  - destruct (IHe2 (remove_sink i e1 s)) as (A1 & A2 & A3 & A4). destruct (IHe1 s) as (B1 & B2 & B3 & B4). rewrite A1, A2. repeat (split; [assumption|]). split; intros y j X; [auto|rewrite A4, B4; auto].
Qed.
Lemma remove_sink_sk : forall i e s y j, sk (remove_sink i e s) y j = true <-> sk s y j = true /\ ~ (j = i /\ open y e).
Proof.
  intros i e. induction e; intros s y j; cbn [remove_sink].
  - cbn. rewrite put_false. split; intros [A B]; (split; [exact A|]); intros [C D]; apply B; (split; [exact C|]); [now inv_o|subst; constructor].
  - split; [intros A; split; [exact A|intros [_ B]; inv_o]|tauto].
  - destruct (remove_source_rest i e s) as (-> & _). split; [intros A; split; [exact A|intros [_ B]; inv_o]|tauto].
  - rewrite IHe2. destruct (remove_source_rest i e1 s) as (-> & _). split; intros [A B]; (split; [exact A|]); intros [C D]; apply B; (split; [exact C|]); [now inv_o|now constructor].
  - rewrite IHe2, IHe1. split; [intros [[A B] C]|intros [A B]].
    + split; [exact A|]. intros [D E]. inv_o; auto.
    + split; [split; [exact A|]|]; intros [D E]; apply B; (split; [exact D|]); [now apply op_op_l|now apply op_op_r].
  - rewrite IHe. split; intros [A B]; (split; [exact A|]); intros [C D]; apply B; (split; [exact C|]); [now inv_o|now constructor].
  - rewrite IHe3, IHe2, IHe1. split; [intros [[[A B] C] C']|intros [A B]].
    + split; [exact A|]. intros [D E]. inv_o; auto.
    + split; [split; [split; [exact A|]|]|]; intros [D E]; apply B; (split; [exact D|]); [now apply op_cond_c|now apply op_cond_l|now apply op_cond_r].
  - rewrite IHe2, IHe1. split; [intros [[A B] C]|intros [A B]].
    + split; [exact A|]. intros [D E]. inv_o; auto.
    + split; [split; [exact A|]|]; intros [D E]; apply B; (split; [exact D|]); [now apply op_cat_l|now apply op_cat_r].
  - rewrite IHe. split; intros [A B]; (split; [exact A|]); intros [C D]; apply B; (split; [exact C|]); [now inv_o|now constructor].
  - rewrite IHe. split; intros [A B]; (split; [exact A|]); intros [C D]; apply B; (split; [exact C|]); [now inv_o|now constructor].
  - rewrite IHe. split; intros [A B]; (split; [exact A|]); intros [C D]; apply B; (split; [exact C|]); [now inv_o|now constructor].
Qed.
Lemma whole_open : forall e x, whole e -> occurs x e -> open x e.
Proof.
  intros e x. induction e; cbn [whole]; intros W O; try contradiction; inv_o; try tauto; try (constructor; tauto).
Qed.
Lemma whole_indexes : forall e x, whole e -> ~ indexes x e.
Proof. intros e x. induction e; cbn [whole]; intros W O; try contradiction; inv_o; tauto. Qed.
Lemma erase_in : forall i l, NoDup l -> forall j, In j (erase i l) <-> In j l /\ j <> i.
Proof.
  intros i l N. induction N as [|x r Nx N IH]; intros j; cbn [erase]; [cbn; tauto|]. destruct (Nat.eqb_spec x i) as [->|Ne].
  - split; [intros I; split; [now right|]; intros ->; contradiction|]. intros [[->|I] Nj]; [contradiction|exact I].
  - cbn [In]. rewrite IH. split; [intros [->|[I Nj]]; auto|]. intros [[->|I] Nj]; auto.
Qed.
Lemma erase_sub : forall i l j, In j (erase i l) -> In j l.
Proof. intros i l j. induction l as [|x r IH]; cbn [erase]; [auto|]. destruct (Nat.eqb x i); [now right|]. intros [->|I]; [now left|right; auto]. Qed.
Lemma erase_nodup : forall i l, NoDup l -> NoDup (erase i l).
Proof. intros i l N. induction N as [|x r Nx N IH]; cbn [erase]; [constructor|]. destruct (Nat.eqb x i); [exact N|]. constructor; [|exact IH]. intros I. apply Nx. now apply erase_sub in I. Qed.

(* the invariant: seen are the statements that have been added *)
Section Keep.
  Variables (T : nat -> asg) (same : nexp -> nexp -> bool).
  Hypothesis Tg : forall i, target (fst (T i)).
  Record kept_by (seen : list nat) (s : net) : Prop := {
    kb_nodup : NoDup (placed s);
    kb_seen : forall i, In i (placed s) -> In i seen;
    kb_parent : forall i, parented s i = true -> In i seen;
    kb_sr : forall x i, sr s x i = true <-> In i (placed s) /\ drives x (fst (T i));
    kb_sk : forall x i, sk s x i = true <-> In i seen /\ uses x (T i) /\ (In i (placed s) \/ ~ open x (snd (T i))) }.
  Lemma kept_start : kept_by [] net_start.
  Proof. constructor; cbn; try (intros; discriminate); try tauto; try constructor; try (intros; intuition discriminate). Qed.
  Lemma kept_add : forall seen s i, kept_by seen s -> ~ In i seen -> exists s', net_add T i s = Ok s' /\ kept_by (i :: seen) s'.
  Proof.
    intros seen s i [K1 K2 K3 K4 K5] N. unfold net_add. destruct (parented s i) eqn:P; [exfalso; auto|].
    destruct (add_sink_rest i (snd (T i)) s) as (R1 & R2 & R3). destruct (add_source_ok i (fst (T i)) (add_sink i (snd (T i)) s) (Tg i)) as (s1 & E & E1 & E2 & Sr & Sk). rewrite E. cbn [obind].
    eexists. split; [reflexivity|]. constructor; cbn [with_placed with_parent placed parented sk sr]; rewrite ?E1, ?R2.
    - assert (~ In i (placed s)) as X by (intros I; apply N; auto). clear - K1 X. induction K1 as [|x r Nx K1 IH]; cbn [app]; [repeat constructor; intros []|]. constructor; [|apply IH; intros I; apply X; now right].
      intros I. apply in_app_or in I. destruct I as [I|[<-|[]]]; [contradiction|]. apply X. now left.
    - intros j I. apply in_app_or in I. destruct I as [I|[<-|[]]]; [right; auto|now left].
    - intros j. rewrite E2, R3. destruct (Nat.eqb_spec j i) as [->|]; [now left|]. intros X. right. auto.
    - intros x j. rewrite Sr, R1, K4, in_app_iff. cbn [In]. split; [intros [[A B]|[-> B]]; auto|]. intros [[A|[<-|[]]] B]; auto.
    - intros x j. rewrite Sk, add_sink_sk, K5, in_app_iff. cbn [In]. unfold uses. split.
      + intros [[(A & B & C)|[-> B]]|[-> B]]; [split; [now right|]; split; [exact B|tauto]| |]; (split; [now left|]; split; [tauto|left; tauto]).
      + intros (A & B & C). destruct (Nat.eq_dec j i) as [->|Nj]; [destruct B; tauto|]. left. left. split; [destruct A; [congruence|assumption]|]. split; [exact B|]. destruct C as [[C|[C|[]]]|C]; [auto|congruence|auto].
  Qed.
  Lemma kept_drop : forall seen s i, kept_by seen s -> In i (placed s) -> kept_by seen (net_remove i (remove_sink i (snd (T i)) (remove_source i (fst (T i)) s))).
  Proof.
    intros seen s i [K1 K2 K3 K4 K5] I. set (s1 := remove_source i (fst (T i)) s). destruct (remove_source_rest i (fst (T i)) s) as (A1 & A2 & A3). destruct (remove_sink_rest i (snd (T i)) s1) as (B1 & B2 & B3 & B4). fold s1 in A1, A2, A3.
    constructor; cbn [net_remove with_placed placed parented sk sr]; rewrite ?B1, ?A2, ?B2, ?A3; auto.
    - now apply erase_nodup.
    - intros j J. apply erase_sub in J. auto.
    - intros x j. rewrite erase_in by exact K1. split.
      + intros X. apply B3 in X. destruct (remove_source_sr i (fst (T i)) s x j) as [C1 C2]. apply C1 in X. destruct X as [X Y]. apply K4 in X. destruct X as [X D]. split; [split; [exact X|]|exact D]. intros ->. now apply Y.
      + intros [[J Nj] D]. rewrite B4 by exact Nj. unfold s1. rewrite (proj2 (remove_source_sr i (fst (T i)) s x j) Nj). apply K4. auto.
    - intros x j. rewrite remove_sink_sk, A1, K5, erase_in by exact K1. split.
      + intros ((A & B & C) & D). split; [exact A|]. split; [exact B|]. destruct (Nat.eq_dec j i) as [->|Nj]; [right; intros O; now apply D|]. tauto.
      + intros (A & B & C). split; [split; [exact A|split; [exact B|tauto]]|]. intros [-> O]. tauto.
  Qed.
  Lemma kept_unwire : forall seen s a b, kept_by seen s -> kept_by seen (net_unwire T same a b s).
  Proof.
    intros seen s a b K. unfold net_unwire. destruct (find _ (placed s)) as [i|] eqn:E; [|exact K]. apply find_some in E. now apply kept_drop.
  Qed.
  Lemma erase_head : forall i l, erase i (i :: l) = l.
  Proof. intros i l. cbn. now rewrite Nat.eqb_refl. Qed.
  Lemma kept_clear : forall seen s, kept_by seen s -> kept_by seen (net_clear T s).
  Proof.
    intros seen s K. unfold net_clear.
    (* clear one after the other *)
    assert (forall l s0, kept_by seen (with_placed s0 l) -> kept_by seen (with_placed (fold_left (asg_clear T) l s0) [])) as Q.
    { induction l as [|i r IH]; intros s0 K0; [exact K0|]. cbn [fold_left]. apply IH. pose proof (kept_drop seen _ i K0 (or_introl eq_refl)) as K1.
      destruct (remove_source_rest i (fst (T i)) (with_placed s0 (i :: r))) as (X1 & X2 & X3). destruct (remove_sink_rest i (snd (T i)) (remove_source i (fst (T i)) (with_placed s0 (i :: r)))) as (Y1 & Y2 & _).
      assert (forall e t l0, remove_source i e (with_placed t l0) = with_placed (remove_source i e t) l0) as W1 by (induction e; intros t l0; cbn [remove_source]; rewrite ?IHe, ?IHe1, ?IHe2; reflexivity).
      assert (forall e t l0, remove_sink i e (with_placed t l0) = with_placed (remove_sink i e t) l0) as W2 by (induction e; intros t l0; cbn [remove_sink]; rewrite ?IHe, ?IHe1, ?IHe2, ?IHe3, ?W1, ?IHe2; reflexivity).
      rewrite W1, W2 in K1. unfold net_remove in K1. cbn [with_placed placed parented sk sr] in K1. rewrite erase_head in K1. destruct K1 as [L1 L2 L3 L4 L5]. cbn [with_placed placed parented sk sr] in L1, L2, L3, L4, L5.
      constructor; cbn [with_placed asg_clear with_parent placed parented sk sr]; auto. intros j. destruct (Nat.eqb j i); [discriminate|auto]. }
    apply Q. destruct s. exact K.
  Qed.
End Keep.
