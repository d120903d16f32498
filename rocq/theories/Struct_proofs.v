(* Proofs about Struct_model. *)
From Verif Require Import Base Num_model Struct_spec Struct_model.
Local Open Scope Z_scope.

Section field_induction.
  Variable P : field -> Prop.
  Hypothesis Hleaf : forall n w s, P (FLeaf n w s).
  Hypothesis Hsub : forall n l, Forall P l -> P (FSub n l).
  Fixpoint field_ind' (f : field) : P f :=
    match f with
    | FLeaf n w s => Hleaf n w s
    | FSub n l => Hsub n l ((fix go l : Forall P l := match l with
                             | [] => Forall_nil P
                             | x :: r => Forall_cons x (field_ind' x) (go r)
                             end) l)
    end.
End field_induction.

Lemma total_app : forall a b, total (a ++ b) = total a + total b.
Proof. induction a as [|x a IH]; intros; cbn; [reflexivity|]. unfold total in *. rewrite IH. lia. Qed.
Lemma total_map : forall n l, total (map (fun '(p, w) => (n :: p, w)) l) = total l.
Proof. induction l as [|[p w] l IH]; cbn in *; [reflexivity|]. unfold total in *. rewrite IH. reflexivity. Qed.
Lemma fold_bits : forall l a,
  Forall (fun f => bitwidth f = total (leaves f)) l ->
  fold_left (fun a d => a + bitwidth d) l a = a + total (flat_map leaves l).
Proof.
  induction l as [|f l IH]; intros a H; cbn [fold_left flat_map]; [unfold total; cbn; lia|].
  apply Forall_cons_iff in H as [H1 H2]. rewrite IH by exact H2. rewrite total_app, H1. lia.
Qed.
Lemma bitwidth_total : forall f, bitwidth f = total (leaves f).
Proof.
  induction f as [n w s | n l IH] using field_ind'; [cbn; unfold total; cbn; lia|].
  cbn [bitwidth leaves]. rewrite total_map, fold_bits by exact IH. lia.
Qed.
Lemma struct_width_total : forall s, struct_width s = total (struct_leaves s).
Proof.
  intros s. unfold struct_width, struct_leaves. rewrite fold_bits; [lia|].
  apply Forall_forall. intros; apply bitwidth_total.
Qed.

Lemma app_split : forall (A : Type) (a b l1 l2 : list A) x,
  a ++ b = l1 ++ x :: l2 ->
  (exists l2', a = l1 ++ x :: l2') \/ (exists l1', l1 = a ++ l1' /\ b = l1' ++ x :: l2).
Proof.
  induction a as [|y a IH]; intros b l1 l2 x E; cbn in E.
  - right. exists l1. auto.
  - destruct l1 as [|z l1]; cbn in E; injection E as -> E.
    + left. exists a. reflexivity.
    + apply IH in E as [(l2' & ->)|(l1' & -> & ->)].
      * left. exists l2'. reflexivity.
      * right. exists l1'. auto.
Qed.
Lemma map_split : forall (A B : Type) (f : A -> B) l l1 l2 y,
  map f l = l1 ++ y :: l2 ->
  exists m1 x m2, l = m1 ++ x :: m2 /\ map f m1 = l1 /\ f x = y /\ map f m2 = l2.
Proof.
  induction l as [|a l IH]; intros l1 l2 y E; [destruct l1; discriminate|].
  destruct l1 as [|b l1]; cbn in E; injection E as E1 E2.
  - exists [], a, l. auto.
  - apply IH in E2 as (m1 & x & m2 & -> & H1 & H2 & H3). exists (a :: m1), x, m2.
    repeat split; cbn; congruence.
Qed.
Lemma leaf_head : forall f p w, In (p, w) (leaves f) -> exists p', p = fname f :: p'.
Proof.
  intros [n v s | n l] p w H; cbn in H.
  - destruct H as [H|[]]. injection H as <- _. exists []. reflexivity.
  - apply in_map_iff in H as ([p' w'] & H & _). injection H as <- _. exists p'. reflexivity.
Qed.

(* looking a leaf's head up in a struct finds the field it belongs to *)
Lemma set_up_leaf : forall s base off l1 p w l2,
  NoDup (map fname s) -> flat_map leaves s = l1 ++ (p, w) :: l2 ->
  exists d n p' q l1' l2',
    p = n :: p' /\ In d s /\ n = fname d
    /\ set_up s base off n = Ok q /\ ps_def q = d /\ ps_high q = ps_low q + bitwidth d - 1
    /\ leaves d = l1' ++ (p, w) :: l2'
    /\ ps_low q + total l1' = base + off + total l1.
Proof.
  induction s as [|d s IH]; intros base off l1 p w l2 N E; [destruct l1; discriminate|].
  cbn [flat_map] in E. cbn [map] in N. apply NoDup_cons_iff in N as [N1 N2].
  apply app_split in E as [(l2' & E)|(l1' & -> & E)].
  - destruct (leaf_head d p w) as [p' ->]; [rewrite E; apply in_elt|].
    exists d, (fname d), p'. cbn [set_up]. rewrite String.eqb_refl.
    do 3 eexists. repeat (split; [first [reflexivity | left; reflexivity | exact E | cbn; lia]|]).
    cbn. lia.
  - apply (IH base (off + bitwidth d)) in E; [|exact N2].
    destruct E as (d' & n & p' & q & l1'' & l2'' & Hp & Hin & Hn & Hs & Hd & Hh & Hl & Ht).
    exists d', n, p', q, l1'', l2''. cbn [set_up].
    destruct (String.eqb_spec (fname d) n) as [Q|Q].
    + exfalso. apply N1. rewrite Q, Hn. apply in_map. exact Hin.
    + repeat (split; [first [assumption | right; assumption]|]).
      rewrite total_app, <- bitwidth_total. lia.
Qed.

Lemma members_leaf : forall f root q p p' w l1 l2,
  wf f -> leaves f = l1 ++ (p, w) :: l2 -> p = fname f :: p' -> ps_def q = f ->
  ps_high q = ps_low q + bitwidth f - 1 ->
  exists r, slice_members root q p' = Ok r
            /\ ps_low r = ps_low q + total l1 /\ ps_high r = ps_low r + w - 1
            /\ exists n sg, ps_def r = FLeaf n w sg.
Proof.
  induction f as [n v s | n l IH] using field_ind'; intros root q p p' w l1 l2 W E Hp D H.
  - cbn in E. destruct l1 as [|? [|? ?]]; cbn in E; try discriminate. injection E as <- <- <-.
    injection Hp as <-. exists q. cbn [slice_members]. unfold total. cbn [fold_right].
    cbn [bitwidth] in H. rewrite D. repeat split; try lia. eauto.
  - cbn [leaves] in E. apply map_split in E as (m1 & [p0 w0] & m2 & E & <- & X & _).
    injection X as <- ->. cbn in Hp. injection Hp as ->.
    inversion W as [|? ? Wl WN WF]; subst.
    destruct (set_up_leaf l (ps_low q) 0 _ _ _ _ WN E)
      as (d & n' & p'' & r & l1' & l2' & Hp & Hin & Hn & Hs & Hd & Hh & Hl & Ht).
    rewrite Forall_forall in IH, WF. 
    destruct (IH d Hin root r p' p'' w l1' l2' (WF d Hin) Hl) as (z & Z1 & Z2 & Z3 & Z4);
      [congruence | exact Hd | exact Hh|].
    exists z. rewrite Hp. cbn [slice_members]. unfold slice_member at 1. rewrite D, Hs.
    cbn [obind]. split; [exact Z1|]. rewrite total_map. split; [lia|]. auto.
Qed.

Lemma access_leaf : forall s l1 p w l2,
  wf_struct s -> struct_leaves s = l1 ++ (p, w) :: l2 ->
  exists r, access s p = Ok r /\ ps_low r = total l1 /\ ps_high r = total l1 + w - 1
            /\ exists n sg, ps_def r = FLeaf n w sg.
Proof.
  intros s l1 p w l2 [N W] E.
  destruct (set_up_leaf s 0 0 _ _ _ _ N E)
    as (d & n' & p'' & r & l1' & l2' & Hp & Hin & Hn & Hs & Hd & Hh & Hl & Ht).
  rewrite Forall_forall in W.
  destruct (members_leaf d s r p p'' w l1' l2' (W d Hin) Hl) as (z & Z1 & Z2 & Z3 & Z4);
    [congruence | exact Hd | exact Hh|].
  exists z. rewrite Hp. cbn [access]. rewrite Hs. cbn [obind]. split; [exact Z1|].
  split; [lia|]. split; [lia|]. exact Z4.
Qed.

Lemma wf_leaves_pos : forall f, wf f -> Forall (fun x => 0 < snd x) (leaves f).
Proof.
  induction f as [n v s | n l IH] using field_ind'; intros W; inversion W; subst; cbn.
  - constructor; [assumption|constructor].
  - apply Forall_forall. intros x Hx. apply in_map_iff in Hx as ([p w] & <- & Hx).
    apply in_flat_map in Hx as (f & Hf & Hx). rewrite Forall_forall in IH, H3.
    specialize (IH f Hf (H3 f Hf)). rewrite Forall_forall in IH. apply (IH _ Hx).
Qed.
Lemma struct_leaves_pos : forall s, wf_struct s -> Forall (fun x => 0 < snd x) (struct_leaves s).
Proof.
  intros s [_ W]. apply Forall_forall. intros x Hx.
  apply in_flat_map in Hx as (f & Hf & Hx). rewrite Forall_forall in W.
  pose proof (wf_leaves_pos f (W f Hf)) as K. rewrite Forall_forall in K. apply (K _ Hx).
Qed.
Lemma total_nonneg : forall l, Forall (fun x => 0 < snd x) l -> 0 <= total l.
Proof. induction 1; unfold total in *; cbn; lia. Qed.

(* in a list of positive lengths each position below the total lies in one interval *)
Lemma interval_of : forall (l : list (list string * Z)) b,
  Forall (fun x => 0 < snd x) l -> 0 <= b < total l ->
  exists l1 p w l2, l = l1 ++ (p, w) :: l2 /\ total l1 <= b <= total l1 + w - 1.
Proof.
  induction l as [|[p w] l IH]; intros b F H; [unfold total in H; cbn in H; lia|].
  apply Forall_cons_iff in F as [F1 F2]. cbn [snd] in F1.
  assert (total ((p, w) :: l) = w + total l) as T by reflexivity.
  destruct (Z_lt_le_dec b w).
  - exists [], p, w, l. split; [reflexivity|]. unfold total. cbn. lia.
  - destruct (IH (b - w) F2) as (l1 & p' & w' & l2 & -> & I); [lia|].
    exists ((p, w) :: l1), p', w', l2. split; [reflexivity|].
    assert (total ((p, w) :: l1) = w + total l1) as T' by reflexivity. lia.
Qed.

Lemma bit_leaf : forall s b, wf_struct s -> 0 <= b < struct_width s ->
  exists! p, In p (map fst (struct_leaves s)) /\
             exists r, access s p = Ok r /\ ps_low r <= b <= ps_high r.
Proof.
  intros s b W B. pose proof (struct_leaves_pos s W) as F. rewrite struct_width_total in B.
  destruct (interval_of _ b F B) as (l1 & p & w & l2 & E & I).
  exists p. split.
  - split; [rewrite E, map_app; apply in_elt|].
    destruct (access_leaf s _ _ _ _ W E) as (r & R1 & R2 & R3 & _). exists r. split; [exact R1|]. lia.
  - intros p' [Hin (r' & R1' & R2')].
    apply in_map_iff in Hin as ([p0 w'] & E0 & Hin). cbn in E0. subst p0.
    apply in_split in Hin as (k1 & k2 & E').
    destruct (access_leaf s _ _ _ _ W E') as (r & R1 & R2 & R3 & _).
    rewrite R1 in R1'. apply Ok_inj in R1'. subst r'.
    (* both intervals contain b, so the prefixes coincide *)
    rewrite E in E', F. clear -E' I R2 R3 R2' F.
    assert (total k1 <= b <= total k1 + w' - 1) as J by lia. clear R2 R3 R2'.
    revert k1 b I J E' F. induction l1 as [|x l1 IH]; intros k1 b I J E' F.
    + destruct k1 as [|y k1]; cbn in E'; injection E' as E1 E2; [congruence|].
      exfalso. subst y. destruct k1 as [|y k1].
      * unfold total in *. cbn in *. lia.
      * cbn in F. rewrite E2 in F. apply Forall_cons_iff in F as [F1 F2].
        apply Forall_app in F2 as [F2 _]. pose proof (total_nonneg _ F2).
        change (total ((p, w) :: y :: k1)) with (w + total (y :: k1)) in J.
        unfold total in I; cbn in I. lia.
    + destruct k1 as [|y k1]; cbn in E'; injection E' as E1 E2.
      * exfalso. subst x. cbn in F. apply Forall_cons_iff in F as [F1 F2].
        apply Forall_app in F2 as [F2 _]. pose proof (total_nonneg _ F2).
        change (total ((p', w') :: l1)) with (w' + total l1) in I. unfold total in J; cbn in J. lia.
      * subst y. cbn in F. apply Forall_cons_iff in F as [F1 F2].
        change (total (x :: l1)) with (snd x + total l1) in I.
        change (total (x :: k1)) with (snd x + total k1) in J.
        apply (IH k1 (b - snd x)); [lia | lia | exact E2 | exact F2].
Qed.

(* a member selection stays inside what it selects from *)
Lemma set_up_inside : forall s base off n q,
  Forall wf s -> set_up s base off n = Ok q ->
  base + off <= ps_low q /\ ps_low q <= ps_high q
  /\ ps_high q < base + off + struct_width s /\ In (ps_def q) s /\ fname (ps_def q) = n
  /\ ps_high q = ps_low q + bitwidth (ps_def q) - 1.
Proof.
  assert (forall f, wf f -> 0 < bitwidth f) as POS.
  { intros f W. rewrite bitwidth_total. induction W as [|n l NE N F] using wf_ind; [unfold total; cbn; lia|].
    cbn [leaves]. rewrite total_map.
    assert (forall f, wf f -> 0 < total (leaves f)) as K.
    { clear. induction f as [n v s | n l IH] using field_ind'; intros W; inversion W; subst.
      - unfold total; cbn; lia.
      - cbn [leaves]. rewrite total_map. destruct l as [|g l]; [congruence|].
        cbn [flat_map]. rewrite total_app. apply Forall_cons_iff in IH as [I1 _].
        apply Forall_cons_iff in H3 as [W1 W2]. specialize (I1 W1).
        assert (0 <= total (flat_map leaves l)); [|lia].
        apply total_nonneg. apply Forall_forall. intros x Hx. apply in_flat_map in Hx as (f & Hf & Hx).
        rewrite Forall_forall in W2. pose proof (wf_leaves_pos f (W2 f Hf)) as K.
        rewrite Forall_forall in K. apply (K _ Hx). }
    destruct l as [|g l]; [congruence|]. cbn [flat_map]. rewrite total_app.
    apply Forall_cons_iff in F as [F1 F2]. specialize (K g F1).
    assert (0 <= total (flat_map leaves l)); [|lia].
    apply total_nonneg. apply Forall_forall. intros x Hx. apply in_flat_map in Hx as (f & Hf & Hx).
    rewrite Forall_forall in F2. pose proof (wf_leaves_pos f (F2 f Hf)) as K'.
    rewrite Forall_forall in K'. apply (K' _ Hx). }
  induction s as [|d s IH]; intros base off n q W E; [discriminate|].
  apply Forall_cons_iff in W as [W1 W2]. pose proof (POS d W1) as P1.
  assert (struct_width (d :: s) = bitwidth d + struct_width s) as SW.
  { rewrite !struct_width_total. unfold struct_leaves. cbn [flat_map].
    rewrite total_app, <- bitwidth_total. reflexivity. }
  assert (0 <= struct_width s) as P2.
  { rewrite struct_width_total. apply total_nonneg. apply Forall_forall. intros x Hx.
    apply in_flat_map in Hx as (f & Hf & Hx). rewrite Forall_forall in W2.
    pose proof (wf_leaves_pos f (W2 f Hf)) as K. rewrite Forall_forall in K. apply (K _ Hx). }
  cbn [set_up] in E. destruct (String.eqb_spec (fname d) n) as [Q|Q].
  - apply Ok_inj in E. subst q. cbn [ps_low ps_high ps_def]. rewrite SW. repeat split; try lia; cbn [In]; auto.
  - apply IH in E; [|exact W2]. rewrite SW. destruct E as (E1 & E2 & E3 & E4 & E5 & E6).
    repeat split; try lia; cbn; auto.
Qed.

(* same_struct on structs without nested structs is equality *)
Definition flat (s : list field) : Prop := Forall (fun f => match f with FLeaf _ _ _ => True | _ => False end) s.
Lemma same_flat : forall a b, flat a -> (same_struct a b = true <-> a = b).
Proof.
  induction a as [|x a IH]; intros [|y b] F; cbn; try (split; congruence).
  apply Forall_cons_iff in F as [F1 F2]. destruct x as [n w s|]; [|contradiction].
  rewrite andb_true_iff, (IH b F2). destruct y as [n' w' s'|]; cbn.
  - rewrite !andb_true_iff, Z.eqb_eq, String.eqb_eq, eqb_true_iff. split.
    + intros [[[-> ->] ->] ->]. reflexivity.
    + intros H. injection H as -> -> -> ->. auto.
  - split; [intros [H _]; discriminate | intros H; discriminate].
Qed.
Lemma same_width : forall a b, same_struct a b = true -> struct_width a = struct_width b.
Proof.
  assert (forall x, forall y, same_field x y = true -> bitwidth x = bitwidth y) as K.
  { induction x as [n w s|n l IH] using field_ind'; intros [n' w' s'|n' m]; cbn; try discriminate.
    - rewrite !andb_true_iff, Z.eqb_eq. tauto.
    - intros H. generalize 0. revert m H. induction IH as [|x l Hx _ IHl]; intros [|y m] H a;
        try discriminate; [reflexivity|].
      apply andb_true_iff in H as [H1 H2]. cbn. rewrite (Hx y H1). apply IHl. exact H2. }
  unfold struct_width. intros a. generalize 0. induction a as [|x a IH]; intros z [|y b] H; cbn in *;
    try discriminate; [reflexivity|].
  apply andb_true_iff in H as [H1 H2]. rewrite (K _ _ H1). apply IH. exact H2.
Qed.
