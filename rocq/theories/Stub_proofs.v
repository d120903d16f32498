From Coq Require Import Lia.
From Verif Require Import Base Const_model Const_spec Const_proofs Stub_spec Stub_model.
Local Open Scope Z_scope.
Local Open Scope list_scope.

Lemma zero_const w : 1 <= w <= 64 -> make_const 0 w false = Ok {| c_value := 0; c_width := w; c_signed := false |}.
Proof.
  intros W. unfold make_const. destruct (Z.eqb_spec w 0); [lia|]. unfold is_legal. destruct (Z.eqb_spec w 64) as [->|N]; [reflexivity|].
  destruct (Z.ltb_spec w 64); [|lia]. cbn [obind]. assert (E : u64 (Z.shiftl 1 w - 1) = 2 ^ w - 1).
  { rewrite Z.shiftl_1_l. unfold u64. pose proof (Z.pow_lt_mono_r 2 w 64 ltac:(lia) ltac:(lia) ltac:(lia)). pose proof (Z.pow_pos_nonneg 2 w ltac:(lia) ltac:(lia)).
    apply Z.mod_small. lia. }
  rewrite E. pose proof (Z.pow_pos_nonneg 2 w ltac:(lia) ltac:(lia)). change (of_i64 0) with 0. destruct (Z.gtb_spec 0 (2 ^ w - 1)); [lia|reflexivity].
Qed.
Lemma wide_const w : 64 < w -> make_const 0 w false = UB.
Proof. intros W. unfold make_const. destruct (Z.eqb_spec w 0); [lia|]. unfold is_legal. destruct (Z.eqb_spec w 64); [lia|]. destruct (Z.ltb_spec w 64); [lia|reflexivity]. Qed.
Lemma assign_zero_ok p : plain p -> assign_zero p = Ok (Zero (p_name p) (p_width p)).
Proof.
  intros (Sg & En & Pk & W). unfold assign_zero. rewrite (zero_const _ W). cbn [obind]. rewrite En, Sg.
  destruct (p_array p); [rewrite (Pk eq_refl)|]; reflexivity.
Qed.
Lemma assign_zero_iff p x : 1 <= p_width p -> assign_zero p = Ok x -> plain p.
Proof.
  intros W H. unfold assign_zero in H. destruct (Z.le_gt_cases (p_width p) 64) as [L|L]; [|rewrite wide_const in H by lia; discriminate H].
  rewrite zero_const in H by lia. cbn [obind] in H. destruct (p_enum p) eqn:En; [discriminate H|]. destruct (p_signed p) eqn:Sg; [discriminate H|].
  destruct (p_array p) eqn:A, (p_packed p) eqn:Pk; cbn [andb negb] in H; try discriminate H; (split; [exact Sg|split; [exact En|split; [congruence|lia]]]).
Qed.
(* the ports that are no inputs *)
Definition outs (l : list port) : list port := filter (fun p => match p_dir p with In_ => false | _ => true end) l.
Definition zeros (l : list port) : list stmt := map (fun p => Zero (p_name p) (p_width p)) (outs l).
Lemma zero_ports_iff l s : Forall (fun p => 1 <= p_width p) l ->
  (snd (zero_ports l s) = Ok tt <-> forall p, In p l -> untouched p /\ (p_dir p <> In_ -> plain p))
  /\ (snd (zero_ports l s) = Ok tt -> fst (zero_ports l s) = s ++ zeros l).
Proof.
  intros F. revert s. induction F as [|p l W F IH]; intros s.
  - split; [split; [intros _ p []|reflexivity]|intros _; cbn; rewrite app_nil_r; reflexivity].
  - assert (Cons : forall Q : port -> Prop, (forall q, In q (p :: l) -> Q q) <-> Q p /\ forall q, In q l -> Q q)
      by (intros Q; split; [intros H; split; [apply H; left; reflexivity|intros q Hq; apply H; right; exact Hq]|intros (A & B) q [<- | Hq]; [exact A|apply B; exact Hq]]).
    rewrite Cons. cbn [zero_ports]. unfold zeros, outs. cbn [filter]. unfold untouched at 1. destruct (p_dir p) eqn:D.
    + destruct (p_reads p) eqn:R; [split; [split; [discriminate|intros ((X & _) & _); discriminate X]|discriminate]|].
      destruct (IH s) as (A & B). split; [rewrite A; split; [intros H; split; [split; [reflexivity|congruence]|exact H]|intros (_ & H); exact H]|exact B].
    + destruct (p_driven p) eqn:R; [split; [split; [discriminate|intros ((X & _) & _); discriminate X]|discriminate]|].
      destruct (assign_zero p) as [x| |] eqn:E.
      * pose proof (assign_zero_iff p x W E) as Pl. rewrite (assign_zero_ok p Pl) in E. injection E as <-. destruct (IH (s ++ [Zero (p_name p) (p_width p)])) as (A & B).
        split; [rewrite A; split; [intros H; split; [split; [reflexivity|intros _; exact Pl]|exact H]|intros (_ & H); exact H]|].
        intros H. rewrite (B H). rewrite <- app_assoc. reflexivity.
      * split; [split; [discriminate|]|discriminate]. intros ((_ & X) & _). rewrite assign_zero_ok in E; [discriminate E|apply X; discriminate].
      * split; [split; [discriminate|]|discriminate]. intros ((_ & X) & _). rewrite assign_zero_ok in E; [discriminate E|apply X; discriminate].
    + destruct (p_driven p) eqn:R; [split; [split; [discriminate|intros ((X & _) & _); discriminate X]|discriminate]|].
      destruct (assign_zero p) as [x| |] eqn:E.
      * pose proof (assign_zero_iff p x W E) as Pl. rewrite (assign_zero_ok p Pl) in E. injection E as <-. destruct (IH (s ++ [Zero (p_name p) (p_width p)])) as (A & B).
        split; [rewrite A; split; [intros H; split; [split; [reflexivity|intros _; exact Pl]|exact H]|intros (_ & H); exact H]|].
        intros H. rewrite (B H). rewrite <- app_assoc. reflexivity.
      * split; [split; [discriminate|]|discriminate]. intros ((_ & X) & _). rewrite assign_zero_ok in E; [discriminate E|apply X; discriminate].
      * split; [split; [discriminate|]|discriminate]. intros ((_ & X) & _). rewrite assign_zero_ok in E; [discriminate E|apply X; discriminate].
Qed.
Lemma in_zeros l x : In x (zeros l) <-> exists p, In p l /\ p_dir p <> In_ /\ x = Zero (p_name p) (p_width p).
Proof.
  unfold zeros, outs. rewrite in_map_iff. split.
  - intros (p & <- & H). apply filter_In in H. exists p. split; [apply H|]. split; [|reflexivity]. intros D. rewrite D in H. destruct H as (_ & H). discriminate H.
  - intros (p & H & D & ->). exists p. split; [reflexivity|]. apply filter_In. split; [exact H|]. destruct (p_dir p); [congruence|reflexivity|reflexivity].
Qed.
Lemma nodup_zeros l : NoDup (map p_name l) -> NoDup (zeros l).
Proof.
  induction l as [|p l IH]; intros H; [constructor|]. inversion H as [|a b Na Nl]; subst. unfold zeros, outs in *. cbn [filter]. destruct (p_dir p); [apply IH, Nl| |];
  (cbn [map]; constructor; [|apply IH, Nl]; rewrite in_map_iff; intros (q & E & Hq); apply filter_In in Hq; apply Na; injection E as E _; rewrite <- E; apply in_map; apply Hq).
Qed.
