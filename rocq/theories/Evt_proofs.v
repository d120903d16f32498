From Coq Require Import Lia.
From Verif Require Import Base Evt_spec Evt_model.
Local Open Scope Z_scope.
Local Open Scope list_scope.

Section Ind.
  Variable P : node -> Prop.
  Hypothesis He : forall e, P (Ev e).
  Hypothesis Hb : forall s l, Forall P l -> P (Blk s l).
  Hypothesis Hs : forall l, Forall P l -> P (Stm l).
  Hypothesis Hg : forall x l, Forall P l -> P (Gen x l).
  Hypothesis Ho : P Other.
  Fixpoint node_rect' (n : node) : P n :=
    let all := fix all l : Forall P l := match l with [] => Forall_nil _ | n :: l => Forall_cons _ (node_rect' n) (all l) end in
    match n with Ev e => He e | Blk s l => Hb s l (all l) | Stm l => Hs l (all l) | Gen x l => Hg x l (all l) | Other => Ho end.
End Ind.

Definition up_of (p : place) : parent := match p with InSequential => PBlock true | InBlock => PBlock false | InStatement => PStmt | InGenerator => PGen end.
Lemma visit_in n : forall up i, In i (visit up n) <-> exists p e, inside n p e /\ i = add_info (rev (map up_of p) ++ up) e.
Proof.
  induction n as [e|s l IH|l IH|x l IH|] using node_rect'; intros up i; cbn [visit].
  - split; [intros [<-|[]]; exists [], e; split; [constructor|reflexivity]|]. intros (p & e' & H & ->). inversion H; subst. left. reflexivity.
  - rewrite in_flat_map. split.
    + intros (m & Hm & Hi). rewrite Forall_forall in IH. apply (IH m Hm) in Hi. destruct Hi as (p & e & H & ->).
      exists ((if s then InSequential else InBlock) :: p), e. split; [destruct s; econstructor; eassumption|].
      cbn [map rev]. rewrite <- app_assoc. destruct s; reflexivity.
    + intros (p & e & H & ->). rewrite Forall_forall in IH.
      inversion H as [|l' m p' e' Hm Hi| l' m p' e' Hm Hi | |]; subst; exists m; (split; [exact Hm|]); apply (IH m Hm); exists p', e; (split; [exact Hi|]);
        cbn [map rev up_of]; rewrite <- app_assoc; reflexivity.
  - rewrite in_flat_map. split.
    + intros (m & Hm & Hi). rewrite Forall_forall in IH. apply (IH m Hm) in Hi. destruct Hi as (p & e & H & ->).
      exists (InStatement :: p), e. split; [econstructor; eassumption|]. cbn [map rev]. rewrite <- app_assoc. reflexivity.
    + intros (p & e & H & ->). rewrite Forall_forall in IH.
      inversion H as [| | |l' m p' e' Hm Hi|]; subst; exists m; (split; [exact Hm|]); apply (IH m Hm); exists p', e; (split; [exact Hi|]);
        cbn [map rev up_of]; rewrite <- app_assoc; reflexivity.
  - destruct x; [split; [intros []|intros (p & e & H & _); inversion H]|]. rewrite in_flat_map. split.
    + intros (m & Hm & Hi). rewrite Forall_forall in IH. apply (IH m Hm) in Hi. destruct Hi as (p & e & H & ->).
      exists (InGenerator :: p), e. split; [econstructor; eassumption|]. cbn [map rev]. rewrite <- app_assoc. reflexivity.
    + intros (p & e & H & ->). rewrite Forall_forall in IH.
      inversion H as [| | | |l' m p' e' Hm Hi]; subst; exists m; (split; [exact Hm|]); apply (IH m Hm); exists p', e; (split; [exact Hi|]);
        cbn [map rev up_of]; rewrite <- app_assoc; reflexivity.
  - split; [intros []|intros (p & e & H & _); inversion H].
Qed.
Lemma clocked_snoc p x : clocked (p ++ [x]) <-> x = InSequential \/ x <> InGenerator /\ clocked p.
Proof.
  split.
  - intros (p1 & p2 & E & N). destruct (exists_last (l := InSequential :: p2)) as (q & y & Ey); [discriminate|].
    rewrite Ey, app_assoc in E. apply app_inj_tail in E. destruct E as (E & ->).
    destruct q as [|z q]; cbn in Ey; [injection Ey as <- _; left; reflexivity|]. injection Ey as <- Ey. right.
    assert (Y : In y p2) by (rewrite Ey; apply in_or_app; right; left; reflexivity).
    split; [intros ->; contradiction|]. exists p1, q. split; [exact E|]. intros H. apply N. rewrite Ey. apply in_or_app. left. exact H.
  - intros [->|(N & p1 & p2 & -> & H)]; [exists p, []; split; [reflexivity|intros []]|].
    exists p1, (p2 ++ [x]). split; [rewrite <- app_assoc; reflexivity|]. intros I0. apply in_app_or in I0. destruct I0 as [I0|[E|[]]]; [contradiction|congruence].
Qed.
Lemma combinational_clocked p : combinational (rev (map up_of p)) = false <-> clocked p.
Proof.
  induction p as [|x p IH] using rev_ind; [cbn; split; [discriminate|intros (p1 & p2 & E & _); destruct p1; discriminate]|].
  rewrite map_app, rev_app_distr, clocked_snoc. cbn [map rev app].
  destruct x; cbn [up_of combinational].
  - split; [left; reflexivity|reflexivity].
  - rewrite IH. split; [intros H; right; split; [discriminate|exact H]|intros [H|(_ & H)]; [discriminate|exact H]].
  - rewrite IH. split; [intros H; right; split; [discriminate|exact H]|intros [H|(_ & H)]; [discriminate|exact H]].
  - split; [discriminate|intros [H|(H & _)]; [discriminate|congruence]].
Qed.
Lemma visit_events n : forall up, map i_stmt (visit up n) = events n.
Proof.
  assert (G : forall l up, Forall (fun n => forall up, map i_stmt (visit up n) = events n) l -> map i_stmt (flat_map (visit up) l) = flat_map events l).
  { clear n; induction 1 as [|n l H F IH]; [reflexivity|]. cbn [flat_map]. rewrite map_app, H, IH. reflexivity. }
  induction n as [e|s l IH|l IH|x l IH|] using node_rect'; intros up; cbn [visit events]; try reflexivity; try (apply G; exact IH).
  destruct x; [reflexivity|]. apply G. exact IH.
Qed.
Lemma say_frame e s : e_name (say e s) = e_name e /\ e_fields (say e s) = e_fields e.
Proof. destruct s as [[t|]|[t|]|t|f v]; cbn; try (split; reflexivity). unfold matches. destruct (existsb _ _); split; reflexivity. Qed.
Lemma say_transaction e s : e_transaction (say e s) = match names s with Some t => t | None => e_transaction e end.
Proof. destruct s as [[t|]|[t|]|t|f v]; try reflexivity. cbn. unfold matches. destruct (existsb _ _); reflexivity. Qed.
Lemma say_action e s k : Z.testbit (e_action (say e s)) k =
  (Z.testbit (e_action e) k || match s with Starts _ => Z.testbit 1 k | Terminates _ => Z.testbit 2 k | _ => false end)%bool.
Proof.
  destruct s as [[t|]|[t|]|t|f v]; cbn [say act belongs e_action]; rewrite ?Z.lor_spec, ?Bool.orb_false_r; try reflexivity.
  unfold matches. destruct (existsb _ _); reflexivity.
Qed.
Lemma find_app {A} (f : A -> bool) l x : find f (l ++ [x]) = match find f l with Some y => Some y | None => if f x then Some x else None end.
Proof. induction l as [|y l IH]; [reflexivity|]. cbn. destruct (f y); [reflexivity|exact IH]. Qed.
Lemma existsb_find {A} (f : A -> bool) l : existsb f l = match find f l with Some _ => true | None => false end.
Proof. induction l as [|y l IH]; [reflexivity|]. cbn. destruct (f y); [reflexivity|exact IH]. Qed.
Lemma say_matched e s g : matched (say e s) g =
  match matched e g with Some v => Some v | None => match s with Matches f v => if String.eqb g f then Some v else None | _ => None end end.
Proof.
  assert (T : forall e', e_matches e' = e_matches e -> matched e' g = match matched e g with Some v => Some v | None => None end).
  { intros e' E. unfold matched. rewrite E. destruct (find _ _); reflexivity. }
  destruct s as [[t|]|[t|]|t|f v]; try (apply T; reflexivity).
  cbn [say]. unfold matches. rewrite existsb_find. destruct (find (fun x => String.eqb f (fst x)) (e_matches e)) as [y|] eqn:E.
  - destruct (String.eqb_spec g f) as [->|N]; [unfold matched; rewrite E; reflexivity|]. unfold matched. destruct (option_map _ _); reflexivity.
  - unfold matched. cbn [e_matches]. rewrite find_app. destruct (find (fun x => String.eqb g (fst x)) (e_matches e)); [reflexivity|].
    cbn [fst]. destruct (String.eqb g f); reflexivity.
Qed.
