(* Proofs about Flow_model. *)
From Verif Require Import Base SV_spec IR IRSem_spec IR_lemmas IfCase_proofs Bits Flow_spec Flow_model.
Local Open Scope Z_scope.

Section Check.
  Variable G : tenv.
  Variable cond : stmt -> bool.
  Variables unr full : bool.
  Notation check := (check G cond unr full).
  Notation check_block := (check_block G cond unr full).
  Notation check_cases := (check_cases G cond unr full).

  Lemma check_eq : forall s, check s =
    if cond s then Ok true else
    match s with
    | SBlock b => check_block b
    | SSwitch e cs d =>
        match cs, d with
        | [], None => Ok false
        | _, _ =>
            olet n0 := match d with
                       | None => Ok (Some 0)
                       | Some b => olet x := check_block b in
                                   if x then Ok (Some 1) else if full then Ok None else Ok (Some 0)
                       end in
            match n0 with
            | None => Ok false
            | Some n0 =>
                olet n := check_cases cs n0 in
                match n with
                | None => Ok false
                | Some n =>
                    olet k := target_cases G e in
                    if full then Ok (match d with Some _ => true | None => n =? k end)
                    else Ok (0 <? n)
                end
            end
        end
    | SIf _ t f =>
        olet x := check_block t in
        if full then (if x then check_block f else Ok false) else (if x then Ok true else check_block f)
    | SFor _ _ _ _ b => check_block b
    | _ => Ok false
    end.
  Proof. intros []; reflexivity. Qed.

  Lemma check_block_true : forall l, check_block l = Ok true ->
    exists l1 s l2, l = l1 ++ s :: l2 /\ check s = Ok true /\ (unr = true -> l2 = []).
  Proof.
    induction l as [|s l IH]; cbn [Flow_model.check_block]; intros H; [discriminate|].
    apply obind_Ok in H as (b & E & H). destruct b.
    - exists [], s, l. split; [reflexivity|]. split; [exact E|]. intros U. rewrite U in H.
      destruct l; [reflexivity|discriminate].
    - destruct (IH H) as (l1 & s' & l2 & -> & E2 & U). exists (s :: l1), s', l2. auto.
  Qed.
End Check.

Section Full.
  Variable G : tenv.
  Variable cond : stmt -> bool.
  Variable unr : bool.
  Notation check := (check G cond unr true).
  Notation check_block := (check_block G cond unr true).
  Notation check_cases := (check_cases G cond unr true).

  Lemma check_cases_full : forall cs n m, check_cases cs n = Ok (Some m) ->
    Forall (fun cb => check_block (snd cb) = Ok true) cs /\ m = n + Z.of_nat (length cs).
  Proof.
    induction cs as [|cb cs IH]; intros n m H; cbn [Flow_model.check_cases] in H.
    - inversion H; subst. split; [constructor|]. cbn. lia.
    - apply obind_Ok in H as (b & E & H). destruct b; [|discriminate].
      destruct (IH _ _ H) as [F ->]. split; [constructor; assumption|]. cbn [length]. lia.
  Qed.
  Lemma check_true : forall s, check s = Ok true -> cond s = true \/
    match s with
    | SBlock b => check_block b = Ok true
    | SIf _ t f => check_block t = Ok true /\ check_block f = Ok true
    | SFor _ _ _ _ b => check_block b = Ok true
    | SSwitch e cs d =>
        Forall (fun cb => check_block (snd cb) = Ok true) cs
        /\ (forall b, d = Some b -> check_block b = Ok true)
        /\ (d = None -> Z.of_nat (length cs) = 2 ^ ewidth G e)
    | _ => False
    end.
  Proof.
    intros s H. rewrite check_eq in H. destruct (cond s); [auto|right].
    destruct s; try discriminate; auto.
    - apply obind_Ok in H as (b & E & H). destruct b; [auto|discriminate].
    - assert ((olet n0 := match d with
                       | None => Ok (Some 0)
                       | Some b => olet x := check_block b in
                                   if x then Ok (Some 1) else Ok None
                       end in
            match n0 with
            | None => Ok false
            | Some n0 =>
                olet n := check_cases cs n0 in
                match n with
                | None => Ok false
                | Some n =>
                    olet k := target_cases G e in
                    Ok (match d with Some _ => true | None => n =? k end)
                end
            end) = Ok true) as H' by (destruct cs, d; try discriminate; exact H).
      clear H. apply obind_Ok in H' as (n0 & E & H). destruct n0 as [n0|]; [|discriminate].
      apply obind_Ok in H as (n & E2 & H). destruct n as [n|]; [|discriminate].
      apply obind_Ok in H as (k & E3 & H). destruct (check_cases_full _ _ _ E2) as [F L].
      split; [exact F|]. unfold target_cases in E3. destruct (_ <? 32); [|discriminate].
      apply Ok_inj in E3. destruct d as [b|].
      + split; [|discriminate]. intros b' Q. inversion Q; subst b'.
        apply obind_Ok in E as (x & E & Q2). destruct x; [exact E|discriminate].
      + split; [discriminate|]. intros _. apply Ok_inj in E. inversion E; subst n0.
        apply Ok_inj in H. apply Z.eqb_eq in H. lia.
  Qed.
End Full.

(* a switch that lists all values takes one of its cases *)
Lemma all_values : forall (l : list Z) n, (0 <= n)%nat -> NoDup l -> Forall (fun k => 0 <= k < Z.of_nat n) l ->
  length l = n -> forall v, 0 <= v < Z.of_nat n -> In v l.
Proof.
  intros l n _ N F L v R.
  assert (incl (map Z.of_nat (seq 0 n)) l) as I.
  { apply NoDup_length_incl; [exact N| |].
    - rewrite map_length, seq_length. lia.
    - intros k Hk. rewrite Forall_forall in F. specialize (F k Hk). apply in_map_iff.
      exists (Z.to_nat k). split; [lia|]. apply in_seq. lia. }
  apply I. apply in_map_iff. exists (Z.to_nat v). split; [lia|]. apply in_seq. lia.
Qed.
Lemma pick_chosen : forall G v w cs d st,
  pick G v w cs d st = match chosen v w cs d with Some b => run G b st | None => st end.
Proof.
  intros G v w cs d st. unfold chosen. induction cs as [|cb cs IH]; cbn [pick find]; [destruct d; reflexivity|].
  destruct (v =? enc w (fst cb)); [reflexivity|exact IH].
Qed.
Lemma chosen_in : forall v w cs d b, chosen v w cs d = Some b -> (exists k, In (k, b) cs) \/ d = Some b.
Proof.
  intros v w cs d b H. unfold chosen in H. destruct (find _ cs) as [[k b']|] eqn:E.
  - inversion H; subst. apply find_some in E as [I _]. left. exists k. exact I.
  - auto.
Qed.
Lemma chosen_exists : forall G e r cs d,
  wt G e -> NoDup (map fst cs) -> Forall (fun cb => 0 <= fst cb < 2 ^ ewidth G e) cs ->
  (d = None -> Z.of_nat (length cs) = 2 ^ ewidth G e) ->
  exists b, chosen (ev G r e) (ewidth G e) cs d = Some b.
Proof.
  intros G e r cs d W N F L. unfold chosen.
  destruct (find (fun cb => ev G r e =? enc (ewidth G e) (fst cb)) cs) as [cb|] eqn:E; [eauto|].
  destruct d as [b|]; [eauto|]. exfalso. specialize (L eq_refl).
  pose proof (ev_fits G r e W) as R. unfold fits in R.
  assert (In (ev G r e) (map fst cs)) as I.
  { apply (all_values _ (length cs)); [lia|exact N| |apply map_length|lia].
    rewrite L. apply Forall_map. exact F. }
  apply in_map_iff in I as (cb & Q & I). pose proof (find_none _ _ E cb I) as K. cbn in K.
  apply Z.eqb_neq in K. apply K. unfold enc. rewrite Z.mod_small; [auto|].
  rewrite Forall_forall in F. exact (F cb I).
Qed.

(* parts of regular blocks *)
Section Parts.
  Variable G : tenv.
  Lemma regular_incl : forall a b, (forall s, inside s a -> inside s b) -> regular G b -> regular G a.
  Proof. intros a b I R s H. apply R, I, H. Qed.
  Lemma noret_incl : forall a b, (forall s, inside s a -> inside s b) -> no_return b -> no_return a.
  Proof. intros a b I R e H. exact (R e (I _ H)). Qed.
  Lemma ins_tl : forall s l x, inside x l -> inside x (s :: l).
  Proof. intros. eapply inside_mono; eauto. intros y Hy. right; exact Hy. Qed.
  Lemma ins_hd : forall s l x, inside x [s] -> inside x (s :: l).
  Proof. intros. eapply inside_elem; eauto. left; reflexivity. Qed.
  Lemma ins_l : forall a b x, inside x a -> inside x (a ++ b).
  Proof. intros. eapply inside_mono; eauto. intros y Hy. apply in_app_iff; auto. Qed.
  Lemma ins_r : forall a b x, inside x b -> inside x (a ++ b).
  Proof. intros. eapply inside_mono; eauto. intros y Hy. apply in_app_iff; auto. Qed.
  Lemma ins_then : forall c t f x, inside x t -> inside x [SIf c t f].
  Proof. intros. eapply in_then; eauto. left; reflexivity. Qed.
  Lemma ins_else : forall c t f x, inside x f -> inside x [SIf c t f].
  Proof. intros. eapply in_else; eauto. left; reflexivity. Qed.
  Lemma ins_case : forall e cs d k b x, In (k, b) cs -> inside x b -> inside x [SSwitch e cs d].
  Proof. intros. eapply in_case; eauto. left; reflexivity. Qed.
  Lemma ins_def : forall e cs b x, inside x b -> inside x [SSwitch e cs (Some b)].
  Proof. intros. eapply in_default; eauto. left; reflexivity. Qed.
  Lemma ins_for : forall i a b s body x, inside x body -> inside x [SFor i a b s body].
  Proof. intros. eapply in_for; eauto. left; reflexivity. Qed.
  Lemma ins_block : forall body x, inside x body -> inside x [SBlock body].
  Proof. intros. eapply in_block; eauto. left; reflexivity. Qed.
  Lemma ins_chosen : forall v w e cs d b x, chosen v w cs d = Some b -> inside x b -> inside x [SSwitch e cs d].
  Proof.
    intros v w e cs d b x H I. destruct (chosen_in _ _ _ _ _ H) as [[k K]| ->]; [eapply ins_case|eapply ins_def]; eauto.
  Qed.
End Parts.
Global Hint Resolve ins_tl ins_hd ins_l ins_r ins_then ins_else ins_case ins_def ins_for ins_block ins_chosen : ins.
Ltac sub := (eapply regular_incl || eapply noret_incl); [|eassumption]; eauto with ins.

Section NoJump.
  Variable G : tenv.
  Definition keeps (s : stmt) : Prop := regular G [s] -> no_return [s] ->
    forall st, st_status st = Running -> st_status (exec G s st) = Running.
  Lemma keeps_block : forall l, Forall keeps l -> regular G l -> no_return l ->
    forall st, st_status st = Running -> st_status (run G l st) = Running.
  Proof.
    induction l as [|s l IH]; intros F R N st S; [exact S|]. apply Forall_cons_iff in F as [F1 F2].
    rewrite run_cons. assert (st_status (exec G s st) = Running) as E.
    { apply F1; auto; sub. }
    rewrite E. apply IH; auto; sub.
  Qed.
  Lemma keeps_all : forall s, keeps s.
  Proof.
    induction s as [k l e|c t f Ht Hf|e cs d Hcs Hd|i a b sp body Hb|body Hb|e| |k] using stmt_ind';
      intros R N st S.
    - cbn. destruct k; exact S.
    - rewrite exec_if. destruct (truth G (st_cur st) c); apply keeps_block; auto; sub.
    - rewrite exec_switch, pick_chosen.
      destruct (chosen (ev G (st_cur st) e) (ewidth G e) cs d) as [b|] eqn:E; [|exact S].
      apply keeps_block; auto; [|sub|sub].
      destruct (chosen_in _ _ _ _ _ E) as [[k K]|K]; [|auto].
      rewrite Forall_forall in Hcs. exact (Hcs _ K).
    - rewrite exec_for. generalize (for_values a b sp). intros vs. revert st S.
      induction vs as [|v vs IH]; intros st S; [exact S|]. cbn [loop].
      match goal with |- context [run G body ?s1] => assert (st_status (run G body s1) = Running) as E end.
      { apply keeps_block; auto; sub. }
      rewrite E. apply IH, E.
    - rewrite exec_block. apply keeps_block; auto; sub.
    - exfalso. apply (N e). apply inside_self.
    - exfalso. exact (R _ (inside_self _)).
    - exact S.
  Qed.
  Lemma run_keeps : forall l, regular G l -> no_return l ->
    forall st, st_status st = Running -> st_status (run G l st) = Running.
  Proof. intros l. apply keeps_block. apply Forall_forall. intros; apply keeps_all. Qed.
End NoJump.

(* ---- every path executes a matching statement ---- *)
Section Hits.
  Variable G : tenv.
  Variable cond : stmt -> bool.
  Variable unr : bool.
  Variable P : stmt -> Prop.
  Hypothesis condP : forall s, cond s = true -> P s.

  Lemma hits_more : forall s l st, hits G P [s] st -> hits G P (s :: l) st.
  Proof.
    intros s l st H. inversion H; subst; try (constructor; assumption).
    - match goal with K : hits G P [] _ |- _ => inversion K end.
    - eapply hit_case; eauto.
  Qed.
  Definition must (s : stmt) : Prop := regular G [s] -> no_return [s] -> check G cond unr true s = Ok true ->
    forall st, st_status st = Running -> hits G P [s] st.
  Lemma must_block : forall l, Forall must l -> regular G l -> no_return l ->
    check_block G cond unr true l = Ok true -> forall st, st_status st = Running -> hits G P l st.
  Proof.
    intros l F R N H. destruct (check_block_true _ _ _ _ _ H) as (l1 & s & l2 & -> & E & _).
    clear H. induction l1 as [|a l1 IH]; intros st S; cbn [app] in *; apply Forall_cons_iff in F as [F1 F2].
    - apply hits_more. apply F1; auto; sub.
    - assert (st_status (exec G a st) = Running) as K by (apply keeps_all; auto; sub).
      apply hit_next; [exact K|]. apply IH; auto; sub.
  Qed.
  Lemma must_all : forall s, must s.
  Proof.
    induction s as [k l e|c t f Ht Hf|e cs d Hcs Hd|i a b sp body Hb|body Hb|e| |k] using stmt_ind';
      intros R N C st S; (destruct (check_true _ _ _ _ C) as [C1|C1]; [apply hit_here; auto|]);
      try contradiction.
    - destruct C1 as [C1 C2]. destruct (truth G (st_cur st) c) eqn:T; [apply hit_then|apply hit_else]; auto;
        apply must_block; auto; sub.
    - destruct C1 as (C1 & C2 & C3). destruct (R _ (inside_self _)) as (W & _ & ND & Rg).
      destruct (chosen_exists G e (st_cur st) cs d W ND Rg C3) as [b E]. eapply hit_case; [exact E|].
      destruct (chosen_in _ _ _ _ _ E) as [[k K]|K]; apply must_block; auto; try (sub; fail).
      + rewrite Forall_forall in Hcs. exact (Hcs _ K).
      + rewrite Forall_forall in C1. exact (C1 _ K).
    - apply hit_for. pose proof (R _ (inside_self _)) as NE. cbn in NE.
      destruct (for_values a b sp) as [|v vs]; [contradiction|]. apply loop_now.
      apply must_block; auto; sub.
    - apply hit_block. apply must_block; auto; sub.
  Qed.
  Lemma block_hits : forall l, regular G l -> no_return l -> check_block G cond unr true l = Ok true ->
    forall st, st_status st = Running -> hits G P l st.
  Proof. intros l. apply must_block. apply Forall_forall. intros; apply must_all. Qed.
End Hits.

(* ---- every path returns ---- *)
Section Ret.
  Variable G : tenv.
  Definition returns (st : pstate) : Prop := exists v, st_status st = Returned v.
  Definition stops (s : stmt) : Prop := regular G [s] -> forall st, st_status st = Running ->
    st_status (exec G s st) <> Broken
    /\ (check G is_return true true s = Ok true -> returns (exec G s st)).
  Lemma stops_block : forall l, Forall stops l -> regular G l -> forall st, st_status st = Running ->
    st_status (run G l st) <> Broken
    /\ (check_block G is_return true true l = Ok true -> returns (run G l st)).
  Proof.
    induction l as [|s l IH]; intros F R st S; [split; [cbn; congruence|discriminate]|].
    apply Forall_cons_iff in F as [F1 F2]. destruct (F1 ltac:(sub) st S) as [A B].
    rewrite run_cons. destruct (st_status (exec G s st)) as [| |v] eqn:E; [|congruence|].
    - destruct (IH F2 ltac:(sub) _ E) as [C D]. split; [exact C|]. intros H. cbn [check_block] in H.
      apply obind_Ok in H as (b & Q & H). destruct b; [|auto].
      destruct (B Q) as [v Ev]. congruence.
    - split; [congruence|]. intros _. exists v. exact E.
  Qed.
  Lemma stops_all : forall s, stops s.
  Proof.
    induction s as [k l e|c t f Ht Hf|e cs d Hcs Hd|i a b sp body Hb|body Hb|e| |k] using stmt_ind';
      intros R st S.
    - split; [|discriminate]. cbn. destruct k; cbn; congruence.
    - rewrite exec_if. destruct (stops_block t Ht ltac:(sub) st S) as [A1 A2].
      destruct (stops_block f Hf ltac:(sub) st S) as [B1 B2].
      split; [destruct (truth G (st_cur st) c); assumption|].
      intros C. destruct (check_true _ _ _ _ C) as [C1|[C1 C2]]; [discriminate|].
      destruct (truth G (st_cur st) c); auto.
    - destruct (R _ (inside_self _)) as (W & _ & ND & Rg). rewrite exec_switch, pick_chosen.
      assert (forall b, chosen (ev G (st_cur st) e) (ewidth G e) cs d = Some b ->
                st_status (run G b st) <> Broken
                /\ (check_block G is_return true true b = Ok true -> returns (run G b st))) as K.
      { intros b E. apply stops_block; auto; [|sub]. destruct (chosen_in _ _ _ _ _ E) as [[k K]|K]; [|auto].
        rewrite Forall_forall in Hcs. exact (Hcs _ K). }
      split.
      + destruct (chosen _ _ _ _) as [b|] eqn:E; [apply K; reflexivity|congruence].
      + intros C. destruct (check_true _ _ _ _ C) as [C1|(C1 & C2 & C3)]; [discriminate|].
        destruct (chosen_exists G e (st_cur st) cs d W ND Rg C3) as [b E]. rewrite E. apply K; [exact E|].
        destruct (chosen_in _ _ _ _ _ E) as [[k Q]|Q]; [|auto]. rewrite Forall_forall in C1. exact (C1 _ Q).
    - rewrite exec_for. pose proof (R _ (inside_self _)) as NE. cbn in NE.
      assert (forall vs st, st_status st = Running -> st_status (loop G i body vs st) <> Broken) as NB.
      { clear st S. induction vs as [|v vs IH]; intros st S; [cbn; congruence|]. cbn [loop].
        destruct (st_status (run G body _)) eqn:Q; cbn; try congruence. apply IH. exact Q. }
      split; [apply NB, S|]. intros C.
      destruct (check_true _ _ _ _ C) as [C1|C1]; [discriminate|].
      destruct (for_values a b sp) as [|v vs]; [contradiction|]. cbn [loop].
      fold (iter_state G i v st).
      destruct (stops_block body Hb ltac:(sub) (iter_state G i v st) S) as [_ B]. destruct (B C1) as [x Q].
      rewrite Q. exists x. exact Q.
    - rewrite exec_block. destruct (stops_block body Hb ltac:(sub) st S) as [A B]. split; [exact A|].
      intros C. destruct (check_true _ _ _ _ C) as [C1|C1]; [discriminate|auto].
    - split; [cbn; congruence|]. intros _. eexists. reflexivity.
    - exfalso. exact (R _ (inside_self _)).
    - split; [cbn; congruence|]. discriminate.
  Qed.
  Lemma return_sound : forall l, regular G l -> check_block G is_return true true l = Ok true ->
    forall st, st_status st = Running -> returns (run G l st).
  Proof.
    intros l R C st S. apply stops_block; auto. apply Forall_forall. intros; apply stops_all.
  Qed.
End Ret.

(* ---- the latch check ---- *)
Lemma fold_throw : forall (A : Type) (f : A -> outcome unit) l acc,
  fold_left (fun acc x => olet _ := acc in f x) l acc = Ok tt -> acc = Ok tt /\ Forall (fun x => f x = Ok tt) l.
Proof.
  induction l as [|x l IH]; intros acc H; [auto|]. cbn [fold_left] in H.
  destruct (IH _ H) as [E F]. destruct acc as [[]| |]; try discriminate. auto.
Qed.
Lemma assigned_if : forall c t f, assigned (SIf c t f) = assigned_block t ++ assigned_block f.
Proof. reflexivity. Qed.
Lemma assigned_inside : forall body k l e, inside (SAssign k l e) body ->
  (forall x i w, l <> LDyn x i w) -> In (lhs_var l) (assigned_block body).
Proof.
  assert (forall s l x, In s l -> In x (assigned s) -> In x (assigned_block l)) as K.
  { intros s l x. induction l as [|a l IH]; intros I H; [destruct I|]. cbn [assigned_block]. apply in_app_iff.
    destruct I as [->|I]; auto. }
  intros body k l e H D. induction H as [b H|b c t f H _ IH|b c t f H _ IH|b e0 cs d k0 bb H Hc _ IH|b e0 cs bb H _ IH
     |b i a z st bb H _ IH|b bb H _ IH]; eapply K; eauto.
  - destruct l; cbn; auto. exfalso. eapply D; eauto.
  - rewrite assigned_if. apply in_app_iff. auto.
  - rewrite assigned_if. apply in_app_iff. auto.
  - cbn [assigned]. apply in_app_iff. left. clear H K. induction cs as [|cb cs IHc]; [destruct Hc|].
    apply in_app_iff. destruct Hc as [->|Hc]; [left; exact IH|right; auto].
  - cbn [assigned]. apply in_app_iff. right. exact IH.
Qed.
Lemma latch_all : forall G body, latch_check G body = Ok tt -> forall k l e, inside (SAssign k l e) body ->
  (forall x i w, l <> LDyn x i w) -> check_block G (is_assign_to (lhs_var l)) false true body = Ok true.
Proof.
  intros G body H k l e I D. unfold latch_check in H.
  apply (fold_throw _ (fun x => olet b := check_block G (is_assign_to x) false true body in
                          if b then Ok tt else Throw)) in H as [_ F].
  rewrite Forall_forall in F. specialize (F _ (assigned_inside _ _ _ _ I D)).
  cbv beta in F. apply obind_Ok in F as (b & E & F). destruct b; [exact E|discriminate].
Qed.

(* ---- no memory ---- *)
Section Mem.
  Variable G : tenv.
  Definition same (x : var) (r1 r2 : venv) : Prop := seen G r1 x = seen G r2 x.
  Lemma ev_same : forall e r1 r2, (forall x, In x (evars e) -> same x r1 r2) -> ev G r1 e = ev G r2 e.
  Proof.
    induction e; cbn [evars ev]; intros r1 r2 H; auto.
    - apply H. left; reflexivity.
    - rewrite (IHe r1 r2); auto.
    - rewrite (IHe1 r1 r2), (IHe2 r1 r2); auto; intros; apply H, in_or_app; auto.
    - rewrite (IHe1 r1 r2), (IHe2 r1 r2), (IHe3 r1 r2); auto; intros; apply H, in_or_app; auto; right; apply in_or_app; auto.
    - rewrite (IHe r1 r2); auto.
    - rewrite (IHe1 r1 r2), (IHe2 r1 r2); auto; intros; apply H, in_or_app; auto.
    - rewrite (IHe r1 r2); auto.
  Qed.
  Lemma seen_bits : forall x r1 r2, 0 <= d_width (G x) ->
    same x r1 r2 <-> (forall i, 0 <= i < d_width (G x) -> Z.testbit (r1 x) i = Z.testbit (r2 x) i).
  Proof.
    intros x r1 r2 W. unfold same, seen, enc. split.
    - intros H i Hi. rewrite <- (Z.mod_pow2_bits_low (r1 x) (d_width (G x))), H by lia.
      apply Z.mod_pow2_bits_low. lia.
    - intros H. apply Z.bits_inj'. intros i Hi. destruct (Z_lt_le_dec i (d_width (G x))).
      + rewrite !Z.mod_pow2_bits_low by lia. apply H. lia.
      + rewrite !Z.mod_pow2_bits_high by lia. reflexivity.
  Qed.

  Hypothesis pos : forall y, 0 < d_width (G y).
  Variable x : var.
  Definition agree (S : var -> Prop) (st1 st2 : pstate) : Prop :=
    st_status st1 = Running /\ st_status st2 = Running /\ forall y, S y -> same y (st_cur st1) (st_cur st2).
  Definition pure (l : list stmt) : Prop :=
    regular G l /\ no_return l /\ combinational G l
    /\ forall k l' e, inside (SAssign k l' e) l -> lhs_var l' = x -> l' = LVar x.
  Lemma pure_incl : forall a b, (forall s, inside s a -> inside s b) -> pure b -> pure a.
  Proof.
    intros a b I (A & B & C & D). split; [eapply regular_incl; eauto|]. split; [eapply noret_incl; eauto|].
    split; [intros k l e H; apply (C k l e); auto|]. intros k l e H. apply (D k l e); auto.
  Qed.
  Definition det (s : stmt) : Prop := pure [s] -> forall S : var -> Prop, (forall y, reads [s] y -> S y) ->
    forall st1 st2, agree S st1 st2 ->
    agree S (exec G s st1) (exec G s st2)
    /\ (check G (is_assign_to x) false true s = Ok true -> same x (st_cur (exec G s st1)) (st_cur (exec G s st2))).
  Lemma reads_incl : forall a b y, (forall s, inside s a -> inside s b) -> reads a y -> reads b y.
  Proof. intros a b y I (s & H & K). exists s. auto. Qed.
  Ltac psub := first [eapply pure_incl; [|eassumption]; eauto with ins
                     | let y := fresh in intros y ?; match goal with H : forall y, reads _ y -> _ |- _ => apply H end;
                       eapply reads_incl; [|eassumption]; eauto with ins].
  Lemma det_block : forall l, Forall det l -> pure l -> forall S : var -> Prop, (forall y, reads l y -> S y) ->
    forall st1 st2, agree S st1 st2 ->
    agree S (run G l st1) (run G l st2)
    /\ (check_block G (is_assign_to x) false true l = Ok true ->
        same x (st_cur (run G l st1)) (st_cur (run G l st2))).
  Proof.
    induction l as [|s l IH]; intros F P S Rd st1 st2 A; [split; [exact A|discriminate]|].
    apply Forall_cons_iff in F as [F1 F2].
    destruct (F1 ltac:(psub) S ltac:(psub) st1 st2 A) as [A1 B1].
    rewrite !run_cons. destruct A1 as (S1 & S2 & A1). rewrite S1, S2.
    destruct (IH F2 ltac:(psub) S ltac:(psub) _ _ (conj S1 (conj S2 A1))) as [A2 B2].
    split; [exact A2|]. intros H. cbn [check_block] in H. apply obind_Ok in H as (b & E & H). destruct b; [|auto].
    assert (agree (fun y => S y \/ y = x) (exec G s st1) (exec G s st2)) as A3.
    { split; [exact S1|]. split; [exact S2|]. intros y [K| ->]; auto. }
    destruct (IH F2 ltac:(psub) (fun y => S y \/ y = x)
                ltac:(intros y Hy; left; apply Rd; eapply reads_incl; [|exact Hy]; eauto with ins) _ _ A3) as [(_ & _ & A4) _].
    apply A4. auto.
  Qed.
  Lemma put_same : forall y u1 u2 r1 r2, w_var u1 = w_var u2 -> w_lo u1 = w_lo u2 -> w_n u1 = w_n u2 ->
    w_val u1 = w_val u2 -> 0 <= w_lo u1 -> 0 <= w_n u1 ->
    same y r1 r2 \/ (w_var u1 = y /\ w_lo u1 = 0 /\ w_n u1 = d_width (G y)) ->
    same y (do_write r1 u1) (do_write r2 u2).
  Proof.
    intros y u1 u2 r1 r2 E1 E2 E3 E4 L N H. pose proof (pos y) as W. apply seen_bits; [lia|]. intros i Hi.
    assert ({wcovers u1 y i} + {~ wcovers u1 y i}) as [C|C].
    { unfold wcovers. destruct (Nat.eq_dec (w_var u1) y); [|right; tauto].
      destruct (Z_le_dec (w_lo u1) i); [|right; lia]. destruct (Z_lt_dec i (w_lo u1 + w_n u1)); [left; auto|right; lia]. }
    - assert (wcovers u2 y i) as C2 by (unfold wcovers in *; rewrite <- E1, <- E2, <- E3; exact C).
      rewrite !do_write_in by (auto; lia). rewrite E2, E4. reflexivity.
    - assert (~ wcovers u2 y i) as C2 by (unfold wcovers in *; rewrite <- E1, <- E2, <- E3; exact C).
      rewrite !do_write_out by (auto; lia). destruct H as [H|(H1 & H2 & H3)].
      + apply (proj1 (seen_bits y r1 r2 ltac:(lia)) H). lia.
      + exfalso. apply C. split; [exact H1|]. rewrite H2, H3. lia.
  Qed.
  Lemma det_all : forall s, det s.
  Proof.
    induction s as [k l e|c t f Ht Hf|e cs d Hcs Hd|i a b sp body Hb|body Hb|e| |k] using stmt_ind';
      intros P S Rd st1 st2 A.
    - destruct P as (_ & _ & C & W). destruct (C k l e (inside_self _)) as [NB T].
      pose proof A as (S1 & S2 & A0).
      assert (ev G (st_cur st1) e = ev G (st_cur st2) e) as E.
      { apply ev_same. intros y Hy. apply A0, Rd. eexists. split; [apply inside_self|].
        cbn. apply in_app_iff. auto. }
      assert (forall y i w, l = LDyn y i w -> ev G (st_cur st1) i = ev G (st_cur st2) i) as E2.
      { intros y i w ->. apply ev_same. intros z Hz. apply A0, Rd. eexists. split; [apply inside_self|].
        cbn. apply in_app_iff. auto. }
      assert (forall y, same y (st_cur st1) (st_cur st2) \/ (lhs_var l = y /\ y = x) ->
                same y (st_cur (exec G (SAssign k l e) st1)) (st_cur (exec G (SAssign k l e) st2))) as K.
      { intros y H. pose proof (pos y).
        assert (same y (do_write (st_cur st1) (target G (st_cur st1) l (ev G (st_cur st1) e)))
                       (do_write (st_cur st2) (target G (st_cur st2) l (ev G (st_cur st2) e)))) as K.
        { destruct l as [z|z hi lo|z ix w]; cbn [target]; try rewrite (E2 z ix w eq_refl); apply put_same; cbn [w_var w_lo w_n w_val]; auto; try lia.
          - pose proof (pos z). lia.
          - destruct H as [H|[H1 H2]]; [auto|]. right. cbn in H1. subst. auto.
          - destruct H as [H|[H1 H2]]; [auto|]. rewrite H2 in H1. specialize (W k (LSlice z hi lo) e (inside_self _) H1). discriminate.
          - destruct T as [T1 T2]. pose proof (ev_fits G (st_cur st2) ix T2) as F. unfold fits in F. apply Z.mul_nonneg_nonneg; lia.
          - destruct H as [H|[H1 H2]]; [auto|]. rewrite H2 in H1. specialize (W k (LDyn z ix w) e (inside_self _) H1). discriminate. }
        destruct k; [exact K|contradiction|exact K]. }
      split.
      + split; [|split]; [destruct k; exact S1|destruct k; exact S2|]. intros y Hy. apply K. auto.
      + intros C2. rewrite check_eq in C2. cbn [is_assign_to] in C2.
        destruct (Nat.eqb_spec (lhs_var l) x) as [Q|Q]; [|discriminate]. apply K. auto.
    - pose proof A as (S1 & S2 & A0). rewrite !exec_if.
      assert (truth G (st_cur st1) c = truth G (st_cur st2) c) as E.
      { unfold truth. rewrite (ev_same c (st_cur st1) (st_cur st2)); [reflexivity|].
        intros y Hy. apply A0, Rd. eexists. split; [apply inside_self|]. exact Hy. }
      rewrite <- E. destruct (det_block t Ht ltac:(psub) S ltac:(psub) _ _ A) as [T1 T2].
      destruct (det_block f Hf ltac:(psub) S ltac:(psub) _ _ A) as [F1 F2].
      split; [destruct (truth _ _ _); assumption|]. intros C.
      destruct (check_true _ _ _ _ C) as [C1|[C1 C2]]; [discriminate|]. destruct (truth _ _ _); auto.
    - pose proof A as (S1 & S2 & A0). destruct P as (R & P). destruct (R _ (inside_self _)) as (W & _ & ND & Rg).
      assert (pure [SSwitch e cs d]) as P' by (split; [exact R|exact P]).
      assert (ev G (st_cur st1) e = ev G (st_cur st2) e) as E.
      { apply ev_same. intros y Hy. apply A0, Rd. eexists. split; [apply inside_self|]. exact Hy. }
      rewrite !exec_switch, !pick_chosen, <- E.
      assert (forall b, chosen (ev G (st_cur st1) e) (ewidth G e) cs d = Some b ->
        agree S (run G b st1) (run G b st2)
        /\ (check_block G (is_assign_to x) false true b = Ok true ->
            same x (st_cur (run G b st1)) (st_cur (run G b st2)))) as K.
      { intros b Q. apply det_block; auto; [|psub|psub]. destruct (chosen_in _ _ _ _ _ Q) as [[k K]|K]; [|auto].
        rewrite Forall_forall in Hcs. exact (Hcs _ K). }
      split.
      + destruct (chosen _ _ _ _) as [b|] eqn:Q; [apply K; reflexivity|exact A].
      + intros C. destruct (check_true _ _ _ _ C) as [C1|(C1 & C2 & C3)]; [discriminate|].
        destruct (chosen_exists G e (st_cur st1) cs d W ND Rg C3) as [b Q]. rewrite Q. apply K; [exact Q|].
        destruct (chosen_in _ _ _ _ _ Q) as [[k Q']|Q']; [|auto]. rewrite Forall_forall in C1. exact (C1 _ Q').
    - rewrite !exec_for.
      assert (forall (S : var -> Prop) v st1 st2, (forall y, reads [SFor i a b sp body] y -> S y) -> agree S st1 st2 ->
                agree S (run G body (iter_state G i v st1)) (run G body (iter_state G i v st2))
                /\ (check_block G (is_assign_to x) false true body = Ok true ->
                    same x (st_cur (run G body (iter_state G i v st1))) (st_cur (run G body (iter_state G i v st2))))) as Step.
      { intros S0 v s1 s2 Rd0 (S1 & S2 & A0). apply det_block; auto; [psub|psub|].
        split; [exact S1|]. split; [exact S2|]. intros y Hy. unfold iter_state, same, seen, upd. cbn.
        destruct (Nat.eqb y i); [reflexivity|]. apply A0, Hy. }
      assert (forall vs (S : var -> Prop) st1 st2, (forall y, reads [SFor i a b sp body] y -> S y) -> agree S st1 st2 ->
                agree S (loop G i body vs st1) (loop G i body vs st2)) as Loop.
      { induction vs as [|v vs IH]; intros S0 s1 s2 Rd0 A0; [exact A0|]. cbn [loop].
        fold (iter_state G i v s1) (iter_state G i v s2).
        destruct (Step S0 v s1 s2 Rd0 A0) as [(T1 & T2 & T3) _]. rewrite T1, T2.
        apply IH; [exact Rd0|]. split; [exact T1|]. split; [exact T2|exact T3]. }
      split; [apply Loop; auto|]. intros C.
      destruct (check_true _ _ _ _ C) as [C1|C1]; [discriminate|].
      pose proof (proj1 P _ (inside_self _)) as NE. cbn in NE.
      destruct (for_values a b sp) as [|v vs]; [contradiction|]. cbn [loop].
      fold (iter_state G i v st1) (iter_state G i v st2).
      destruct (Step S v st1 st2 Rd A) as [(T1 & T2 & T3) T4]. rewrite T1, T2. specialize (T4 C1).
      apply (Loop vs (fun y => S y \/ y = x)); auto.
      split; [exact T1|]. split; [exact T2|]. intros y [H| ->]; auto.
    - rewrite !exec_block. destruct (det_block body Hb ltac:(psub) S ltac:(psub) _ _ A) as [T1 T2].
      split; [exact T1|]. intros C. destruct (check_true _ _ _ _ C) as [C1|C1]; [discriminate|auto].
    - exfalso. exact (proj1 (proj2 P) e (inside_self _)).
    - exfalso. exact (proj1 P _ (inside_self _)).
    - split; [exact A|discriminate].
  Qed.
End Mem.

(* ---- somewhere ---- *)
Section Some_.
  Variable G : tenv.
  Variable cond : stmt -> bool.
  Notation chk := (check G cond false false).
  Notation chkb := (check_block G cond false false).
  Definition found (l : list stmt) : Prop := exists s, inside s l /\ cond s = true.
  Definition exact_ (s : stmt) : Prop := forall b, chk s = Ok b -> (b = true <-> found [s]).
  Lemma found_nil : ~ found [].
  Proof. intros (s & H & _). inversion H as [l I|l c t f I|l c t f I|l e cs d k b I|l e cs b I|l i a b st bd I|l bd I]; destruct I. Qed.
  Lemma found_cons : forall s l, found (s :: l) <-> found [s] \/ found l.
  Proof.
    intros s l. split.
    - intros (y & H & K). assert (inside y [s] \/ inside y l) as [I|I]; [|left; exists y; auto|right; exists y; auto].
      inversion H as [l' I|l' c t f I J|l' c t f I J|l' e cs d k b I Ic J|l' e cs b I J|l' i a b st bd I J|l' bd I J]; subst;
        destruct I as [I|I]; subst; eauto 4 using in_here, in_then, in_else, in_case, in_default, in_for, in_block with ins.
      left. apply inside_self.
    - intros [(y & H & K)|(y & H & K)]; exists y; eauto with ins.
  Qed.
  Lemma exact_block : forall l, Forall exact_ l -> forall b, chkb l = Ok b -> (b = true <-> found l).
  Proof.
    induction l as [|s l IH]; intros F b H; cbn [check_block] in H.
    - apply Ok_inj in H. subst b. split; [discriminate|]. intros K. destruct (found_nil K).
    - apply Forall_cons_iff in F as [F1 F2]. apply obind_Ok in H as (b' & E & H). apply F1 in E.
      rewrite found_cons. destruct b'.
      + apply Ok_inj in H. subst b. tauto.
      + rewrite (IH F2 b H). intuition congruence.
  Qed.
  Lemma exact_cases : forall cs n m, Forall (fun cb => Forall exact_ (snd cb)) cs -> 0 <= n ->
    check_cases G cond false false cs n = Ok (Some m) ->
    n <= m /\ (n < m <-> exists k b, In (k, b) cs /\ found b).
  Proof.
    induction cs as [|[k b] cs IH]; intros n m F N H; cbn [check_cases] in H.
    - inversion H; subst. split; [lia|]. split; [intros; lia|]. intros (k & b & [] & _).
    - apply Forall_cons_iff in F as [F1 F2]. apply obind_Ok in H as (x & E & H). cbn [snd] in *.
      apply (exact_block b F1) in E. destruct x; [destruct (IH (n + 1) m F2 ltac:(lia) H) as [A B]|destruct (IH n m F2 N H) as [A B]];
        (split; [lia|]).
      + split; [|intros _; lia]. intros _. exists k, b. split; [left; reflexivity|]. tauto.
      + rewrite B. split; intros (k' & b' & I & Fd).
        * exists k', b'. split; [right; exact I|exact Fd].
        * destruct I as [I|I]; [inversion I; subst; intuition congruence|]. exists k', b'. auto.
  Qed.
  Lemma cases_some : forall cs n, check_cases G cond false false cs n <> Ok None.
  Proof.
    induction cs as [|cb cs IH]; intros n; cbn [check_cases]; [discriminate|].
    destruct (chkb (snd cb)) as [[]| |]; cbn [obind]; auto; discriminate.
  Qed.
  Lemma found_self : forall s, cond s = true -> found [s].
  Proof. intros s H. exists s. split; [apply inside_self|exact H]. Qed.
  Lemma found_sub : forall a b, (forall s, inside s a -> inside s b) -> found a -> found b.
  Proof. intros a b I (s & H & K). exists s. auto. Qed.
  Ltac one H := inversion H as [l' I|l' c' t' f' I J|l' c' t' f' I J|l' e' cs' d' k' b' I Ic J|l' e' cs' b' I J|l' i' a' b' st' bd' I J|l' bd' I J];
    subst; destruct I as [I|[]]; try discriminate I; inversion I; subst.
  Lemma exact_all : forall s, exact_ s.
  Proof.
    induction s as [k l e|c t f Ht Hf|e cs d Hcs Hd|i a b0 sp body Hb|body Hb|e| |k] using stmt_ind';
      intros b H; rewrite check_eq in H;
      match type of H with (if cond ?s then _ else _) = _ => destruct (cond s) eqn:Cs end;
      try (apply Ok_inj in H; subst b; split; [intros _; apply found_self; exact Cs|reflexivity]);
      try (apply Ok_inj in H; subst b; split; [discriminate|]; intros (y & I0 & K); one I0; congruence).
    - apply obind_Ok in H as (x & E & H). apply (exact_block t Ht) in E.
      assert (found [SIf c t f] <-> found t \/ found f) as Q.
      { split.
        - intros (y & I0 & K). one I0; [congruence|left; exists y; auto|right; exists y; auto].
        - intros [K|K]; (eapply found_sub; [|exact K]; eauto with ins). }
      rewrite Q. destruct x.
      + apply Ok_inj in H. subst b. tauto.
      + rewrite (exact_block f Hf b H). intuition congruence.
    - assert (found [SSwitch e cs d] <-> (exists k b, In (k, b) cs /\ found b) \/ exists b, d = Some b /\ found b) as Q.
      { split.
        - intros (y & I0 & K). one I0; [congruence|left|right].
          + exists k', b'. split; [exact Ic|exists y; auto].
          + exists b'. split; [reflexivity|exists y; auto].
        - intros [(k & b' & I & K)|(b' & -> & K)]; (eapply found_sub; [|exact K]; eauto with ins). }
      rewrite Q. clear Q.
      assert (H' : cs = [] /\ d = None /\ b = false \/
        (olet n0 := match d with
                       | None => Ok (Some 0)
                       | Some b => olet x := chkb b in
                                   if x then Ok (Some 1) else Ok (Some 0)
                       end in
            match n0 with
            | None => Ok false
            | Some n0 =>
                olet n := check_cases G cond false false cs n0 in
                match n with
                | None => Ok false
                | Some n => olet k := target_cases G e in Ok (0 <? n)
                end
            end) = Ok b).
      { destruct cs, d; [right; exact H| |right; exact H|right; exact H]. left. apply Ok_inj in H. auto. }
      destruct H' as [(-> & -> & ->)|H'].
      { split; [discriminate|]. intros [(k & b' & [] & _)|(b' & K & _)]; discriminate. }
      clear H. apply obind_Ok in H' as (n0 & E & H). destruct n0 as [n0|].
      2:{ exfalso. destruct d; [|discriminate]. apply obind_Ok in E as (x & _ & E). destruct x; discriminate. }
      apply obind_Ok in H as (n & E2 & H). destruct n as [n|]; [|destruct (cases_some _ _ E2)].
      apply obind_Ok in H as (k & E3 & H). apply Ok_inj in H. subst b.
      assert ((n0 = 1 \/ n0 = 0) /\ (n0 = 1 <-> exists b, d = Some b /\ found b)) as [N0 N1].
      { destruct d as [b|].
        - apply obind_Ok in E as (x & E & Q). apply (exact_block b (Hd b eq_refl)) in E.
          destruct x; inversion Q; subst; (split; [lia|]); split; try lia; try discriminate.
          + intros _. exists b. tauto.
          + intros (b' & K & K2). inversion K; subst. intuition congruence.
        - inversion E; subst. split; [lia|]. split; [lia|]. intros (b & K & _). discriminate. }
      destruct (exact_cases cs n0 n Hcs ltac:(lia) E2) as [A B].
      rewrite <- B, <- N1. rewrite Z.ltb_lt. lia.
    - assert (found [SFor i a b0 sp body] <-> found body) as Q.
      { split; [intros (y & I0 & K); one I0; [congruence|exists y; auto]|].
        intros K. eapply found_sub; [|exact K]. eauto with ins. }
      rewrite Q. exact (exact_block body Hb b H).
    - assert (found [SBlock body] <-> found body) as Q.
      { split; [intros (y & I0 & K); one I0; [congruence|exists y; auto]|].
        intros K. eapply found_sub; [|exact K]. eauto with ins. }
      rewrite Q. exact (exact_block body Hb b H).
  Qed.
  Lemma somewhere : forall l b, chkb l = Ok b -> (b = true <-> found l).
  Proof. intros l. apply exact_block. apply Forall_forall. intros; apply exact_all. Qed.
End Some_.

(* without the unreachable-code test nothing is thrown *)
Section NoThrow.
  Variable G : tenv.
  Variable cond : stmt -> bool.
  Variable full : bool.
  Lemma no_throw_block : forall l, Forall (fun s => check G cond false full s <> Throw) l ->
    check_block G cond false full l <> Throw.
  Proof.
    induction l as [|s l IH]; intros F; cbn [check_block]; [discriminate|]. apply Forall_cons_iff in F as [F1 F2].
    destruct (check G cond false full s) as [[]| |]; cbn [obind]; try discriminate; try congruence. auto.
  Qed.
  Lemma no_throw_all : forall s, check G cond false full s <> Throw.
  Proof.
    induction s as [k l e|c t f Ht Hf|e cs d Hcs Hd|i a b0 sp body Hb|body Hb|e| |k] using stmt_ind';
      rewrite check_eq; match goal with |- (if ?c then _ else _) <> _ => destruct c; [discriminate|] end;
      try discriminate; try (apply no_throw_block; assumption).
    - pose proof (no_throw_block t Ht). pose proof (no_throw_block f Hf).
      destruct (check_block G cond false full t) as [[]| |]; cbn [obind]; destruct full; congruence.
    - assert (forall n, check_cases G cond false full cs n <> Throw) as K.
      { induction Hcs as [|cb cs H _ IH]; intros n; cbn [check_cases]; [discriminate|].
        pose proof (no_throw_block _ H). destruct (check_block G cond false full (snd cb)) as [[]| |]; cbn [obind];
          [apply IH|destruct full; [discriminate|apply IH]|congruence|discriminate]. }
      assert (forall o n0, o = Ok n0 \/ o = UB ->
        (olet n0 := o in
            match n0 with
            | None => Ok false
            | Some n0 =>
                olet n := check_cases G cond false full cs n0 in
                match n with
                | None => Ok false
                | Some n =>
                    olet k := target_cases G e in
                    if full then Ok (match d with Some _ => true | None => n =? k end)
                    else Ok (0 <? n)
                end
            end) <> Throw) as K2.
      { intros o n0 [-> | ->]; cbn [obind]; [|discriminate]. destruct n0 as [n0|]; [|discriminate].
        specialize (K n0). destruct (check_cases G cond false full cs n0) as [[n|]| |]; cbn [obind]; try congruence.
        unfold target_cases. destruct (_ <? 32); cbn [obind]; [|discriminate]. destruct full; discriminate. }
      destruct d as [b|].
      + pose proof (no_throw_block b (Hd b eq_refl)) as Nb.
        assert (exists n0 : option Z, (olet x := check_block G cond false full b in
                     if x then Ok (Some 1) else if full then Ok None else Ok (Some 0)) = Ok n0
                  \/ (olet x := check_block G cond false full b in
                     if x then Ok (Some 1) else if full then Ok None else Ok (Some 0)) = UB) as [n0 Q].
        { destruct (check_block G cond false full b) as [[]| |]; cbn [obind]; try congruence; [eauto|destruct full; eauto|exists None; auto]. }
        destruct cs; exact (K2 _ n0 Q).
      + destruct cs; [discriminate|]. exact (K2 (Ok (Some 0)) (Some 0) (or_introl eq_refl)).
  Qed.
  Lemma no_throw : forall l, check_block G cond false full l <> Throw.
  Proof. intros l. apply no_throw_block. apply Forall_forall. intros; apply no_throw_all. Qed.
End NoThrow.

(* ---- blocks that are accepted ---- *)
Lemma narrow_incl : forall G a b, (forall s, inside s a -> inside s b) -> narrow G b -> narrow G a.
Proof. intros G a b H N e cs d I. apply (N e cs d). now apply H. Qed.
Section Accept.
  Variable G : tenv.
  Variable cond : stmt -> bool.
  Notation chk := (check G cond false true).
  Notation chkb := (check_block G cond false true).
  Definition total (s : stmt) : Prop := narrow G [s] -> exists b, chk s = Ok b.
  Lemma total_block : forall l, Forall total l -> narrow G l -> exists b, chkb l = Ok b.
  Proof.
    induction l as [|s l IH]; intros T N; [now exists false|]. inversion_clear T as [|? ? Ts Tl]. cbn [check_block].
    destruct Ts as [b ->]; [apply (narrow_incl G _ (s :: l)); [apply ins_hd|exact N]|]. cbn [obind]. destruct b; [now exists true|].
    apply IH; [exact Tl|]. apply (narrow_incl G _ (s :: l)); [apply ins_tl|exact N].
  Qed.
  Lemma total_all : forall s, total s.
  Proof.
    apply stmt_ind'; unfold total; intros.
    all: rewrite check_eq; match goal with |- context [cond ?s] => destruct (cond s) end; [eauto|]; try (now exists false).
    - destruct (total_block t) as [b ->]; [assumption| |]. { eapply narrow_incl; [|eassumption]. intros; now apply ins_then. }
      cbn [obind]. destruct b; [|now exists false]. apply total_block; [assumption|]. eapply narrow_incl; [|eassumption]. intros; now apply ins_else.
    - match goal with N : narrow G [SSwitch e cs d] |- _ => rename N into Nw end.
      match goal with N : Forall (fun cb => Forall _ (snd cb)) cs |- _ => rename N into Fc end.
      match goal with N : forall b, d = Some b -> _ |- _ => rename N into Fd end.
      assert (forall n, exists o, check_cases G cond false true cs n = Ok o) as Tc.
      {
        assert (forall l, Forall (fun cb => Forall (fun s => narrow G [s] -> exists b, chk s = Ok b) (snd cb)) l -> (forall k b, In (k, b) l -> narrow G b) -> forall n, exists o, check_cases G cond false true l n = Ok o) as K.
        { induction l as [|[k b] l IH]; intros F N n; [now exists (Some n)|]. inversion_clear F as [|? ? F1 F2]. cbn [check_cases snd].
          destruct (total_block b F1) as [x ->]; [apply (N k); now left|]. cbn [obind]. destruct x; [|now exists None]. apply IH; [exact F2|]. intros k' b' I. apply (N k'). now right. }
        intros n. apply K; [exact Fc|]. intros k b I. eapply narrow_incl; [|exact Nw]. intros x Hx. eapply ins_case; eassumption. }
      assert (target_cases G e = Ok (2 ^ ewidth G e)) as Te.
      { unfold target_cases. assert (ewidth G e < 32) by (apply (Nw e cs d); apply inside_self). now replace (ewidth G e <? 32) with true by lia. }
      assert (exists b, (olet n0 := match d with None => Ok (Some 0) | Some b => olet x := chkb b in if x then Ok (Some 1) else Ok None end in
         match n0 with None => Ok false | Some n0 => olet n := check_cases G cond false true cs n0 in
           match n with None => Ok false | Some n => olet k := target_cases G e in Ok (match d with Some _ => true | None => n =? k end) end end) = Ok b) as [b Eb].
      { destruct d as [b|].
        - destruct (total_block b) as [x ->]; [now apply Fd|eapply narrow_incl; [|exact Nw]; intros; now apply ins_def|]. cbn [obind]. destruct x; cbn [obind]; [|eauto].
          destruct (Tc 1) as [o ->]. cbn [obind]. destruct o; [rewrite Te; cbn [obind]|]; eauto.
        - cbn [obind]. destruct (Tc 0) as [o ->]. cbn [obind]. destruct o; [rewrite Te; cbn [obind]|]; eauto. }
      exists (match cs, d with [], None => false | _, _ => b end). destruct cs as [|c cs]; [destruct d; [exact Eb|reflexivity]|exact Eb].
    - apply total_block; [assumption|]. eapply narrow_incl; [|eassumption]. intros; now apply ins_for.
    - apply total_block; [assumption|]. eapply narrow_incl; [|eassumption]. intros; now apply ins_block.
  Qed.
  Lemma in_true : forall l s, narrow G l -> In s l -> chk s = Ok true -> chkb l = Ok true.
  Proof.
    induction l as [|a l IH]; intros s N I T; [destruct I|]. cbn [check_block].
    destruct (total_all a) as [b E]; [apply (narrow_incl G _ (a :: l)); [apply ins_hd|exact N]|]. rewrite E. cbn [obind]. destruct b; [reflexivity|].
    destruct I as [->|I]; [congruence|]. apply (IH s); [|exact I|exact T]. apply (narrow_incl G _ (a :: l)); [apply ins_tl|exact N].
  Qed.
  Lemma sure_true : forall (P : stmt -> Prop), (forall s, P s -> cond s = true) -> forall l, surely G P l -> narrow G l -> chkb l = Ok true.
  Proof.
    intros P PC.
    assert (forall cs, (forall k b, In (k, b) cs -> chkb b = Ok true) -> forall n, check_cases G cond false true cs n = Ok (Some (n + Z.of_nat (length cs)))) as K.
    { induction cs as [|[k b] cs IH]; intros Q n; cbn [check_cases snd length]; [f_equal; f_equal; lia|]. rewrite (Q k b) by now left. cbn [obind].
      rewrite IH by (intros; eapply Q; right; eassumption). f_equal. f_equal. lia. }
    assert (forall e, ewidth G e < 32 -> target_cases G e = Ok (2 ^ ewidth G e)) as T by (intros e W; unfold target_cases; now replace (ewidth G e <? 32) with true by lia).
    assert (forall a b, b = a -> Ok (0 + a =? b) = Ok true) as Q by (intros a b ->; f_equal; apply Z.eqb_eq; lia).
    induction 1 as [l s I Ps|l c t f I Ht IHt Hf IHf|l e cs d I Hc IHc Hd IHd|l e cs I Ne Hc IHc L|l i a b st body I Hb IHb|l body I Hb IHb]; intros N.
    - apply (in_true l s N I). rewrite check_eq, (PC s Ps). reflexivity.
    - apply (in_true l _ N I). rewrite check_eq. destruct (cond _); [reflexivity|].
      rewrite IHt by (eapply narrow_incl; [|exact N]; intros x Hx; eapply in_then; eassumption). cbn [obind].
      apply IHf. eapply narrow_incl; [|exact N]. intros x Hx. eapply in_else; eassumption.
    - apply (in_true l _ N I). rewrite check_eq. destruct (cond _); [reflexivity|].
      rewrite IHd by (eapply narrow_incl; [|exact N]; intros x Hx; eapply in_default; eassumption). cbn [obind].
      rewrite K by (intros k b J; apply (IHc k b J); eapply narrow_incl; [|exact N]; intros x Hx; eapply in_case; eassumption). cbn [obind].
      rewrite T by (apply (N e cs (Some d)); now apply in_here). cbn [obind]. destruct cs; reflexivity.
    - apply (in_true l _ N I). rewrite check_eq. destruct (cond _); [reflexivity|]. cbn [obind].
      rewrite K by (intros k b J; apply (IHc k b J); eapply narrow_incl; [|exact N]; intros x Hx; eapply in_case; eassumption). cbn [obind].
      rewrite T by (apply (N e cs None); now apply in_here). cbn [obind].
      destruct cs; [now elim Ne|]. now apply Q.
    - apply (in_true l _ N I). rewrite check_eq. destruct (cond _); [reflexivity|]. apply IHb. eapply narrow_incl; [|exact N]. intros x Hx. eapply in_for; eassumption.
    - apply (in_true l _ N I). rewrite check_eq. destruct (cond _); [reflexivity|]. apply IHb. eapply narrow_incl; [|exact N]. intros x Hx. eapply in_block; eassumption.
  Qed.
End Accept.
(* nothing found: the check says so, however wide the selectors *)
Section Nothing.
  Variable G : tenv.
  Variable cond : stmt -> bool.
  Variable unr : bool.
  Definition none (s : stmt) : Prop := (forall x, inside x [s] -> cond x = false) -> check G cond unr true s = Ok false.
  Lemma none_block : forall l, Forall none l -> (forall x, inside x l -> cond x = false) -> check_block G cond unr true l = Ok false.
  Proof.
    induction l as [|s l IH]; intros F N; [reflexivity|]. inversion_clear F as [|? ? Fs Fl]. cbn [check_block].
    rewrite Fs by (intros x I; apply N; now apply ins_hd). cbn [obind]. apply IH; [exact Fl|]. intros x I. apply N. now apply ins_tl.
  Qed.
  Lemma none_all : forall s, none s.
  Proof.
    apply stmt_ind'; unfold none; intros; rewrite check_eq;
      match goal with N : forall x, inside x [?s] -> _ |- _ => rewrite (N s) by apply inside_self; rename N into Nn end; try reflexivity.
    - rewrite none_block; [reflexivity|assumption|]. intros x I. apply Nn. now apply ins_then.
    - destruct d as [b|]; [rewrite none_block; [|auto|intros x I; apply Nn; now apply ins_def]|]; cbn [obind].
      + destruct cs; reflexivity.
      + destruct cs as [|[k b] cs]; [reflexivity|]. cbn [check_cases snd].
        match goal with F : Forall _ (_ :: cs) |- _ => inversion_clear F as [|? ? F1 F2] end.
        rewrite none_block; [reflexivity|exact F1|]. intros x I. apply Nn. eapply ins_case; [now left|exact I].
    - apply none_block; [assumption|]. intros x I. apply Nn. now apply ins_for.
    - apply none_block; [assumption|]. intros x I. apply Nn. now apply ins_block.
  Qed.
End Nothing.
Lemma assigned_from : forall body x, In x (assigned_block body) ->
  exists k l e, inside (SAssign k l e) body /\ (forall y i w, l <> LDyn y i w) /\ lhs_var l = x.
Proof.
  set (Q := fun b x => exists k l e, inside (SAssign k l e) b /\ (forall y i w, l <> LDyn y i w) /\ lhs_var l = x).
  assert (forall a b x, (forall s, inside s a -> inside s b) -> Q a x -> Q b x) as M by (intros a b x H (k & l & e & I & D & L); exists k, l, e; auto).
  assert (forall l, Forall (fun s => forall x, In x (assigned s) -> Q [s] x) l -> forall x, In x (assigned_block l) -> Q l x) as B.
  { induction l as [|s l IH]; intros F x I; [destruct I|]. inversion_clear F as [|? ? Fs Fl]. cbn [assigned_block] in I. apply in_app_or in I as [I|I].
    - apply (M [s]); [apply ins_hd|auto].
    - apply (M l); [apply ins_tl|auto]. }
  assert (forall s x, In x (assigned s) -> Q [s] x) as A.
  { apply (stmt_ind' (fun s => forall x, In x (assigned s) -> Q [s] x)); intros.
    - exists k, l, e. split; [apply inside_self|]. destruct l; cbn in *; [| |contradiction].
      + split; [discriminate|]. now destruct H.
      + split; [discriminate|]. now destruct H.
    - rewrite assigned_if in H1. apply in_app_or in H1 as [I|I].
      + apply (M t); [intros; now apply ins_then|]. now apply B.
      + apply (M f); [intros; now apply ins_else|]. now apply B.
    - assert (assigned (SSwitch e cs d) = flat_map (fun cb => assigned_block (snd cb)) cs ++ match d with None => [] | Some b => assigned_block b end) as E.
      { reflexivity. }
      rewrite E in H1. apply in_app_or in H1 as [I|I].
      + apply in_flat_map in I as ([k b] & I & J). apply (M b); [intros; eapply ins_case; eassumption|]. apply B; [|exact J]. rewrite Forall_forall in H. apply (H _ I).
      + destruct d as [b|]; [|destruct I]. apply (M b); [intros; now apply ins_def|]. apply B; auto.
    - apply (M body); [intros; now apply ins_for|]. now apply B.
    - apply (M body); [intros; now apply ins_block|]. now apply B.
    - destruct H.
    - destruct H.
    - destruct H. }
  intros body x I. apply (B body); [apply Forall_forall; auto|exact I].
Qed.
