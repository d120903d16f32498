(* Proofs about Fsm_model: what the generated processes do. *)
From Verif Require Import Base SV_spec IR IRSem_spec IR_lemmas IfCase_proofs IR_frame Fsm_spec Fsm_model Fsm_proofs.
Local Open Scope Z_scope.

Lemma enc_put : forall w old v, 0 <= w -> enc w (put_bits old 0 w v) = enc w v.
Proof.
  intros w old v W. unfold enc, put_bits. rewrite !Z.shiftl_0_r. apply Z.bits_inj'. intros i Hi.
  destruct (Z_lt_le_dec i w).
  - rewrite Z.mod_pow2_bits_low, Z.lor_spec, Z.ldiff_spec, Z.ones_spec_low, andb_false_r by lia.
    reflexivity.
  - rewrite !Z.mod_pow2_bits_high by lia. reflexivity.
Qed.
Lemma enc_enc : forall w v, enc w (enc w v) = enc w v.
Proof. intros. unfold enc. apply Zmod_mod. Qed.
Lemma enc_small : forall w v, 0 <= v < 2 ^ w -> enc w v = v.
Proof. intros. unfold enc. apply Z.mod_small. assumption. Qed.

Section Sem.
  Variable G : tenv.
  Hypothesis pos : forall x, 0 < d_width (G x).
  Notation val := (val G).

  Lemma assign_val : forall k x e st, k <> NonBlocking ->
    val (st_cur (exec G (SAssign k (LVar x) e) st)) x = enc (d_width (G x)) (ev G (st_cur st) e).
  Proof.
    intros k x e st K. unfold Fsm_spec.val. cbn [ev]. destruct k; try congruence; cbn; unfold do_write, upd; cbn;
      rewrite Nat.eqb_refl; apply enc_put; specialize (pos x); lia.
  Qed.
  Lemma assign_other : forall k x e st y, y <> x -> st_cur (exec G (SAssign k (LVar x) e) st) y = st_cur st y.
  Proof.
    intros k x e st y N. destruct k; cbn; try reflexivity; unfold do_write, upd; cbn;
      destruct (Nat.eqb_spec y x); congruence.
  Qed.
  Lemma assign_status : forall k x e st, st_status (exec G (SAssign k x e) st) = st_status st.
  Proof. intros k x e st. destruct k; reflexivity. Qed.
  Lemma chain_run : forall l e st, run G (chain l e) st =
    match find (fun ct => truth G (st_cur st) (fst ct)) l with Some ct => run G (snd ct) st | None => run G e st end.
  Proof.
    induction l as [|[c t] l IH]; intros e st; [reflexivity|]. cbn [chain find fst]. rewrite run_single, exec_if.
    destruct (truth G (st_cur st) c); [reflexivity|]. apply IH.
  Qed.

  (* a list of assignments to distinct variables *)
  Definition assigns_of (k : akind) (l : list (var * expr)) : list stmt :=
    map (fun p => SAssign k (LVar (fst p)) (snd p)) l.
  Lemma run_assigns : forall k l st, k <> NonBlocking -> st_status st = Running ->
    NoDup (map fst l) ->
    (forall x e y, In (x, e) l -> In y (evars e) -> y = x \/ ~ In y (map fst l)) ->
    st_status (run G (assigns_of k l) st) = Running
    /\ (forall x e, In (x, e) l -> val (st_cur (run G (assigns_of k l) st)) x = enc (d_width (G x)) (ev G (st_cur st) e))
    /\ (forall y, ~ In y (map fst l) -> st_cur (run G (assigns_of k l) st) y = st_cur st y).
  Proof.
    intros k l. induction l as [|[x e] l IH]; intros st K S N R.
    - cbn. split; [exact S|]. split; [intros x e []|reflexivity].
    - cbn [map fst] in N. apply NoDup_cons_iff in N as [N1 N2].
      change (assigns_of k ((x, e) :: l)) with (SAssign k (LVar x) e :: assigns_of k l).
      rewrite run_cons, assign_status, S. set (st1 := exec G (SAssign k (LVar x) e) st).
      assert (st_status st1 = Running) as S1 by (unfold st1; rewrite assign_status; exact S).
      destruct (IH st1 K S1 N2) as (A & B & C).
      { intros x' e' y I J. destruct (R x' e' y (or_intror I) J) as [Q|Q]; [auto|].
        right. intros Q'. apply Q. right. exact Q'. }
      split; [exact A|]. split.
      + intros x' e' [E|I].
        * inversion E; subst. unfold Fsm_spec.val. cbn [ev]. rewrite (C x' N1). apply assign_val, K.
        * rewrite (B x' e' I). f_equal. apply ev_agree. intros y Hy. unfold st1. apply assign_other.
          destruct (R x' e' y (or_intror I) Hy) as [->|Q].
          -- intros ->. apply N1. apply in_map_iff. exists (x, e'). auto.
          -- intros ->. apply Q. left. reflexivity.
      + intros y Hy. rewrite C; [|intros Q; apply Hy; right; exact Q]. apply assign_other.
        intros ->. apply Hy. left. reflexivity.
  Qed.

  (* ---- one state ---- *)
  Section State.
    Variables (F : family) (E : encoded) (moore : bool) (nxt : var).
    Definition taken (r : venv) (ct : option expr * nat) : bool :=
      match fst ct with Some c => truth G r c | None => false end.
    Definition is_uncond (ct : option expr * nat) : bool := match fst ct with Some _ => false | None => true end.
    Definition go (t : nat) : list stmt :=
      SAssign Blocking (LVar nxt) (EConst (e_code E t) (e_width E) false)
      :: (if moore then [] else [func_call E t]).
    Lemma next_stmt_ok : forall t a, next_stmt E nxt t = Ok a ->
      In t (e_states E) /\ a = SAssign Blocking (LVar nxt) (EConst (e_code E t) (e_width E) false).
    Proof.
      intros t a H. unfold next_stmt, enum_of in H. destruct (mem t (e_states E)) eqn:M; [|discriminate].
      apply mem_in in M. cbn in H. inversion H. auto.
    Qed.
    Lemma guarded_find : forall r ts l, guarded E moore nxt ts = Ok l ->
      match find (fun cb => truth G r (fst cb)) l with
      | Some cb => exists c t, find (taken r) ts = Some (Some c, t) /\ In t (e_states E) /\ cb = (c, go t)
      | None => find (taken r) ts = None
      end.
    Proof.
      induction ts as [|[[c|] t] ts IH]; intros l H; cbn [guarded] in H.
      - apply Ok_inj in H. subst. reflexivity.
      - apply obind_Ok in H as (a & A & H). apply obind_Ok in H as (l' & L & H). apply Ok_inj in H. subst l.
        apply next_stmt_ok in A as [A ->]. cbn [find fst]. unfold taken at 1 3. cbn [fst].
        destruct (truth G r c); [|apply IH, L]. exists c, t. auto.
      - cbn [find]. unfold taken at 1 3. cbn [fst]. apply IH, H.
    Qed.
    Lemma guarded_nil : forall ts, guarded E moore nxt ts = Ok [] -> forall r, find (taken r) ts = None.
    Proof. intros ts H r. apply (guarded_find r ts [] H). Qed.
    Lemma default_find : forall ts d, (length (filter is_uncond ts) + match d with Some _ => 1 | None => 0 end <= 1)%nat ->
      default_target ts d = match d with Some t => Some t | None => option_map snd (find is_uncond ts) end.
    Proof.
      induction ts as [|[[c|] t] ts IH]; intros d L; cbn [default_target find filter] in *.
      - destruct d; reflexivity.
      - unfold is_uncond at 1 in L. unfold is_uncond at 1. cbn [fst] in *. apply IH, L.
      - unfold is_uncond at 1 in L. unfold is_uncond at 1. cbn [fst length] in *. destruct d; [lia|].
        rewrite IH; [reflexivity|]. lia.
    Qed.
    Lemma add_to_last_find : forall r l s,
      match find (fun cb => truth G r (fst cb)) (add_to_last l s) with
      | Some cb => exists b, find (fun cb => truth G r (fst cb)) l = Some (fst cb, b) /\ (snd cb = b \/ snd cb = b ++ [s])
      | None => find (fun cb => truth G r (fst cb)) l = None
      end.
    Proof.
      intros r. induction l as [|[c b] l IH]; intros s; [reflexivity|]. destruct l as [|a l].
      - cbn [add_to_last find fst]. destruct (truth G r c); [|reflexivity]. exists b. cbn. auto.
      - change (add_to_last ((c, b) :: a :: l) s) with ((c, b) :: add_to_last (a :: l) s).
        cbn [find fst]. destruct (truth G r c); [|exact (IH s)]. exists b. cbn. auto.
    Qed.
    Hypothesis wnxt : d_width (G nxt) = e_width E.
    Hypothesis nxt_out : forall t, In t (e_states E) -> ~ In nxt (map fst (e_out E t)).
    Lemma func_call_keeps : forall t st, In t (e_states E) ->
      st_cur (exec G (func_call E t) st) nxt = st_cur st nxt.
    Proof.
      intros t st H. unfold func_call. apply exec_frame. intros C.
      set (h := fun p : var * option expr =>
                  SAssign Blocking (LVar (fst p)) (match snd p with Some e => e | None => EVar (fst p) end)) in *.
      assert (forall l x, In x (subs (map h l)) -> exists p, In p l /\ x = h p) as K.
      { induction l as [|p l IH]; intros x I; [destruct I|]. cbn in I. destruct I as [<-|I].
        - exists p. split; [left; reflexivity|reflexivity].
        - destruct (IH x I) as (q & Q1 & Q2). exists q. split; [right; exact Q1|exact Q2]. }
      assert (forall x, inside x [SBlock (map h (e_out E t))] ->
                x = SBlock (map h (e_out E t)) \/ exists p, In p (e_out E t) /\ x = h p) as K1.
      { intros x I. apply inside_subs in I. unfold subs in I. cbn [flat_map] in I. rewrite app_nil_r, subs1_block in I.
        destruct I as [<-|I]; [auto|]. right. apply K, I. }
      destruct C as [(k & l & e & I & _ & V)|(a & b & sp & bd & I)]; apply K1 in I as [I|(p & I & Q)]; try discriminate.
      apply (nxt_out t H). unfold h in Q. inversion Q as [[Q1 Q2 Q3]]. rewrite Q2 in V. cbn in V. rewrite <- V.
      apply in_map, I.
    Qed.
    Lemma run_next : forall extra t st, In t (e_states E) -> 0 <= e_code E t < 2 ^ e_width E ->
      (forall st, st_cur (run G extra st) nxt = st_cur st nxt) -> st_status st = Running ->
      val (st_cur (run G (SAssign Blocking (LVar nxt) (EConst (e_code E t) (e_width E) false) :: extra) st)) nxt = e_code E t.
    Proof.
      intros extra t st I C K S. rewrite run_cons, assign_status, S. unfold Fsm_spec.val. cbn [ev]. rewrite K.
      change (enc (d_width (G nxt)) (st_cur (exec G (SAssign Blocking (LVar nxt) (EConst (e_code E t) (e_width E) false)) st) nxt))
        with (val (st_cur (exec G (SAssign Blocking (LVar nxt) (EConst (e_code E t) (e_width E) false)) st)) nxt).
      rewrite assign_val by discriminate. cbn [ev]. rewrite wnxt, enc_enc. apply enc_small, C.
    Qed.
    Lemma go_extra : forall t rest, In t (e_states E) -> (rest = [] \/ exists t', In t' (e_states E) /\ rest = [func_call E t']) ->
      forall st, st_cur (run G ((if moore then [] else [func_call E t]) ++ rest) st) nxt = st_cur st nxt.
    Proof.
      intros t rest I R st.
      assert (forall l, Forall (fun s => exists t', In t' (e_states E) /\ s = func_call E t') l ->
              forall st, st_cur (run G l st) nxt = st_cur st nxt) as K.
      { induction 1 as [|s l (t' & I' & ->) _ IH]; intros st'; [reflexivity|]. rewrite run_cons.
        destruct (st_status _); [rewrite IH|..]; apply func_call_keeps, I'. }
      apply K. apply Forall_app. split; [destruct moore; repeat constructor; eauto|].
      destruct R as [->|(t' & I' & ->)]; repeat constructor; eauto.
    Qed.
    (* the body of a state moves to the declared next state *)
    Lemma body_next : forall s b st, state_body F E moore nxt s = Ok b ->
      (unconditional F s <= 1)%nat -> st_status st = Running ->
      (forall t, In t (e_states E) -> 0 <= e_code E t < 2 ^ e_width E) ->
      In s (e_states E) -> val (st_cur st) nxt = e_code E s ->
      val (st_cur (run G b st)) nxt = e_code E (next_state G F (st_cur st) s)
      /\ In (next_state G F (st_cur st) s) (e_states E).
    Proof.
      intros s b st H U S C Is V. unfold next_state.
      change (fun ct : option expr * nat => match fst ct with Some c => truth G (st_cur st) c | None => false end)
        with (taken (st_cur st)).
      change (fun ct : option expr * nat => match fst ct with Some _ => false | None => true end) with is_uncond.
      unfold unconditional in U.
      change (fun ct : option expr * nat => match fst ct with Some _ => false | None => true end) with is_uncond in U.
      unfold state_body in H.
      assert ((exists t, f_next (fam_state F s) = [(None, t)]) \/
              (olet l := guarded E moore nxt (f_next (fam_state F s)) in
               match default_target (f_next (fam_state F s)) None with
               | Some t => olet a := next_stmt E nxt t in
                   match l with [] => UB | _ => Ok (chain (if moore then l else add_to_last l (func_call E t)) [a]) end
               | None => match l with [] => Throw | _ => Ok (chain l []) end
               end) = Ok b) as D.
      { destruct (f_next (fam_state F s)) as [|[[c|] t] [|ct ts]]; auto. left. eauto. }
      destruct D as [[t D]|D].
      - rewrite D in *. apply obind_Ok in H as (a & A & H). apply Ok_inj in H. subst b.
        apply next_stmt_ok in A as [A ->]. cbn [find taken is_uncond fst snd]. (split; [apply run_next; auto|assumption]).
      - clear H. apply obind_Ok in D as (l & L & D).
        rewrite (default_find _ None) in D by lia. pose proof (guarded_find (st_cur st) _ _ L) as Fd.
        destruct (find is_uncond (f_next (fam_state F s))) as [[c t]|] eqn:Fu; cbn [option_map snd] in D.
        + apply obind_Ok in D as (a & A & D). apply next_stmt_ok in A as [A ->].
          destruct l as [|x0 l0]; [discriminate|]. apply Ok_inj in D. subst b. set (l := x0 :: l0) in *.
          rewrite chain_run. destruct moore eqn:Em.
          * destruct (find (fun cb => truth G (st_cur st) (fst cb)) l) as [cb|].
            -- destruct Fd as (c' & t' & Q1 & Q2 & ->). rewrite Q1. cbn [snd]. unfold go. rewrite Em.
               (split; [apply run_next; auto|assumption]).
            -- rewrite Fd. cbn [snd]. (split; [apply run_next; auto|assumption]).
          * pose proof (add_to_last_find (st_cur st) l (func_call E t)) as Al.
            destruct (find (fun cb => truth G (st_cur st) (fst cb)) (add_to_last l (func_call E t))) as [cb|].
            -- destruct Al as (b & Q & Qb). rewrite Q in Fd. destruct Fd as (c' & t' & Q1 & Q2 & Q3). rewrite Q1.
               cbn [snd]. inversion Q3 as [[K1 K2]]. subst b.
               assert (snd cb = go t' ++ [] \/ snd cb = go t' ++ [func_call E t]) as Z by (rewrite app_nil_r; exact Qb).
               destruct Z as [-> | ->]; unfold go; cbn [app]; (split; [apply run_next; auto; intros st'; apply go_extra; eauto|assumption]).
            -- rewrite Al in Fd. rewrite Fd. cbn [snd]. (split; [apply run_next; auto|assumption]).
        + destruct l as [|x0 l0]; [discriminate|]. apply Ok_inj in D. subst b. set (l := x0 :: l0) in *.
          rewrite chain_run. destruct (find (fun cb => truth G (st_cur st) (fst cb)) l) as [cb|].
          * destruct Fd as (c' & t' & Q1 & Q2 & ->). rewrite Q1. cbn [snd]. unfold go. split; [apply run_next; auto|assumption].
            intros st'. rewrite <- (app_nil_r (if moore then [] else [func_call E t'])). apply go_extra; auto.
          * rewrite Fd. auto.
    Qed.
    (* ... and changes only that variable and the outputs *)
    Lemma func_call_frame : forall y t st, ~ In y (map fst (e_out E t)) -> 
      st_cur (exec G (func_call E t) st) y = st_cur st y.
    Proof.
      intros y t st H. unfold func_call. rewrite exec_block. revert st.
      induction (e_out E t) as [|[x v] l IH]; intros st; [reflexivity|]. cbn [map fst] in *. rewrite run_cons, assign_status.
      assert (st_cur (exec G (SAssign Blocking (LVar x) (match v with Some e => e | None => EVar x end)) st) y = st_cur st y) as K.
      { apply assign_other. intros ->. apply H. left. reflexivity. }
      cbn [snd] in *. destruct (st_status st); try exact K. rewrite IH; [exact K|]. intros Q. apply H. right. exact Q.
    Qed.
    Lemma body_frame : forall y s b st, state_body F E moore nxt s = Ok b -> y <> nxt ->
      (forall t, In t (e_states E) -> ~ In y (map fst (e_out E t))) -> st_cur (run G b st) y = st_cur st y.
    Proof.
      intros y s b st H Ny No.
      assert (forall l, Forall (fun x => (exists t, In t (e_states E) /\ x = func_call E t) \/ (exists e, x = SAssign Blocking (LVar nxt) e)) l ->
                forall st, st_cur (run G l st) y = st_cur st y) as K.
      { induction 1 as [|x l D _ IH]; intros st'; [reflexivity|]. rewrite run_cons.
        assert (st_cur (exec G x st') y = st_cur st' y) as Q.
        { destruct D as [(t & It & ->)|[e ->]]; [apply func_call_frame, No, It|apply assign_other, Ny]. }
        destruct (st_status (exec G x st')); [rewrite IH|..]; exact Q. }
      set (P := fun x => (exists t, In t (e_states E) /\ x = func_call E t) \/ (exists e, x = SAssign Blocking (LVar nxt) e)) in *.
      assert (forall ts l, guarded E moore nxt ts = Ok l -> Forall (fun cb => Forall P (snd cb)) l) as Kg.
      { induction ts as [|[[c|] t] ts IH]; intros l D; cbn [guarded] in D.
        - apply Ok_inj in D. subst. constructor.
        - apply obind_Ok in D as (a & A & D). apply obind_Ok in D as (l' & L & D). apply Ok_inj in D. subst l.
          apply next_stmt_ok in A as [It ->]. constructor; [|apply IH, L]. cbn [snd]. constructor; [right; eauto|].
          destruct moore; repeat constructor. eauto.
        - apply IH, D. }
      assert (forall l t, In t (e_states E) -> Forall (fun cb => Forall P (snd cb)) l -> Forall (fun cb => Forall P (snd cb)) (add_to_last l (func_call E t))) as Ka.
      { induction l as [|[c bd] l IH]; intros t It D; [constructor|]. apply Forall_cons_iff in D as [D1 D2].
        destruct l as [|a l]; [|change (add_to_last ((c, bd) :: a :: l) (func_call E t)) with ((c, bd) :: add_to_last (a :: l) (func_call E t)); constructor; [exact D1|apply IH; assumption]].
        cbn [add_to_last]. constructor; [|constructor]. cbn [snd] in *. apply Forall_app. split; [exact D1|]. constructor; [left; eauto|constructor]. }
      assert (forall l e st, Forall (fun cb => Forall P (snd cb)) l -> Forall P e -> st_cur (run G (chain l e) st) y = st_cur st y) as Kc.
      { intros l e st' Hl He. rewrite chain_run. destruct (find _ l) as [cb|] eqn:Fi; [|apply K, He].
        apply find_some in Fi as [Fi _]. apply K. rewrite Forall_forall in Hl. exact (Hl cb Fi). }
      unfold state_body in H.
      assert (forall ts, (olet l := guarded E moore nxt ts in
               match default_target ts None with
               | Some t => olet a := next_stmt E nxt t in
                   match l with [] => UB | _ => Ok (chain (if moore then l else add_to_last l (func_call E t)) [a]) end
               | None => match l with [] => Throw | _ => Ok (chain l []) end
               end) = Ok b -> st_cur (run G b st) y = st_cur st y) as Kt.
      { intros ts D. apply obind_Ok in D as (l & L & D). apply Kg in L. destruct (default_target ts None) as [t|].
        - apply obind_Ok in D as (a & A & D). apply next_stmt_ok in A as [It ->].
          destruct l as [|x0 l0]; [discriminate|]. apply Ok_inj in D. subst b. apply Kc; [destruct moore; auto|].
          constructor; [right; eauto|constructor].
        - destruct l as [|x0 l0]; [discriminate|]. apply Ok_inj in D. subst b. apply Kc; [exact L|constructor]. }
      destruct (f_next (fam_state F s)) as [|[[c|] t] [|ct ts]]; eauto.
      apply obind_Ok in H as (a & A & H). apply Ok_inj in H. subst b. apply next_stmt_ok in A as [_ ->].
      apply K. constructor; [right; eauto|constructor].
    Qed.
  End State.

  (* ---- the case statement ---- *)
  Lemma add_case_new : forall k b cs, ~ In k (map fst cs) -> add_case k b cs = cs ++ [(k, b)].
  Proof.
    induction cs as [|[k' b'] cs IH]; intros H; [reflexivity|]. cbn [add_case fst].
    destruct (Z.eqb_spec k' k) as [->|]; [exfalso; apply H; left; reflexivity|]. cbn [app].
    rewrite IH; [reflexivity|]. intros Q. apply H. right. exact Q.
  Qed.
  Lemma state_cases_ok : forall F E moore nxt l cs0 cs, state_cases F E moore nxt l cs0 = Ok cs ->
    NoDup (map fst cs0 ++ map (e_code E) l) ->
    exists new, cs = cs0 ++ new
      /\ Forall2 (fun s kb => fst kb = e_code E s /\ state_body F E moore nxt s = Ok (snd kb)) l new.
  Proof.
    induction l as [|s l IH]; intros cs0 cs H N; cbn [state_cases] in H.
    - apply Ok_inj in H. exists []. rewrite app_nil_r. auto.
    - apply obind_Ok in H as (b & B & H). cbn [map] in N. rewrite add_case_new in H.
      + destruct (IH _ _ H) as (new & -> & A).
        { rewrite map_app. cbn [map fst]. rewrite <- app_assoc. exact N. }
        exists ((e_code E s, b) :: new). split; [rewrite <- app_assoc; reflexivity|]. constructor; auto.
      + apply NoDup_remove_2 in N. intros Q. apply N, in_app_iff. auto.
  Qed.
  Lemma pick_hit : forall v w cs d st k b, In (k, b) cs -> NoDup (map fst cs) ->
    Forall (fun cb => 0 <= fst cb < 2 ^ w) cs -> v = k -> pick G v w cs d st = run G b st.
  Proof.
    induction cs as [|[k' b'] cs IH]; intros d st k b I N R V; [destruct I|]. cbn [map fst] in N.
    apply NoDup_cons_iff in N as [N1 N2]. apply Forall_cons_iff in R as [R1 R2]. cbn [fst] in R1.
    cbn [pick fst snd]. rewrite (enc_small w k') by exact R1. destruct I as [I|I].
    - inversion I; subst. rewrite Z.eqb_refl. reflexivity.
    - destruct (Z.eqb_spec v k') as [Q|_]; [|eapply IH; eauto]. exfalso. apply N1. rewrite <- Q, V.
      apply in_map_iff. exists (k, b). auto.
  Qed.
  Lemma pick_miss : forall v w cs d st, ~ In v (map fst cs) -> Forall (fun cb => 0 <= fst cb < 2 ^ w) cs ->
    pick G v w cs d st = match d with None => st | Some b => run G b st end.
  Proof.
    induction cs as [|[k' b'] cs IH]; intros d st N R; [reflexivity|]. apply Forall_cons_iff in R as [R1 R2].
    cbn [fst] in R1. cbn [pick fst snd]. rewrite (enc_small w k') by exact R1.
    destruct (Z.eqb_spec v k') as [Q|_]; [exfalso; apply N; left; auto|]. apply IH; [|exact R2].
    intros Q. apply N. right. exact Q.
  Qed.
End Sem.
