From Verif Require Import Base SV_spec IR IRSem_spec IR_lemmas IfCase_proofs IR_frame Flow_spec Flow_proofs Design_spec Design_proofs Dce_spec Dce_model Dce_proofs
  Fan_spec Fan_model Retarget_proofs Fan_proofs Tie_model Tie_proofs Move_spec Move_model Move_proofs Move_props Pass_spec Pass_proofs Inline_spec Inline_model Inline_proofs.
Local Open Scope Z_scope.
Notation rho L := (look (mp L)).

Lemma fm_ext : forall {A B} (f h : A -> list B) l, (forall x, In x l -> f x = h x) -> flat_map f l = flat_map h l.
Proof. intros A B f h l E. induction l as [|a l IH]; [reflexivity|]. cbn. rewrite (E a (or_introl eq_refl)), IH; [reflexivity|]. intros x I. apply E. now right. Qed.
Lemma rn_holds : forall m a s, holds a (rn_stmt m s) -> holds a s \/ exists p, plain_test p s /\ a = look m p.
Proof.
  intros m a s Hh. destruct s as [k l e|c t f|e cs dd|v a0 b st bd|bd|e| |k]; cbn [rn_stmt] in Hh; try (left; exact Hh); try (inversion Hh; fail).
  - destruct c as [v| | | | | | |]; try (left; inversion Hh; subst; now constructor). right. exists v. split; [reflexivity|]. apply holds_reads in Hh. inversion Hh as [|? ? ? I| |]; subst. cbn in I. now destruct I as [I|[]].
  - destruct e as [v| | | | | | |]; try (left; inversion Hh; subst; now constructor). right. exists v. split; [reflexivity|]. apply holds_reads in Hh. inversion Hh as [| |? ? ? I|]; subst. cbn in I. now destruct I as [I|[]].
Qed.
Lemma rn_stuck : forall m a s, stuck a (rn_stmt m s) -> stuck a s \/ exists p, plain_test p s /\ a = look m p.
Proof.
  intros m a s Hh. destruct s as [k l e|c t f|e cs dd|v a0 b st bd|bd|e| |k]; cbn [rn_stmt] in Hh; try (left; exact Hh); try (inversion Hh; fail).
  - destruct c as [v| | | | | | |]; try (left; inversion Hh; subst; now constructor). right. exists v. split; [reflexivity|]. apply stuck_reads in Hh. inversion Hh as [|? ? ? I| |]; subst. cbn in I. now destruct I as [I|[]].
  - destruct e as [v| | | | | | |]; try (left; inversion Hh; subst; now constructor). right. exists v. split; [reflexivity|]. apply stuck_reads in Hh. inversion Hh as [| |? ? ? I|]; subst. cbn in I. now destruct I as [I|[]].
Qed.

(* ---- assignments stay ---- *)
Lemma right_var : forall a b e y, right a b e = EVar y -> exists x, e = EVar x.
Proof.
  intros a b e y E. destruct e as [x|v w sg|op x|op x z|c x z|x hi lo|x z|x w]; [eauto| | | | | | |]; exfalso; unfold right in E; cbn [set_right] in E; try discriminate.
  - destruct (rooted a (ESlice x hi lo)) eqn:R; [|discriminate]. unfold slice_to in E. rewrite R in E. discriminate.
  - cbn [change] in E. destruct (match x with ESlice _ _ _ => (x, false) | _ => change a b x end) as [x' f]. destruct (match z with EVar v => _ | _ => _ end) as [y' f']. discriminate.
  - cbn [change] in E. destruct x; discriminate.
Qed.
Section Sources.
  Variables (G : tenv) (g : nat) (full : Prop).
  Definition src (c : bool) (x : var) (D : design) : Prop :=
    exists it kd l e, In it D /\ inside (SAssign kd l e) (body_of (i_proc it)) /\ lhs_var l = x /\ (c = true -> ~ copies (SAssign kd l e)).
  Lemma ms_copies : forall a b k l e, copies (move_stmt a b (SAssign k l e)) -> copies (SAssign k l e).
  Proof.
    intros a b k l e C. rewrite ms_assign in C. unfold moved_right in C. destruct l as [x| |]; try exact C. cbn in C. destruct (existsb (Nat.eqb a) (evars e)); [|exact C].
    destruct (right a b e) eqn:E; try contradiction. apply right_var in E. destruct E as (x1 & ->). exact I.
  Qed.
  Lemma src_in : forall c x k D it, In it D -> (exists kd l e, inside (SAssign kd l e) (body_of (i_proc (step1 g k it))) /\ lhs_var l = x /\ (c = true -> ~ copies (SAssign kd l e))) -> src c x (map (step1 g k) D).
  Proof. intros c x k D it I (kd & l & e & A). exists (step1 g k it), kd, l, e. split; [now apply in_map|exact A]. Qed.
  Lemma to_copies : forall a b k l e, copies (SAssign k (to_lhs a b l) e) -> copies (SAssign k l e).
  Proof. intros a b k l e X. destruct l as [y| |]; exact X. Qed.
  Lemma src_keep1 : forall c x k D, (k_in k = false -> k_port k <> x) -> src c x D -> src c x (map (step1 g k) D).
  Proof.
    intros c x k D N (it & kd & l & e & I & Is & V & C). apply (src_in c x k D it I). unfold step1. destruct (k_in k) eqn:Kk.
    - unfold move_item. destruct (Nat.eqb (i_gen it) g) eqn:Eg; [|exists kd, l, e; auto].
      apply (inside_ms (k_port k) (k_sig k)) in Is. rewrite ms_assign in Is. exists kd, l, (moved_right (k_port k) (k_sig k) kd l e).
      cbn [i_proc]. rewrite move_body. split; [exact Is|]. split; [exact V|]. intros Ec X. apply (C Ec). rewrite <- ms_assign in X. now apply ms_copies in X.
    - unfold to_in. destruct (Nat.eqb (i_gen it) g) eqn:Eg; [|exists kd, l, e; auto].
      apply (inside_to (k_port k) (k_sig k)) in Is. cbn [to_stmt] in Is. exists kd, (to_lhs (k_port k) (k_sig k) l), e.
      rewrite to_body. split; [exact Is|]. split; [rewrite to_var, V; unfold tv; destruct (Nat.eqb_spec x (k_port k)); [exfalso; now apply (N eq_refl)|reflexivity]|].
      intros Ec X. apply (C Ec). now apply to_copies in X.
  Qed.
  Lemma src_move1 : forall c k L D, ok G g full (k :: L) D -> k_in k = false -> src c (k_port k) D -> src c (k_sig k) (map (step1 g k) D).
  Proof.
    intros c k L D O Kk (it & kd & l & e & I & Is & V & C). apply (src_in c _ k D it I). unfold step1. rewrite Kk. unfold to_in.
    assert (i_gen it = g) as Eg by (apply (ok_out _ _ _ _ _ O k it (or_introl eq_refl) Kk I); left; exists kd, l, e; auto). apply Nat.eqb_eq in Eg. rewrite Eg.
    apply (inside_to (k_port k) (k_sig k)) in Is. cbn [to_stmt] in Is. exists kd, (to_lhs (k_port k) (k_sig k) l), e.
    rewrite to_body. split; [exact Is|]. split; [rewrite to_var, V; unfold tv; now rewrite Nat.eqb_refl|]. intros Ec X. apply (C Ec). now apply to_copies in X.
  Qed.
  Lemma src_keep : forall c x L D, (forall k, In k L -> k_in k = false -> k_port k <> x) -> src c x D -> src c x (steps g L D).
  Proof. intros c x. induction L as [|k L IH]; intros D N S0; [exact S0|]. cbn [steps fold_left]. apply IH; [intros k' I; apply N; now right|]. apply src_keep1; [apply N; now left|exact S0]. Qed.
  Lemma src_move : forall c L D k, ok G g full L D -> In k L -> k_in k = false -> src c (k_port k) D -> src c (k_sig k) (steps g L D).
  Proof.
    intros c. induction L as [|k0 L IH]; intros D k O I Kk S0; [destruct I|]. cbn [steps fold_left]. destruct I as [->|I].
    - apply src_keep; [|now apply (src_move1 c k L)]. intros k' I' _ E. apply (ok_apart _ _ _ _ _ O k k' (or_introl eq_refl) (or_intror I')). now symmetry.
    - apply IH; auto; [now apply (step_ok G g full)|]. apply src_keep1; [|exact S0]. intros _ E. pose proof (ok_nodup _ _ _ _ _ O) as N. cbn in N. inversion N as [|? ? N1 _]; subst. apply N1. rewrite E. now apply in_map.
  Qed.
  Lemma src_back1 : forall x k D, (k_in k = false -> k_sig k <> x) -> src false x (map (step1 g k) D) -> src false x D.
  Proof.
    intros x k D N (it & kd & l & e & I & Is & V & C). apply in_map_iff in I. destruct I as (it0 & <- & I). exists it0. unfold step1 in Is. destruct (k_in k) eqn:Kk.
    - unfold move_item in Is. destruct (Nat.eqb (i_gen it0) g); [|exists kd, l, e; repeat split; auto; discriminate]. cbn [i_proc] in Is. rewrite move_body in Is. apply ms_inside in Is. destruct Is as (s0 & Is & E).
      destruct s0 as [k0 l0 e0| | | | | | |]; try discriminate. rewrite ms_assign in E. injection E as -> -> _. exists k0, l0, e0. repeat split; auto. discriminate.
    - unfold to_in in Is. destruct (Nat.eqb (i_gen it0) g); [|exists kd, l, e; repeat split; auto; discriminate]. rewrite to_body in Is. apply to_inside in Is. destruct Is as (s0 & Is & E).
      destruct s0 as [k0 l0 e0| | | | | | |]; try discriminate. cbn in E. injection E as -> -> ->. rewrite to_var in V. exists k0, l0, e0. split; [exact I|]. split; [exact Is|]. split; [|discriminate].
      unfold tv in V. destruct (Nat.eqb (lhs_var l0) (k_port k)); [exfalso; now apply (N eq_refl)|exact V].
  Qed.
  Lemma src_back : forall x L D, (forall k, In k L -> k_in k = false -> k_sig k <> x) -> src false x (steps g L D) -> src false x D.
  Proof. intros x. induction L as [|k L IH]; intros D N S0; [exact S0|]. cbn [steps fold_left] in S0. apply IH in S0; [|intros k' I; apply N; now right]. eapply src_back1; [|exact S0]. apply N. now left. Qed.
  Lemma src_rn : forall c x m D, src c x (map (rn_item m g) D) <-> src c x D.
  Proof.
    intros c x m D. split; intros (it & kd & l & e & I & Is & V & C).
    - apply in_map_iff in I. destruct I as (it0 & <- & I). exists it0, kd, l, e. split; [exact I|]. split; [|auto]. destruct (Nat.eq_dec (i_gen it0) g) as [Eg|Ng].
      + rewrite (rn_body m it0 g Eg) in Is. apply rn_inside in Is. destruct Is as (s0 & Is & E). symmetry in E. apply rn_assign_inv in E. now subst s0.
      + unfold rn_item in Is. destruct (Nat.eqb_spec (i_gen it0) g); [contradiction|exact Is].
    - exists (rn_item m g it), kd, l, e. split; [now apply in_map|]. split; [|auto]. destruct (Nat.eq_dec (i_gen it) g) as [Eg|Ng].
      + rewrite (rn_body m it g Eg). exact (inside_rn m _ _ Is).
      + unfold rn_item. destruct (Nat.eqb_spec (i_gen it) g); [contradiction|exact Is].
  Qed.
End Sources.

(* ---- from the statement of the property to the loop ---- *)
Section Whole.
  Variables (G : tenv) (H : hierarchy) (inl : nat -> bool) (d : design) (g : nat).
  Hypothesis Td : tidy G H inl d g.
  Notation K := (dissolved H inl d g).
  Lemma hook_spec : forall p it, hook H p it = true <-> hooks (inward H p) p it.
  Proof using.
    clear. intros p it. unfold hook, hooks, inward. destruct (h_kind H p); destruct (i_proc it) as [l e|l|evs l]; try (split; [discriminate|intros (x & X); discriminate]).
    - destruct e as [x| | | | | | |]; try (split; [discriminate|intros (z & X); discriminate]). rewrite Nat.eqb_eq. split; [intros ->; eexists; reflexivity|intros (z & X); now inversion X].
    - destruct l as [x| |]; try (split; [discriminate|intros (z & X); discriminate]). rewrite Nat.eqb_eq. split; [intros ->; eexists; reflexivity|intros (z & X); now inversion X].
    - destruct e as [x| | | | | | |]; try (split; [discriminate|intros (z & X); discriminate]). rewrite Nat.eqb_eq. split; [intros ->; eexists; reflexivity|intros (z & X); now inversion X].
  Qed.
  Lemma the_wire : forall k it, K k -> In it d -> i_proc it = wire_of k -> exists w, it = w /\ i_gen w = g /\ forall it', In it' d -> i_proc it' = wire_of k -> it' = w.
  Proof using Td.
    intros k it Kk I E. pose proof Kk as (Ip & Ik & w & Iw & Gw & Ew & U).
    assert (forall it', In it' d -> i_proc it' = wire_of k -> it' = w) as A.
    { intros it' I' E'. apply U; auto.
      - destruct (k_in k) eqn:Q.
        + apply (proj1 (proj1 (td_in _ _ _ _ _ Td k it' Kk Q I') ltac:(rewrite E'; unfold wire_of; rewrite Q; left; exists Blocking, (LVar (k_port k)), (EVar (k_sig k)); split; [apply in_here; now left|reflexivity]))).
        + apply (proj1 (proj1 (td_out _ _ _ _ _ Td k it' Kk Q I') ltac:(rewrite E'; unfold wire_of; rewrite Q; exists (SAssign Blocking (LVar (k_sig k)) (EVar (k_port k))); split; [apply in_here; now left|apply rd_assign; right; now left]))).
      - unfold hooks. unfold wire_of in E'. destruct (k_in k); eexists; exact E'. }
    exists w. split; [now apply A|]. auto.
  Qed.
  (* the list of connections *)
  Lemma conns : forall ps, (forall p, In p ps -> inlined_port H inl g p) -> NoDup ps -> exists W : list (conn * nat),
    flat_map (port_wire H g d) ps = map (fun w => (k_in (fst w), snd w)) W /\
    (forall k i, In (k, i) W -> K k /\ exists it, In it d /\ i_id it = i /\ i_gen it = g /\ i_proc it = wire_of k) /\
    (forall k, K k -> In (k_port k) ps -> In k (map fst W)) /\ (forall k, In k (map fst W) -> In (k_port k) ps) /\ NoDup (map k_port (map fst W)).
  Proof using Td.
    induction ps as [|p ps IH]; intros Ip N.
    - exists []. split; [reflexivity|]. split; [intros k i []|]. split; [intros k _ []|]. split; [intros k []|constructor].
    - inversion N as [|? ? N1 N2]; subst. destruct (IH (fun q J => Ip q (or_intror J)) N2) as (W & A & B & C & D & E). cbn [flat_map].
      assert (forall k, K k -> k_port k = p -> exists it, port_wire H g d p = [(k_in k, i_id it)] /\ In it d /\ i_gen it = g /\ i_proc it = wire_of k) as One.
      { intros k (_ & Ik & it & I & Eg & Ew & U) <-. exists it. split; [|auto]. unfold port_wire.
        assert (filter (fun it0 => Nat.eqb (i_gen it0) g && hook H (k_port k) it0) d = [it]) as ->; [|now rewrite Ik].
        assert (forall it0, In it0 (filter (fun it0 => Nat.eqb (i_gen it0) g && hook H (k_port k) it0) d) <-> it0 = it) as F.
        { intros it0. rewrite filter_In, andb_true_iff, Nat.eqb_eq, hook_spec, <- Ik. split; [intros (J & J1 & J2); now apply U|]. intros ->. split; [exact I|]. split; [exact Eg|].
          unfold hooks. unfold wire_of in Ew. destruct (k_in k); eexists; exact Ew. }
        assert (NoDup (filter (fun it0 => Nat.eqb (i_gen it0) g && hook H (k_port k) it0) d)) as Nf by (apply NoDup_filter; eapply NoDup_map_inv; exact (td_ids _ _ _ _ _ Td)).
        destruct (filter _ d) as [|a [|b l]].
        - exfalso. apply (proj2 (F it) eq_refl).
        - f_equal. apply F. now left.
        - exfalso. inversion Nf as [|? ? X _]; subst. apply X. rewrite (proj1 (F a)), (proj1 (F b)); [now left|right; now left|now left]. }
      unfold port_wire at 1. destruct (filter (fun it => Nat.eqb (i_gen it) g && hook H p it) d) as [|w [|w2 l]] eqn:Fl.
      + exists W. cbn [app]. split; [exact A|]. split; [exact B|]. split; [|split; [intros k J; right; now apply D|exact E]].
        intros k Kk [X|X]; [|now apply C]. exfalso. destruct (One k Kk (eq_sym X)) as (it & Y & _). unfold port_wire in Y. rewrite Fl in Y. discriminate.
      + assert (In w d /\ i_gen w = g /\ hooks (inward H p) p w) as (Iw & Gw & Hw).
        { assert (In w (filter (fun it => Nat.eqb (i_gen it) g && hook H p it) d)) as X by (rewrite Fl; now left). apply filter_In in X. rewrite andb_true_iff, Nat.eqb_eq, hook_spec in X. tauto. }
        destruct (td_whole _ _ _ _ _ Td p w (Ip p (or_introl eq_refl)) Iw Gw Hw) as (k & Kp & Ki & Kw).
        assert (K k) as Kk.
        { split; [rewrite Kp; apply Ip; now left|]. split; [now rewrite Kp|]. exists w. split; [exact Iw|]. split; [exact Gw|]. split; [exact Kw|]. intros it' I' G' H'.
          assert (In it' (filter (fun it => Nat.eqb (i_gen it) g && hook H p it) d)) as X.
          { apply filter_In. rewrite andb_true_iff, Nat.eqb_eq, hook_spec. rewrite Ki, Kp in H'. auto. }
          rewrite Fl in X. destruct X as [X|[]]. now symmetry. }
        exists ((k, i_id w) :: W). cbn [map fst snd app]. split; [rewrite A, Ki; reflexivity|]. split.
        * intros k' i' [X|X]; [|now apply B]. inversion X; subst k' i'. split; [exact Kk|]. exists w. auto.
        * split; [|split].
          -- intros k' Kk' [X|X]; [|right; now apply C]. left. destruct (One k' Kk' (eq_sym X)) as (it & Y & I' & G' & E'). unfold port_wire in Y. rewrite Fl in Y. inversion Y as [[Y1 Y2]].
             assert (it = w) as -> by (eapply same_id; [exact (td_ids _ _ _ _ _ Td)|exact I'|exact Iw|congruence]). rewrite Kw in E'. unfold wire_of in E'.
             assert (k_in k' = k_in k) as Ek by congruence. rewrite Ek in E'. destruct k as [ki kp ks], k' as [ki' kp' ks']. cbn in *. destruct ki; inversion E'; congruence.
          -- intros k' [<-|X]; [left; now symmetry|right; now apply D].
          -- cbn. constructor; [|exact E]. intros X. apply in_map_iff in X. destruct X as (k' & X & J). apply N1. rewrite <- Kp, <- X. now apply D.
      + exists W. cbn [app]. split; [exact A|]. split; [exact B|]. split; [|split; [intros k J; right; now apply D|exact E]].
        intros k Kk [X|X]; [|now apply C]. exfalso. destruct (One k Kk (eq_sym X)) as (it & Y & _). unfold port_wire in Y. rewrite Fl in Y. discriminate.
  Qed.
  (* the transfer *)
  Definition moved_in (cs : list nat) (it : item) : item := fold_left (fun it c => transfer c g it) cs it.
  Lemma moved_in_spec : forall cs it, ~ In g cs -> i_id (moved_in cs it) = i_id it /\ i_proc (moved_in cs it) = i_proc it /\ i_gen (moved_in cs it) = if mem (i_gen it) cs then g else i_gen it.
  Proof using.
    clear. induction cs as [|c cs IH]; intros it N; [auto|]. cbn [moved_in fold_left]. fold (moved_in cs (transfer c g it)). destruct (IH (transfer c g it)) as (A & B & C); [intros X; apply N; now right|].
    rewrite A, B, C. split; [reflexivity|]. split; [reflexivity|]. cbn [transfer i_gen]. cbn [mem existsb]. destruct (Nat.eqb_spec (i_gen it) c) as [->|Nc]; cbn [orb]; [|reflexivity].
    destruct (mem g cs) eqn:M; [|reflexivity]. reflexivity.
  Qed.
  Lemma replace_ok : forall M ps, (forall p it s, In p ps -> In it M -> i_gen it = g -> inside s (body it) -> ~ stuck p s) -> replace_ports g ps M = Ok M.
  Proof using.
    clear. intros M. induction ps as [|p ps IH]; intros F; [reflexivity|]. cbn [replace_ports]. unfold move_sinks at 1.
    match goal with |- (match (if ?c then _ else _) with _ => _ end) = _ => destruct c eqn:X end.
    - exfalso. apply throws_when in X. destruct X as (s0 & (it & I & E & Is) & St). apply (F p it s0); auto. now left.
    - apply IH. intros q it s J. apply F. now right.
  Qed.
  Lemma take_in_ok : forall cs M, (forall c, In c cs -> inlined H inl g c) -> NoDup cs -> ~ In g cs ->
    (exists done, (forall c, In c done -> inlined H inl g c) /\ ~ In g done /\ (forall c, In c cs -> ~ In c done) /\ M = map (moved_in done) d) ->
    take_in H g cs M = Ok (map (moved_in cs) M, flat_map (port_wire H g d) (flat_map (h_ports H) cs)).
  Proof using Td.
    induction cs as [|c cs IH]; intros M Ic N Ng (done & Hd & Nd & Ad & EM).
    - cbn. f_equal. f_equal. rewrite <- (map_id M) at 1. reflexivity.
    - inversion N as [|? ? N1 N2]; subst x l. cbn [take_in].
      assert (map (transfer c g) M = map (moved_in (done ++ [c])) d) as Et.
      { rewrite EM, map_map. apply map_ext. intros it. unfold moved_in. now rewrite fold_left_app. }
      assert (~ In g (done ++ [c])) as Nd' by (intros X; apply in_app_iff in X; destruct X as [X|[<-|[]]]; [contradiction|apply Ng; now left]).
      rewrite replace_ok.
      + cbn [obind]. rewrite IH.
        * cbn [obind fst snd flat_map map moved_in fold_left]. rewrite map_map, flat_map_app. f_equal. f_equal. f_equal.
          apply fm_ext. intros p Jp. unfold port_wire.
          assert (filter (fun it => Nat.eqb (i_gen it) g && hook H p it) M = filter (fun it => Nat.eqb (i_gen it) g && hook H p it) d \/
                  exists f, (forall it, i_id (f it) = i_id it) /\ filter (fun it => Nat.eqb (i_gen it) g && hook H p it) M = map f (filter (fun it => Nat.eqb (i_gen it) g && hook H p it) d)) as X.
          { right. exists (moved_in done). split; [intros it; now apply (moved_in_spec done it)|]. rewrite EM. clear - Td Nd Hd Ad Ic Jp.
            assert (forall it, In it d -> Nat.eqb (i_gen (moved_in done it)) g && hook H p (moved_in done it) = Nat.eqb (i_gen it) g && hook H p it) as Q.
            { intros it I. destruct (moved_in_spec done it Nd) as (A & B & C). assert (hook H p (moved_in done it) = hook H p it) as -> by (unfold hook; now rewrite B).
              rewrite C. destruct (mem (i_gen it) done) eqn:M; [|reflexivity]. destruct (hook H p it) eqn:Hh; [|now rewrite !andb_false_r]. exfalso. apply mem_in in M. apply hook_spec in Hh.
              destruct (td_scope _ _ _ _ _ Td c p it (Ic c (or_introl eq_refl)) Jp I (or_intror (Hd _ M)) Hh) as [X|X]; [apply Nd; now rewrite <- X|]. apply (Ad c (or_introl eq_refl)). now rewrite <- X. }
            clear Td. induction d as [|a l IHl]; [reflexivity|]. cbn [map filter]. rewrite (Q a (or_introl eq_refl)), IHl by (intros; apply Q; now right). destruct (Nat.eqb (i_gen a) g && hook H p a); reflexivity. }
          destruct X as [-> |(f & Fi & ->)]; [reflexivity|]. destruct (filter _ d) as [|a [|b l]]; cbn; [reflexivity|now rewrite Fi|reflexivity].
        * intros c' I. apply Ic. now right.
        * exact N2.
        * intros X. apply Ng. now right.
        * exists (done ++ [c])%list. split; [|split; [exact Nd'|split; [|exact Et]]].
          -- intros c' X. apply in_app_iff in X. destruct X as [X|[<-|[]]]; [now apply Hd|apply Ic; now left].
          -- intros c' I X. apply in_app_iff in X. destruct X as [X|[<-|[]]]; [exact (Ad c' (or_intror I) X)|contradiction].
      + intros p it s Jp I Eg Is. rewrite Et in I. apply in_map_iff in I. destruct I as (it0 & <- & I). destruct (moved_in_spec (done ++ [c]) it0 Nd') as (A & B & C). rewrite B in Is. rewrite C in Eg.
        apply (td_moves _ _ _ _ _ Td p it0 s); auto.
        * exists c. split; [apply Ic; now left|exact Jp].
        * destruct (mem (i_gen it0) (done ++ [c])) eqn:Mm; [|now left]. right. apply mem_in, in_app_iff in Mm. destruct Mm as [Mm|[<-|[]]]; [now apply Hd|apply Ic; now left].
  Qed.
  Notation cs := (filter inl (kids H [] g)).
  Lemma chosen_in : forall c, In c cs <-> inlined H inl g c.
  Proof using.
    clear. intros c. unfold kids, inlined. rewrite !filter_In. cbn [mem existsb negb]. rewrite andb_true_r. destruct (h_parent H c) as [p|]; [rewrite Nat.eqb_eq|]; split.
    - intros ((A & ->) & B). auto.
    - intros (A & B & C). injection B as ->. auto.
    - intros ((_ & X) & _). discriminate.
    - intros (_ & X & _). discriminate.
  Qed.
  Lemma chosen_nodup : NoDup cs.
  Proof using Td. apply NoDup_filter, NoDup_filter. exact (td_gens _ _ _ _ _ Td). Qed.
  Lemma chosen_self : ~ In g cs.
  Proof using Td. intros X. apply chosen_in in X. destruct X as (_ & X & Y). destruct (td_self _ _ _ _ _ Td); congruence. Qed.
  Lemma chosen_ports : NoDup (flat_map (h_ports H) cs).
  Proof using Td.
    pose proof (td_ports _ _ _ _ _ Td) as N. unfold kids. rewrite filter_filter. erewrite filter_ext; [exact N|]. intros c. cbn [mem existsb negb]. now rewrite andb_true_r.
  Qed.
  Lemma port_in : forall p, In p (flat_map (h_ports H) cs) <-> inlined_port H inl g p.
  Proof using.
    clear. intros p. rewrite in_flat_map. split; intros (c & A & B); exists c; (split; [now apply chosen_in|exact B]).
  Qed.

  Section Conns.
    Variable W : list (conn * nat).
    Hypothesis WB : forall k i, In (k, i) W -> K k /\ exists it, In it d /\ i_id it = i /\ i_gen it = g /\ i_proc it = wire_of k.
    Hypothesis WC : forall k, K k -> In k (map fst W).
    Hypothesis WE : NoDup (map k_port (map fst W)).
    Notation L := (map fst W).
    Notation D1 := (map (moved_in cs) d).
    Notation D0 := (filter (kept W) D1).
    Notation m := (mp L).
    Lemma in_L : forall k, In k L <-> K k.
    Proof using WB WC. clear - WB WC. intros k. split; [|apply WC]. intros I. apply in_map_iff in I. destruct I as ((k', i) & E & I). cbn in E. subst k'. now destruct (WB k i I). Qed.
    Lemma moved_gen : forall it, (comes_to H inl g it -> i_gen (moved_in cs it) = g) /\ (i_gen (moved_in cs it) = g -> comes_to H inl g it).
    Proof using Td.
      intros it. destruct (moved_in_spec cs it chosen_self) as (_ & _ & E). rewrite E. unfold comes_to. destruct (mem (i_gen it) cs) eqn:M.
      - apply mem_in, chosen_in in M. split; auto.
      - split; [|auto]. intros [X|X]; [exact X|]. apply chosen_in, mem_in in X. congruence.
    Qed.
    Lemma in_D0 : forall it, In it D0 -> exists it0, In it0 d /\ i_proc it = i_proc it0 /\ (comes_to H inl g it0 -> i_gen it = g) /\ (i_gen it = g -> comes_to H inl g it0) /\ (forall k, K k -> i_proc it0 <> wire_of k).
    Proof using Td WB WC.
      intros it I. apply filter_In in I. destruct I as [I Kp]. apply in_map_iff in I. destruct I as (it0 & <- & I). destruct (moved_in_spec cs it0 chosen_self) as (A & B & C).
      exists it0. split; [exact I|]. split; [exact B|]. split; [apply moved_gen|]. split; [apply moved_gen|]. intros k Kk E.
      apply WC, in_map_iff in Kk. destruct Kk as ((k', i) & Ek & J). cbn in Ek. subst k'. destruct (WB k i J) as (Kk & w & Iw & Ei & _ & Ew).
      destruct (the_wire k it0 Kk I E) as (w' & -> & _ & U). rewrite (U w Iw Ew) in Ei. unfold kept in Kp. rewrite A, Ei in Kp.
      assert (mem i (map snd W) = true) as X by (apply mem_in, in_map_iff; exists (k, i); auto). rewrite X in Kp. discriminate.
    Qed.
    Lemma L_apart : forall k k', In k L -> In k' L -> k_sig k <> k_port k'.
    Proof using Td WB WC. intros k k' I I' E. apply in_L in I, I'. apply (td_apart _ _ _ _ _ Td k I). rewrite E. apply I'. Qed.
    Lemma L_ends : forall x, ends K x (rho L x).
    Proof using WB WC WE.
      clear - WB WC WE. intros x. destruct (rho_cases L x) as [(k & I & P & R)|[N R]]; [left; exists k; rewrite in_L in I; auto|right]. split; [|exact R]. intros k Kk E. apply N. rewrite <- E. apply in_map. now apply WC.
    Qed.
    Lemma ok0 : ok G g False L D0.
    Proof using Td WB WC WE.
      split.
      - exact WE.
      - exact L_apart.
      - intros k k' I I' Q Q' E. apply in_L in I, I'. destruct I as (A1 & A2 & w & Iw & Gw & Ew & U). destruct (td_out _ _ _ _ _ Td k' w I' Q' Iw) as (_ & X & _).
        assert (i_proc w = wire_of k') as Ew' by (apply X; rewrite Ew; unfold wire_of; rewrite Q; left; exists Blocking, (LVar (k_sig k)), (EVar (k_port k)); split; [apply in_here; now left|exact E]).
        rewrite Ew in Ew'. unfold wire_of in Ew'. rewrite Q, Q' in Ew'. now inversion Ew'.
      - intros k I. apply (td_type _ _ _ _ _ Td). now apply in_L.
      - intros k it I Q J. apply in_L in I. destruct (in_D0 it J) as (it0 & I0 & E & Gc & Gd & Nw). rewrite E. destruct (td_in _ _ _ _ _ Td k it0 I Q I0) as (T1 & T2 & T3).
        split; [intros X; apply (Nw k I); now apply T1|]. split; [intros X; apply Gc, T2; now left|]. intros s Is. split; [intros []|]. intros X.
        apply (td_moves _ _ _ _ _ Td (k_port k) it0 s (proj1 I) I0); auto. apply T2. left. exists s. split; [exact Is|now apply stuck_reads].
      - intros k it I Q J. apply in_L in I. destruct (in_D0 it J) as (it0 & I0 & E & Gc & Gd & Nw). rewrite E. destruct (td_out _ _ _ _ _ Td k it0 I Q I0) as (T1 & T2 & T3 & T4).
        split; [intros X; apply (Nw k I); now apply T1|]. split; [intros X; apply (Nw k I); now apply T2|]. split; [intros X; apply Gc, T3; now left|exact T4].
      - intros it x y J Rx Cy E. destruct (in_D0 it J) as (it0 & I0 & Ep & Gc & Gd & Nw). rewrite Ep in Rx, Cy. apply (td_order _ _ _ _ _ Td it0 x y (rho L x) I0 Nw Rx Cy (L_ends x)). rewrite E. apply L_ends.
    Qed.
    Lemma rho_port : forall k x, In k L -> k_port k <> rho L x.
    Proof using Td WB WC WE.
      intros k x I E. destruct (rho_cases L x) as [(k' & I' & P & R)|[N R]]; [apply (L_apart k' k I' I); congruence|]. apply N. rewrite <- R, <- E. now apply in_map.
    Qed.
    Lemma rho_rho : forall x, rho L (rho L x) = rho L x.
    Proof using Td WB WC WE. intros x. apply rho_off. intros X. apply in_map_iff in X. destruct X as (k & E & I). exact (rho_port k x I E). Qed.
    Lemma rn_else : forall it, i_gen it <> g -> rn_item m g it = it.
    Proof using. clear. intros it N. unfold rn_item. destruct (Nat.eqb_spec (i_gen it) g); [contradiction|reflexivity]. Qed.
    Lemma rn_same : forall it, i_gen (rn_item m g it) = i_gen it /\ i_id (rn_item m g it) = i_id it.
    Proof using. clear. intros it. unfold rn_item. destruct (Nat.eqb (i_gen it) g); auto. Qed.
    Lemma ok1 : ok G g True L (map (rn_item m g) D0).
    Proof using Td WB WC WE.
      pose proof ok0 as O. split.
      - exact WE.
      - exact L_apart.
      - exact (ok_outs _ _ _ _ _ O).
      - exact (ok_type _ _ _ _ _ O).
      - intros k it I Q J. apply in_map_iff in J. destruct J as (it1 & <- & J). destruct (ok_in _ _ _ _ _ O k it1 I Q J) as (T1 & T2 & T3). rewrite (proj1 (rn_same it1)).
        destruct (Nat.eq_dec (i_gen it1) g) as [Eg|Ng].
        + rewrite (rn_body m it1 g Eg), rn_touches. split; [exact T1|]. split; [auto|]. intros s Is. apply rn_inside in Is. destruct Is as (s0 & Is & ->). split; intros X.
          * intros Hh. pose proof (holds_reads _ _ Hh) as R. apply rn_reads in R. destruct R as [[R Np]|(p & _ & X2)]; [|exact (rho_port k p I X2)]. apply rn_holds in Hh. destruct Hh as [Hh|(p & _ & X2)]; [|exact (rho_port k p I X2)].
            destruct (in_D0 it1 J) as (it0 & I0 & E & _). rewrite E in Is. apply in_L in I. destruct (proj2 (proj2 (td_in _ _ _ _ _ Td k it0 I Q I0)) s0 Is R); contradiction.
          * apply rn_stuck in X. destruct X as [X|(p & _ & X2)]; [|exact (rho_port k p I X2)]. now apply (T3 s0 Is).
        + rewrite (rn_else it1 Ng). split; [exact T1|]. split; [exact T2|]. intros s Is. split; [|apply (T3 s Is)]. intros _ Hh. apply Ng, T2. exists s. split; [exact Is|now apply holds_reads].
      - intros k it I Q J. apply in_map_iff in J. destruct J as (it1 & <- & J). destruct (ok_out _ _ _ _ _ O k it1 I Q J) as (T1 & T2 & T3 & T4). rewrite (proj1 (rn_same it1)).
        destruct (Nat.eq_dec (i_gen it1) g) as [Eg|Ng]; [|rewrite (rn_else it1 Ng); auto]. rewrite (rn_body m it1 g Eg). split; [|split; [|split; [auto|]]].
        + intros (s & Is & R). apply rn_inside in Is. destruct Is as (s0 & Is & ->). apply rn_reads in R. destruct R as [[R _]|(p & _ & X2)]; [|exact (rho_port k p I X2)]. apply T1. exists s0. auto.
        + now rewrite rn_touches.
        + now rewrite rn_loops.
      - intros it x y J Rx Cy E. apply in_map_iff in J. destruct J as (it1 & <- & J). destruct (Nat.eq_dec (i_gen it1) g) as [Eg|Ng]; [|rewrite (rn_else it1 Ng) in *; apply (ok_order _ _ _ _ _ O it1 x y J Rx Cy E)].
        rewrite (rn_body m it1 g Eg) in Rx, Cy. rewrite rn_changes in Cy. destruct Rx as (s & Is & R). apply rn_inside in Is. destruct Is as (s0 & Is & ->). apply rn_reads in R.
        destruct R as [[R _]|(p & Pt & X2)]; [apply (ok_order _ _ _ _ _ O it1 x y J); auto; exists s0; auto|].
        assert (reads p (body_of (i_proc it1))) as Rp by (exists s0; split; [exact Is|]; destruct s0; cbn in Pt; try contradiction; subst; constructor; now left).
        assert (p = y) as Ep by (apply (ok_order _ _ _ _ _ O it1 p y J Rp Cy); rewrite <- E, X2; symmetry; apply rho_rho). subst p.
        destruct (rho_cases L y) as [(k & I & P & Rr)|[_ Rr]]; [|congruence]. exfalso. subst y. destruct (k_in k) eqn:Q.
        + apply (ok_in _ _ _ _ _ O k it1 I Q J). now apply changes_touches.
        + apply (proj1 (ok_out _ _ _ _ _ O k it1 I Q J)). exact Rp.
    Qed.
    (* histories *)
    Lemma level_rho : forall r x, level L r -> r (rho L x) = r x.
    Proof using. clear. intros r x Lv. destruct (rho_cases L x) as [(k & I & P & R)|[_ R]]; [|now rewrite R]. rewrite R, <- P. symmetry. now apply Lv. Qed.
    Lemma rho_type : forall x, G (rho L x) = G x.
    Proof using Td WB WC WE. intros x. destruct (rho_cases L x) as [(k & I & P & R)|[_ R]]; [|now rewrite R]. rewrite R, <- P. symmetry. exact (ok_type _ _ _ _ _ ok0 k I). Qed.
    Lemma rn_like : forall it, In it D0 -> like G (level L) it (rn_item m g it).
    Proof using Td WB WC WE.
      intros it J. destruct (Nat.eq_dec (i_gen it) g) as [Eg|Ng]; [|rewrite (rn_else it Ng); split; reflexivity]. split.
      - rewrite (rn_events m it g Eg). destruct (events_of (i_proc it)); cbn; split; congruence.
      - intros r r' Lr Lr'. rewrite (rn_events m it g Eg). induction (events_of (i_proc it)) as [|e l IH]; [reflexivity|]. cbn [map existsb]. rewrite IH. f_equal. unfold edge. cbn [ev fst snd].
        now rewrite rho_type, !level_rho.
      - intros x. rewrite (rn_body m it g Eg). apply rn_assigns.
      - intros r Lr. rewrite (rn_body m it g Eg). pose proof ok0 as O.
        apply (rn_run m G (fun x => rho L x <> x /\ reads x (body_of (i_proc it)))).
        + intros x _. apply rho_type.
        + split.
          * intros x (Nx & R). destruct (rho_cases L x) as [(k & I & P & Rr)|[_ Rr]]; [|contradiction]. subst x. rewrite Rr.
            assert (k_in k = true) as Q by (destruct (k_in k) eqn:Q; [reflexivity|]; exfalso; apply (proj1 (ok_out _ _ _ _ _ O k it I Q J)); exact R).
            apply (order_in G g False L D0 k it O I Q J R).
          * intros s x Is Pt Nx. split; [exact Nx|]. exists s. split; [exact Is|]. destruct s; cbn in Pt; try contradiction; subst; constructor; now left.
        + intros x _. cbn [start_state st_cur]. now apply level_rho.
    Qed.
    Notation D' := (map (rn_item m g) (steps g L D0)).
    Lemma core_history : forall h, Forall (level L) h -> history G D0 h <-> history G D' h.
    Proof using Td WB WC WE.
      intros h F. rewrite (like_history G (level L) (rn_item m g) D0 rn_like h F). rewrite (rn_steps g m L D0). apply (steps_history G g True); [exact ok1|exact F].
    Qed.
    Lemma d_history : forall h, history G d h <-> history G D1 h.
    Proof using Td.
      intros h. apply (like_history G (fun _ => True) (moved_in cs) d); [|apply Forall_forall; auto]. intros it _. destruct (moved_in_spec cs it chosen_self) as (_ & B & _). split; rewrite ?B; intros; rewrite ?B; reflexivity.
    Qed.
    Lemma gone_wire : forall it, In it D1 -> kept W it = false -> exists k, In k L /\ i_proc it = wire_of k.
    Proof using Td WB.
      intros it I Kp. unfold kept in Kp. apply negb_false_iff, mem_in, in_map_iff in Kp. destruct Kp as ((k, i) & E & J). cbn in E. destruct (WB k i J) as (_ & w & Iw & Ei & _ & Ew).
      apply in_map_iff in I. destruct I as (it0 & <- & I). destruct (moved_in_spec cs it0 chosen_self) as (A & B & _). rewrite A in E. rewrite B.
      assert (it0 = w) as -> by (eapply same_id; [exact (td_ids _ _ _ _ _ Td)|exact I|exact Iw|congruence]). exists k. split; [apply in_map_iff; exists (k, i); auto|exact Ew].
    Qed.
    Lemma wire_there : forall k, In k L -> exists it, In it D1 /\ kept W it = false /\ i_proc it = wire_of k.
    Proof using Td WB.
      intros k I. apply in_map_iff in I. destruct I as ((k', i) & E & J). cbn in E. subst k'. destruct (WB k i J) as (_ & w & Iw & Ei & _ & Ew). destruct (moved_in_spec cs w chosen_self) as (A & B & _).
      exists (moved_in cs w). split; [now apply in_map|]. split; [|now rewrite B]. unfold kept. rewrite A, Ei. apply negb_false_iff, mem_in, in_map_iff. exists (k, i). auto.
    Qed.
    Lemma settled_level : forall r, in_range G r -> settled G D1 r -> level L r.
    Proof using Td WB WC WE.
      intros r R S0 k I. destruct (wire_there k I) as (it & J & _ & E). pose proof (ok_type _ _ _ _ _ ok0 k I) as Ty. unfold wire_of in E. destruct (k_in k).
      - apply (wire_eq G (k_sig k) (k_port k) r R (eq_sym Ty)). specialize (S0 it J). rewrite E in S0. now apply S0.
      - symmetry. apply (wire_eq G (k_port k) (k_sig k) r R Ty). specialize (S0 it J). rewrite E in S0. now apply S0.
    Qed.
    Lemma level_still : forall r, in_range G r -> level L r -> forall it, In it D1 -> kept W it = false -> forall x, activate G (body_of (i_proc it)) r x = r x.
    Proof using Td WB WC WE.
      intros r R Lv it I Kp x. destruct (gone_wire it I Kp) as (k & J & E). rewrite E. pose proof (ok_type _ _ _ _ _ ok0 k J) as Ty. specialize (Lv k J). unfold wire_of. destruct (k_in k).
      - destruct (Nat.eq_dec x (k_port k)) as [->|N]; [apply (wire_eq G (k_sig k) (k_port k) r R (eq_sym Ty)); exact Lv|]. cbn [body_of]. rewrite wire_activate. destruct (Nat.eqb_spec x (k_port k)); [contradiction|reflexivity].
      - destruct (Nat.eq_dec x (k_sig k)) as [->|N]; [apply (wire_eq G (k_port k) (k_sig k) r R Ty); now symmetry|]. cbn [body_of]. rewrite wire_activate. destruct (Nat.eqb_spec x (k_sig k)); [contradiction|reflexivity].
    Qed.
    Lemma gone_events : forall it, In it D1 -> kept W it = false -> events_of (i_proc it) = [].
    Proof using Td WB. intros it I Kp. destruct (gone_wire it I Kp) as (k & _ & ->). unfold wire_of. now destruct (k_in k). Qed.
    Lemma forward : forall h, Forall (in_range G) h -> history G d h -> history G D' h.
    Proof using Td WB WC WE.
      intros h R Hh. apply d_history in Hh. apply core_history.
      - apply history_settled in Hh. rewrite Forall_forall in *. intros r I. apply settled_level; auto.
      - apply (drop_out G D1 (kept W) gone_events). exact Hh.
    Qed.
    Definition hid (x : var) : bool := mem x (map k_port L).
    Definition down (r : venv) : venv := fun x => r (rho L x).
    Lemma hid_port : forall x, hid x = true -> exists k, In k L /\ k_port k = x.
    Proof using. clear. intros x E. apply mem_in, in_map_iff in E. destruct E as (k & E & I). eauto. Qed.
    Lemma port_unused : forall k it, In k L -> In it D' -> ~ reads (k_port k) (body_of (i_proc it)) /\ ~ touches (k_port k) (body_of (i_proc it)).
    Proof using Td WB WC WE. intros k it I J. rewrite (rn_steps g m L D0) in J. exact (steps_done G g True L _ k Logic.I ok1 I it J). Qed.
    Lemma port_event : forall k, In k L -> ~ d_event (k_port k) D'.
    Proof using Td WB WC WE.
      intros k I (it & e & J & Je & E). rewrite (rn_steps g m L D0) in J. apply (steps_events g) in J. destruct J as (it1 & J & _ & Ee). rewrite Ee in Je.
      apply in_map_iff in J. destruct J as (it2 & <- & J). destruct (Nat.eq_dec (i_gen it2) g) as [Eg|Ng].
      - rewrite (rn_events m it2 g Eg) in Je. apply in_map_iff in Je. destruct Je as (e0 & <- & _). cbn in E. exact (rho_port k (snd e0) I (eq_sym E)).
      - rewrite (rn_else it2 Ng) in Je. destruct (in_D0 it2 J) as (it0 & I0 & Ep & Gc & _). rewrite Ep in Je. apply Ng, Gc.
        assert (In (k_port k) (map snd (events_of (i_proc it0)))) as Jn by (apply in_map_iff; exists e; auto). apply in_L in I. destruct (k_in k) eqn:Q.
        + apply (proj1 (proj2 (td_in _ _ _ _ _ Td k it0 I Q I0))). now right.
        + apply (proj1 (proj2 (proj2 (td_out _ _ _ _ _ Td k it0 I Q I0)))). now right.
    Qed.
    Lemma backward : forall h', Forall (in_range G) h' -> history G D' h' -> exists h, history G d h /\ Forall2 (fun r r' => forall x, ~ (exists k, K k /\ k_port k = x) -> r x = r' x) h h'.
    Proof using Td WB WC WE.
      intros h' R Hh. exists (map down h').
      assert (history G D' (map down h')) as H1.
      { apply (hide_history G D' hid down); [| | |exact Hh].
        - intros x it Hx I. apply hid_port in Hx. destruct Hx as (k & J & <-). now apply port_unused.
        - intros x Hx. apply hid_port in Hx. destruct Hx as (k & J & <-). now apply port_event.
        - intros r x Hx. unfold down. rewrite rho_off; [reflexivity|]. intros X. apply mem_in in X. unfold hid in Hx. congruence. }
      assert (Forall (level L) (map down h')) as Lv.
      { apply Forall_map, Forall_forall. intros r _ k I. unfold down. rewrite (rho_key L k WE I). now rewrite (rho_off L _ (sig_off G g False L D0 k ok0 I)). }
      assert (Forall (in_range G) (map down h')) as Rg.
      { apply Forall_map. eapply Forall_impl; [|exact R]. intros r Rr x. unfold down. rewrite <- (rho_type x). apply Rr. }
      split.
      - apply d_history. apply (drop_in G D1 (kept W) gone_events); [|apply core_history; [exact Lv|exact H1]]. rewrite Forall_forall in *. intros r I. apply level_still; auto.
      - clear - WB WC. induction h' as [|r h' IH]; [constructor|]. cbn [map]. constructor; [|exact IH]. intros x N. unfold down. rewrite rho_off; [reflexivity|]. intros X. apply in_map_iff in X. destruct X as (k & E & I). apply N. exists k. rewrite in_L in I. auto.
    Qed.
  End Conns.
  Lemma nodup_snd : forall W : list (conn * nat), NoDup (map fst W) -> (forall k k' i, In (k, i) W -> In (k', i) W -> k = k') -> NoDup (map snd W).
  Proof using.
    clear. induction W as [|[k i] W IH]; intros N F; [constructor|]. cbn in *. inversion N as [|? ? N1 N2]; subst. constructor.
    - intros X. apply in_map_iff in X. destruct X as ((k', i') & E & I). cbn in E. subst i'. apply N1. apply in_map_iff. exists (k', i). split; [|exact I]. cbn. apply (F k' k i); [now right|now left].
    - apply IH; [exact N2|]. intros a b j A B. apply (F a b j); now right.
  Qed.
  Lemma shorten_none : forall own old D gone vs, (forall v, In v vs -> shorten g own old v (D, gone) = Ok (D, gone)) -> shorten_all g own old vs (D, gone) = Ok (D, gone).
  Proof using. clear. intros own old D gone. induction vs as [|v vs IH]; intros F; [reflexivity|]. cbn [shorten_all]. rewrite (F v (or_introl eq_refl)). cbn [obind]. apply IH. intros w I. apply F. now right. Qed.
  Lemma src_source : forall c x D, src c x D -> exists it kd l e, In (it, SAssign kd l e) (sources_of D x) /\ (c = true -> ~ copies (SAssign kd l e)).
  Proof using.
    clear. intros c x D (it & kd & l & e & I & Is & V & C). exists it, kd, l, e. split; [|exact C]. apply in_sources. split; [exact I|]. split; [exact Is|]. apply assigns_to_spec. exists kd, l, e. auto.
  Qed.
  Hypothesis Leaf : forall c, In c (h_gens H) -> h_parent H c = Some g -> forall c', In c' (h_gens H) -> h_parent H c' <> Some c.
  Hypothesis Some_ : exists c, inlined H inl g c.
  Lemma inline_whole : exists s', inline_gen H inl g (start H d) = Ok s' /\ same_but G (fun x => exists k, K k /\ k_port k = x) d (n_design s') /\
    (forall k, K k -> (forall it, In it (n_design s') -> ~ reads (k_port k) (body_of (i_proc it)) /\ ~ touches (k_port k) (body_of (i_proc it))) /\ ~ d_event (k_port k) (n_design s')) /\
    (forall it, In it (n_design s') -> ~ inlined H inl g (i_gen it)) /\ (forall c, In c (n_removed s') <-> inlined H inl g c) /\ (forall x, In x (n_gone s') <-> exists k, K k /\ k_port k = x) /\
    (forall x, n_owner s' x = if mem (h_owner H x) cs then g else h_owner H x).
  Proof using Td Leaf Some_.
    unfold inline_gen. cbn [start n_removed n_design n_owner n_gone].
    assert (forallb (fun c => match kids H [] c with [] => true | _ => false end) (kids H [] g) = true) as ->.
    { apply forallb_forall. intros c I. unfold kids in I. apply filter_In in I. destruct I as [I P]. destruct (h_parent H c) as [p|] eqn:Ep; [|discriminate]. apply andb_true_iff in P. destruct P as [P _]. apply Nat.eqb_eq in P. subst p.
      destruct (kids H [] c) as [|c' l] eqn:Kc; [reflexivity|]. exfalso. assert (In c' (kids H [] c)) as J by (rewrite Kc; now left). unfold kids in J. apply filter_In in J. destruct J as [J P].
      destruct (h_parent H c') as [p|] eqn:Ep'; [|discriminate]. apply andb_true_iff in P. destruct P as [P _]. apply Nat.eqb_eq in P. subst p. exact (Leaf c I Ep c' J Ep'). }
    cbn [negb]. assert (exists c l, cs = c :: l) as (c0 & l0 & Ec).
    { destruct Some_ as (c & Ic). apply chosen_in in Ic. destruct cs as [|c0 l0]; [destruct Ic|eauto]. }
    assert (forall B (ch : list nat) (a b : B), ch = c0 :: l0 -> (match ch with [] => a | _ :: _ => b end) = b) as Mt by (intros B ch a b ->; reflexivity). rewrite (Mt _ cs _ _ Ec). clear Mt.
    rewrite (take_in_ok cs d); [|intros c I; now apply chosen_in|apply chosen_nodup|apply chosen_self|].
    2: { exists []. split; [intros c []|]. split; [intros []|]. split; [intros c _ []|]. rewrite <- (map_id d) at 1. reflexivity. }
    cbn [obind fst snd].
    destruct (conns (flat_map (h_ports H) cs)) as (W & WA & WB & WC & WD & WE); [intros p I; now apply port_in|apply chosen_ports|]. rewrite WA.
    assert (forall k, K k -> In k (map fst W)) as WC' by (intros k Kk; apply (WC k Kk); apply port_in; apply Kk). clear WC WA.
    pose proof (ok0 W WB WC' WE) as O. pose proof chosen_self as Ns.
    assert (forall it, i_id (moved_in cs it) = i_id it) as Mi by (intros it; now apply moved_in_spec).
    set (st0 := {| o_design := map (moved_in cs) d; o_map := []; o_sigs := []; o_old := [] |}).
    assert (at_ G g W (o_design st0)) as At.
    { cbn [o_design st0]. split.
      - rewrite map_map, (map_ext _ i_id Mi). exact (td_ids _ _ _ _ _ Td).
      - apply nodup_snd; [now apply NoDup_map_inv in WE|]. intros k k' i J J'. destruct (WB k i J) as (Kk & w & Iw & Ei & _ & Ew). destruct (WB k' i J') as (Kk' & w' & Iw' & Ei' & _ & Ew').
        assert (w = w') as <- by (eapply same_id; [exact (td_ids _ _ _ _ _ Td)|exact Iw|exact Iw'|congruence]). rewrite Ew in Ew'. pose proof (WC' k Kk) as Lk. pose proof (WC' k' Kk') as Lk'.
        pose proof (ok_apart _ _ _ _ _ O k k' Lk Lk') as A1. pose proof (ok_apart _ _ _ _ _ O k' k Lk' Lk) as A2. clear - Ew' A1 A2. unfold wire_of in Ew'. destruct k as [[] p s], k' as [[] p' s']; cbn in *; inversion Ew'; subst; try reflexivity; exfalso; auto.
      - intros k i J. destruct (WB k i J) as (Kk & w & Iw & Ei & Gw & Ew). exists (moved_in cs w). split; [now apply in_map|]. split; [now rewrite Mi|]. split; [apply moved_gen; now left|]. destruct (moved_in_spec cs w Ns) as (_ & -> & _). exact Ew.
      - exact O. }
    destruct (dissolve_loop G g W st0 At) as (s1 & E1 & (A1 & A2 & A3 & A4)). rewrite E1. cbn [obind]. cbn [o_map o_sigs o_old o_design st0 app] in A1, A2, A3, A4. rewrite A1, A2, A3.
    set (D' := map (rn_item (mp (map fst W)) g) (steps g (map fst W) (filter (kept W) (map (moved_in cs) d)))). cbn [app].
    set (own := fun x => if mem (h_owner H x) cs then g else h_owner H x).
    assert (forall it, In it d -> (forall k, K k -> i_proc it <> wire_of k) -> In (moved_in cs it) (filter (kept W) (map (moved_in cs) d))) as Stay.
    { intros it I Nw. apply filter_In. split; [now apply in_map|]. destruct (kept W (moved_in cs it)) eqn:X; [reflexivity|]. exfalso. destruct (gone_wire W WB _ (in_map _ _ _ I) X) as (k & J & E).
      destruct (moved_in_spec cs it Ns) as (_ & B & _). rewrite B in E. apply (Nw k); [|exact E]. now apply (in_L W WB WC'). }
    assert (shorten_all g own (o_old s1) (map (fun w => k_sig (fst w)) W) (D', map fst (mp (map fst W))) = Ok (D', map fst (mp (map fst W)))) as Sh.
    { apply shorten_none. intros v Iv. apply in_map_iff in Iv. destruct Iv as ((k, i) & Ev & J). cbn [fst] in Ev. assert (In k (map fst W)) as Lk by (apply in_map_iff; exists (k, i); auto). assert (K k) as Kk by now apply (in_L W WB WC').
      unfold shorten. assert (mem v (map fst (mp (map fst W))) = false) as ->.
      { destruct (mem v (map fst (mp (map fst W)))) eqn:X; [|reflexivity]. exfalso. apply mem_in in X. unfold mp in X. rewrite map_map in X. cbn in X. apply in_map_iff in X. destruct X as (k' & E' & J'). apply (ok_apart _ _ _ _ _ O k k' Lk J'). congruence. }
      destruct (in_dec Nat.eq_dec v (o_old s1)) as [Io|No].
      - assert (exists a l, filter (Nat.eqb v) (o_old s1) = a :: l) as (a & l & ->).
        { assert (In v (filter (Nat.eqb v) (o_old s1))) as X by (apply filter_In; split; [exact Io|apply Nat.eqb_refl]). destruct (filter (Nat.eqb v) (o_old s1)); [destruct X|eauto]. }
        apply A4 in Io. destruct Io as [[]|((k', i') & J' & Q & Es)]. cbn [fst] in Q, Es. assert (In k' (map fst W)) as Lk' by (apply in_map_iff; exists (k', i'); auto). assert (K k') as Kk' by now apply (in_L W WB WC').
        assert (src false v D') as S1.
        { apply src_rn. rewrite <- Es. apply (src_move G g False false (map fst W) _ k' O Lk' Q). destruct (td_driven _ _ _ _ _ Td k' Kk' Q) as (it & I & kd & l1 & e & Is & V). exists (moved_in cs it), kd, l1, e. destruct (moved_in_spec cs it Ns) as (_ & B & _). rewrite B.
          split; [|split; [exact Is|split; [exact V|discriminate]]]. apply Stay; [exact I|]. intros k2 Kk2 E2. rewrite E2 in Is.
          assert (touches (k_port k') (body_of (wire_of k2))) as T2 by (left; exists kd, l1, e; auto). apply (wire_touches_k k2) in T2. pose proof (WC' k2 Kk2) as L2. destruct (k_in k2) eqn:Q2; [|apply (ok_apart _ _ _ _ _ O k2 k' L2 Lk'); congruence].
          assert (k' = k2); [|congruence]. pose proof (rho_key (map fst W) k' WE Lk') as R1. clear - WE Lk' L2 T2. revert WE Lk' L2. induction (map fst W) as [|a l IH]; intros N I1 I2; [destruct I1|]. cbn in N. inversion N as [|? ? N1 N2]; subst.
          destruct I1 as [-> |I1], I2 as [->|I2]; [reflexivity|exfalso; apply N1; rewrite T2; now apply in_map|exfalso; apply N1; rewrite <- T2; now apply in_map|now apply IH]. }
        apply src_source in S1. destruct S1 as (it & kd & l1 & e & X & _). destruct (sources_of D' v) as [|y ys]; [destruct X|]. destruct y as [it2 s2]. destruct ys; destruct s2 as [k2 l2 e2| | | | | | |]; try reflexivity; destruct l2; try reflexivity; destruct e2; reflexivity.
      - assert (filter (Nat.eqb v) (o_old s1) = []) as ->.
        { destruct (filter (Nat.eqb v) (o_old s1)) as [|a l] eqn:X; [reflexivity|]. exfalso. apply No. assert (In a (filter (Nat.eqb v) (o_old s1))) as Y by (rewrite X; now left). apply filter_In in Y. destruct Y as [Y Z0]. apply Nat.eqb_eq in Z0. now subst a. }
        assert (forall k', In k' (map fst W) -> k_in k' = false -> k_sig k' <> v) as Nout.
        { intros k' L' Q E. apply No, A4. right. apply in_map_iff in L'. destruct L' as ((k2, i2) & E2 & J2). cbn in E2. subst k2. exists (k', i2). auto. }
        assert (k_in k = true) as Q by (destruct (k_in k) eqn:Q; [reflexivity|]; exfalso; exact (Nout k Lk Q Ev)).
        destruct (sources_of D' v) as [|[it s] ys] eqn:So; [reflexivity|]. assert (In (it, s) (sources_of D' v)) as X by (rewrite So; now left). apply in_sources in X. destruct X as (I & Is & As). apply assigns_to_spec in As. destruct As as (kd & l1 & e & -> & V).
        destruct ys as [|y ys]; [|destruct l1; try reflexivity; destruct e; reflexivity]. destruct l1 as [x1| |]; try reflexivity. destruct e as [y1| | | | | | |]; try reflexivity. exfalso.
        assert (src false v D') as S1 by (exists it, kd, (LVar x1), (EVar y1); repeat split; auto; discriminate). unfold D' in S1. rewrite src_rn in S1. pose proof (src_back g v _ _ Nout S1) as S3. clear S1. rename S3 into S1.
        destruct S1 as (it1 & kd1 & l2 & e2 & I1 & Is1 & V1 & _). apply filter_In in I1. destruct I1 as [I1 _]. apply in_map_iff in I1. destruct I1 as (it0 & <- & I0). destruct (moved_in_spec cs it0 Ns) as (_ & B & _). rewrite B in Is1.
        destruct (td_copies _ _ _ _ _ Td k Kk Q) as (it3 & kd3 & l3 & e3 & I3 & Is3 & V3 & C3); [exists it0; split; [exact I0|]; exists kd1, l2, e2; split; [exact Is1|congruence]|].
        assert (src true v D') as S2.
        { apply src_rn. apply (src_keep g true v).
          - intros k' L' _ E. apply (ok_apart _ _ _ _ _ O k k' Lk L'). congruence.
          - exists (moved_in cs it3), kd3, l3, e3. destruct (moved_in_spec cs it3 Ns) as (_ & B3 & _). rewrite B3. split; [|split; [exact Is3|split; [congruence|intros _; exact C3]]]. apply Stay; [exact I3|].
            intros k' _ E. rewrite E in Is3. apply C3. unfold wire_of in Is3. destruct (k_in k'); apply wire_in in Is3; inversion Is3; exact Logic.I. }
        apply src_source in S2. destruct S2 as (it4 & kd4 & l4 & e4 & X & C4). rewrite So in X. destruct X as [X|[]]. inversion X; subst. apply (C4 eq_refl). exact Logic.I. }
    rewrite Sh. cbn [obind fst snd]. eexists. split; [reflexivity|]. cbn [n_design n_removed n_gone n_owner].
    split; [split; [exact (forward W WB WC' WE)|exact (backward W WB WC' WE)]|]. split; [|split; [|split; [|split; [|reflexivity]]]].
    - intros k Kk. split; [intros it; apply (port_unused W WB WC' WE); now apply WC'|apply (port_event W WB WC' WE); now apply WC'].
    - intros it I Ii. unfold D' in I. apply in_map_iff in I. destruct I as (it1 & <- & I). rewrite (proj1 (rn_same W it1)) in Ii. apply (steps_events g) in I. destruct I as (it2 & I & Eg & _). rewrite Eg in Ii.
      apply filter_In in I. destruct I as [I _]. apply in_map_iff in I. destruct I as (it0 & <- & I). destruct (moved_in_spec cs it0 Ns) as (_ & _ & C). rewrite C in Ii. destruct (mem (i_gen it0) cs) eqn:M; [apply Ns; now apply chosen_in|].
      apply chosen_in, mem_in in Ii. congruence.
    - exact chosen_in.
    - intros x. unfold mp. rewrite map_map. cbn [fst]. rewrite in_map_iff. split; intros (k & A & B); exists k; [split; [now apply (in_L W WB WC')|exact A]|split; [exact B|now apply WC']].
  Qed.
End Whole.
