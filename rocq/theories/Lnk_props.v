(* Theorems about copied parametrisations and moved links: C420 - C427. *)
From Coq Require Import ZArith List Bool Arith Lia.
From Verif Require Import Base Lnk_spec Lnk_model.
Import ListNotations.

Section Ind.
  Variable Pr : wexpr -> Prop.
  Hypothesis HP : forall p, Pr (WParam p).
  Hypothesis HC : forall v, Pr (WConst v).
  Hypothesis H1 : forall op l, Pr l -> Pr (WOp op l None).
  Hypothesis H2 : forall op l r, Pr l -> Pr r -> Pr (WOp op l (Some r)).
  Hypothesis H3 : forall c l r, Pr c -> Pr l -> Pr r -> Pr (WTern c l r).
  Hypothesis HV : forall x, Pr (WVar x).
  Fixpoint wexpr_ind2 (e : wexpr) : Pr e :=
    match e with
    | WParam p => HP p
    | WConst v => HC v
    | WOp op l None => H1 op l (wexpr_ind2 l)
    | WOp op l (Some r) => H2 op l r (wexpr_ind2 l) (wexpr_ind2 r)
    | WTern c l r => H3 c l r (wexpr_ind2 c) (wexpr_ind2 l) (wexpr_ind2 r)
    | WVar x => HV x
    end.
End Ind.

(* Every parameter has the value of the parameter it is set from. *)
Definition linked (P : params) : Prop := forall p q, pparent P p = Some q -> pval P p = pval P q.

(* C420: a copied width has the value of the original, and one copied with the check is written in the parameters of
   the generator it is copied to, each in the place of one that is set from it. *)
Theorem C420_copy : forall P g check e e', linked P -> plain e -> copy_width P g check e = Ok e' ->
  (forall sem, wvalue sem (pval P) e' = wvalue sem (pval P) e)
  /\ (forall q, In q (wparams e') -> powner P q = g /\ exists p, In p (wparams e) /\ pparent P p = Some q)
  /\ (check = true -> List.length (wparams e') = List.length (wparams e)).
Proof.
  intros P g check e e' L. revert e'.
  induction e as [p|v|op l IHl|op l r IHl IHr|c l r IHc IHl IHr|x] using wexpr_ind2; intros e' Pl H.
  - cbn in H. unfold check_parent_param in H. destruct (pparent P p) as [q|] eqn:E.
    + destruct (Nat.eqb_spec (powner P q) g) as [O|O]; cbn in H.
      * injection H as <-. cbn. split; [|split].
        -- intros sem. rewrite (L _ _ E). reflexivity.
        -- intros q' [<-|[]]. split; [exact O|]. exists p. split; [left; reflexivity|exact E].
        -- reflexivity.
      * destruct check; cbn in H; [discriminate|]. injection H as <-. cbn. split; [reflexivity|]. split; [intros q' []|discriminate].
    + destruct check; cbn in H; [discriminate|]. injection H as <-. cbn. split; [reflexivity|]. split; [intros q' []|discriminate].
  - cbn in H. injection H as <-. cbn. split; [reflexivity|]. split; [intros q []|reflexivity].
  - cbn [copy_width] in H. destruct (copy_width P g check l) as [l'| |] eqn:E; cbn in H; try discriminate. injection H as <-.
    destruct (IHl _ Pl eq_refl) as (A & B & C). cbn [wvalue wparams]. split; [|split]; trivial.
    intros sem. rewrite A. reflexivity.
  - cbn [copy_width] in H. destruct (copy_width P g check l) as [l'| |] eqn:E; cbn in H; try discriminate.
    destruct (copy_width P g check r) as [r'| |] eqn:F; cbn in H; try discriminate. injection H as <-.
    destruct Pl as [Pl Pr]. destruct (IHl _ Pl eq_refl) as (A & B & C). destruct (IHr _ Pr eq_refl) as (A' & B' & C').
    cbn [wvalue wparams]. split; [|split].
    + intros sem. rewrite A, A'. reflexivity.
    + intros q I. apply in_app_iff in I. destruct I as [I|I].
      * destruct (B _ I) as (O & p & Ip & Q). split; [exact O|]. exists p. split; [apply in_app_iff; left; exact Ip|exact Q].
      * destruct (B' _ I) as (O & p & Ip & Q). split; [exact O|]. exists p. split; [apply in_app_iff; right; exact Ip|exact Q].
    + intros K. rewrite !app_length, C, C' by exact K. reflexivity.
  - destruct Pl.
  - destruct Pl.
Qed.

(* ... a plain expression is always copied without the check, and with it exactly when every parameter in it is set
   from one of the generator. *)
Theorem C420_succeeds : forall P g check e, plain e ->
  ((exists e', copy_width P g check e = Ok e') <->
   (check = true -> forall p, In p (wparams e) -> exists q, pparent P p = Some q /\ powner P q = g))
  /\ (copy_width P g check e <> UB).
Proof.
  intros P g check e. induction e as [p|v|op l IHl|op l r IHl IHr|c l r IHc IHl IHr|x] using wexpr_ind2; intros Pl.
  - cbn. unfold check_parent_param. destruct (pparent P p) as [q|] eqn:E.
    + destruct (Nat.eqb_spec (powner P q) g) as [O|O]; cbn.
      * split; [|discriminate]. split; [|intros _; eexists; reflexivity].
        intros _ _ p' [<-|[]]. exists q. split; trivial.
      * destruct check; cbn; (split; [|discriminate]).
        -- split; [intros [e' H]; discriminate|]. intros H. destruct (H eq_refl p (or_introl eq_refl)) as (q' & E' & O').
           rewrite E in E'. injection E' as <-. destruct (O O').
        -- split; [discriminate|]. intros _. eexists; reflexivity.
    + destruct check; cbn; (split; [|discriminate]).
      * split; [intros [e' H]; discriminate|]. intros H. destruct (H eq_refl p (or_introl eq_refl)) as (q' & E' & O').
        rewrite E in E'. discriminate.
      * split; [discriminate|]. intros _. eexists; reflexivity.
  - cbn. split; [|discriminate]. split; [intros _ _ p []|intros _; eexists; reflexivity].
  - destruct (IHl Pl) as [A N]. cbn [copy_width wparams]. split.
    + rewrite <- A. destruct (copy_width P g check l) as [l'| |]; cbn.
      * split; intros _; eexists; reflexivity.
      * split; intros [e' H]; discriminate.
      * split; intros [e' H]; discriminate.
    + destruct (copy_width P g check l); cbn; congruence.
  - destruct Pl as [Pl Pr]. destruct (IHl Pl) as [A N]. destruct (IHr Pr) as [A' N']. cbn [copy_width wparams]. split.
    + split.
      * intros [e' H] K p I. destruct (copy_width P g check l) as [l'| |]; cbn in H; try discriminate.
        destruct (copy_width P g check r) as [r'| |]; cbn in H; try discriminate.
        apply in_app_iff in I. destruct I as [I|I].
        -- exact (proj1 A (ex_intro _ _ eq_refl) K p I).
        -- exact (proj1 A' (ex_intro _ _ eq_refl) K p I).
      * intros H. destruct (proj2 A (fun K p I => H K p (proj2 (in_app_iff _ _ _) (or_introl I)))) as [l' ->].
        destruct (proj2 A' (fun K p I => H K p (proj2 (in_app_iff _ _ _) (or_intror I)))) as [r' ->]. cbn. eexists; reflexivity.
    + destruct (copy_width P g check l); cbn; try congruence. destruct (copy_width P g check r); cbn; congruence.
  - destruct Pl.
  - destruct Pl.
Qed.

(* Two parameters of the child, one set from the parent's; the width is their sum. *)
Definition ps : params :=
  mkP (fun p => match p with 0 => 4%Z | 1 => 4%Z | _ => 3%Z end) (fun p => match p with 0 => Some 1 | _ => None end)
      (fun p => match p with 1 => 1 | _ => 0 end).
Definition add : nat -> Z -> option Z -> Z := fun _ a b => match b with Some b => (a + b)%Z | None => a end.
Example C420_ex : linked ps /\
  copy_width ps 1 false (WOp 5 (WParam 0) (Some (WParam 2))) = Ok (WOp 5 (WParam 1) (Some (WConst 3)))
  /\ copy_width ps 1 true (WOp 5 (WParam 0) (Some (WParam 0))) = Ok (WOp 5 (WParam 1) (Some (WParam 1)))
  /\ copy_width ps 1 true (WOp 5 (WParam 0) (Some (WParam 2))) = Throw
  /\ wvalue add (pval ps) (WOp 5 (WParam 0) (Some (WParam 2))) = Some 7%Z.
Proof. split; [|repeat split]. intros [|p] q H; cbn in H; [injection H as <-; reflexivity|discriminate]. Qed.

(* C421: without the check, a copied width need not follow the parameter it was written with.  One that names a
   parameter not set from the generator's has its value of the moment instead. *)
Theorem C421_follows_refuted :
  (forall P g p, (forall q, pparent P p = Some q -> powner P q <> g) ->
     copy_width P g false (WParam p) = Ok (WConst (pval P p)))
  /\ ~ (forall P g e e' sem v, plain e -> copy_width P g false e = Ok e' ->
          (forall p q, pparent P p = Some q -> v p = v q) -> wvalue sem v e' = wvalue sem v e).
Proof.
  split.
  - intros P g p H. cbn. unfold check_parent_param. destruct (pparent P p) as [q|] eqn:E; [|reflexivity].
    destruct (Nat.eqb_spec (powner P q) g) as [O|O]; [destruct (H _ eq_refl O)|reflexivity].
  - intros H. specialize (H (mkP (fun _ => 4%Z) (fun _ => None) (fun _ => 0)) 1 (WParam 0) (WConst 4) add (fun _ => 8%Z) I eq_refl).
    cbn in H. assert (D : forall p q : nat, None = Some q -> 8%Z = 8%Z) by reflexivity. specialize (H D). discriminate.
Qed.

(* C422: a copied ternary does not keep its value: it is rebuilt without its condition. *)
Theorem C422_ternary_refuted :
  (forall P g check c l r e', copy_width P g check (WTern c l r) = Ok e' ->
     exists l' r', copy_width P g check l = Ok l' /\ copy_width P g check r = Ok r' /\ e' = WOp cond_op l' (Some r'))
  /\ ~ (exists sem : nat -> Z -> option Z -> Z, forall P g e e', linked P ->
          copy_width P g true e = Ok e' -> wvalue sem (pval P) e' = wvalue sem (pval P) e).
Proof.
  split.
  - intros P g check c l r e' H. cbn [copy_width] in H. destruct (copy_width P g check l) as [l'| |]; cbn in H; try discriminate.
    destruct (copy_width P g check r) as [r'| |]; cbn in H; try discriminate. injection H as <-. exists l', r'. repeat split.
  - intros [sem H].
    set (P := mkP (fun _ => 1%Z) (fun _ => None) (fun _ => 0)).
    assert (L : linked P) by (intros p q E; discriminate).
    pose proof (H P 0 (WTern (WConst 1) (WConst 2) (WConst 3)) _ L eq_refl) as A.
    pose proof (H P 0 (WTern (WConst 0) (WConst 2) (WConst 3)) _ L eq_refl) as B.
    cbn in A, B. congruence.
Qed.

(* -- variables --------------------------------------------------------------------------------------------------- *)
Lemma put_size_length : forall l i s e, List.length (put_size l i s e) = List.length l.
Proof. induction l as [|d l IH]; intros [|i] s e; cbn; [reflexivity|reflexivity|reflexivity|]. rewrite IH. reflexivity. Qed.
Lemma put_size_nth : forall l i s e j, i < List.length l ->
  nth_error (put_size l i s e) j = if Nat.eqb j i then Some (s, Some e) else nth_error l j.
Proof.
  induction l as [|d l IH]; intros [|i] s e [|j] H; cbn in *; try lia; try reflexivity. apply IH. lia.
Qed.

Section Copied.
  Variable evaluate : wexpr -> outcome Z.
  Lemma copy_sizes_ok P check : forall l i v v', copy_sizes evaluate P check l i v = Ok v' ->
    vgen v' = vgen v /\ vwidth v' = vwidth v /\ vwparam v' = vwparam v /\ List.length (vsizes v') = List.length (vsizes v)
    /\ (forall j, j < i -> nth_error (vsizes v') j = nth_error (vsizes v) j)
    /\ (forall j s, nth_error l j = Some (s, None) -> nth_error (vsizes v') (i + j) = nth_error (vsizes v) (i + j))
    /\ (forall j s e, nth_error l j = Some (s, Some e) -> exists e' w, copy_width P (vgen v) check e = Ok e'
          /\ evaluate e' = Ok w /\ nth_error (vsizes v') (i + j) = Some (w, Some e')).
  Proof.
    induction l as [|[s [e|]] l IH]; intros i v v' H; cbn [copy_sizes] in H.
    - injection H as <-. repeat split; intros [|j] s e; discriminate.
    - destruct (copy_width P (vgen v) check e) as [e'| |] eqn:C; cbn in H; try discriminate.
      unfold set_size in H. destruct (Nat.ltb_spec i (List.length (vsizes v))) as [Li|Li]; cbn in H; try discriminate.
      destruct (evaluate e') as [w| |] eqn:Ev; cbn in H; try discriminate.
      destruct (IH _ _ _ H) as (G & W & WP & Le & Lo & Nn & So). cbn [vgen vwidth vwparam vsizes] in *.
      rewrite put_size_length in Le. split; [exact G|]. split; [exact W|]. split; [exact WP|]. split; [exact Le|].
      split; [|split].
      + intros j Hj. rewrite Lo by lia. rewrite put_size_nth by exact Li. destruct (Nat.eqb_spec j i); [lia|reflexivity].
      + intros [|j] s' E; cbn in E; [discriminate|]. replace (i + S j) with (S i + j) by lia. rewrite (Nn _ _ E), put_size_nth by exact Li.
        destruct (Nat.eqb_spec (S i + j) i); [lia|reflexivity].
      + intros [|j] s' e0 E; cbn in E.
        * injection E as <- <-. exists e', w. rewrite Nat.add_0_r. split; [exact C|]. split; [exact Ev|].
          rewrite Lo by lia. rewrite put_size_nth by exact Li. rewrite Nat.eqb_refl. reflexivity.
        * replace (i + S j) with (S i + j) by lia. exact (So _ _ _ E).
    - destruct (IH _ _ _ H) as (G & W & WP & Le & Lo & Nn & So).
      split; [exact G|]. split; [exact W|]. split; [exact WP|]. split; [exact Le|]. split; [|split].
      + intros j Hj. apply Lo. lia.
      + intros [|j] s' E; cbn in E; [rewrite Nat.add_0_r; apply Lo; lia|]. replace (i + S j) with (S i + j) by lia. exact (Nn _ _ E).
      + intros [|j] s' e0 E; cbn in E; [discriminate|]. replace (i + S j) with (S i + j) by lia. exact (So _ _ _ E).
  Qed.
End Copied.

(* C423: copying the parametrisation of a variable gives the other one a copy of the expression of its width and of
   each of its sizes, and the width and sizes these have; what is not parametrised stays as it was. *)
Theorem C423_meta : forall evaluate P check this new new', copy_meta_data evaluate P check this new = Ok new' ->
  vgen new' = vgen new /\ List.length (vsizes new') = List.length (vsizes new)
  /\ match vwparam this with
     | None => vwidth new' = vwidth new /\ vwparam new' = vwparam new
     | Some e => exists e', copy_width P (vgen new) check e = Ok e' /\ evaluate e' = Ok (vwidth new') /\ vwparam new' = Some e'
     end
  /\ forall i s pe, nth_error (vsizes this) i = Some (s, pe) ->
       match pe with
       | None => nth_error (vsizes new') i = nth_error (vsizes new) i
       | Some e => exists e' w, copy_width P (vgen new) check e = Ok e' /\ evaluate e' = Ok w
                     /\ nth_error (vsizes new') i = Some (w, Some e')
       end.
Proof.
  intros evaluate P check this new new' H. unfold copy_meta_data in H. destruct (vwparam this) as [e|].
  - destruct (copy_width P (vgen new) check e) as [e'| |] eqn:C; cbn in H; try discriminate.
    unfold set_width in H. destruct (evaluate e') as [w| |] eqn:Ev; cbn in H; try discriminate.
    destruct (copy_sizes_ok _ _ _ _ _ _ _ H) as (G & W & WP & Le & _ & Nn & So). cbn [vgen vwidth vwparam vsizes] in *.
    split; [exact G|]. split; [exact Le|]. split; [exists e'; rewrite W, WP; auto|].
    intros i s [e0|] E; [exact (So _ _ _ E)|exact (Nn _ _ E)].
  - cbn in H. destruct (copy_sizes_ok _ _ _ _ _ _ _ H) as (G & W & WP & Le & _ & Nn & So).
    split; [exact G|]. split; [exact Le|]. split; [auto|]. intros i s [e0|] E; [exact (So _ _ _ E)|exact (Nn _ _ E)].
Qed.
Definition ev4 : wexpr -> outcome Z := fun e => match wvalue add (pval ps) e with Some w => Ok w | None => Throw end.
Example C423_ex : copy_meta_data ev4 ps true (mkV 0 4 (Some (WParam 0)) [(2, None); (8, Some (WOp 5 (WParam 0) (Some (WParam 0))))]%Z)
    (mkV 1 1 None [(2, None); (1, None)]%Z)
  = Ok (mkV 1 4 (Some (WParam 1)) [(2, None); (8, Some (WOp 5 (WParam 1) (Some (WParam 1))))]%Z).
Proof. reflexivity. Qed.

(* C424: a variable made from another does not take over its parametrisation: whatever the other is tied to, it has
   the width and sizes of the moment, tied to nothing. *)
Theorem C424_var_like_refuted :
  (forall evaluate P g v, var_like evaluate P g v = Ok (mkV g (vwidth v) None (map (fun d => (fst d, None)) (vsizes v))))
  /\ ~ (forall evaluate P g v v', (forall e, evaluate e = Ok (vwidth v)) -> var_like evaluate P g v = Ok v' ->
          forall e, vwparam v = Some e -> vwparam v' <> None).
Proof.
  assert (A : forall evaluate P g v,
            var_like evaluate P g v = Ok (mkV g (vwidth v) None (map (fun d => (fst d, None)) (vsizes v)))).
  { intros evaluate P g v. unfold var_like, copy_meta_data. cbn [vwparam vsizes obind].
    generalize (mkV g (vwidth v) None (map (fun d : Z * option wexpr => (fst d, @None wexpr)) (vsizes v))) as x. generalize 0.
    induction (vsizes v) as [|[s e] l IH]; intros n x; cbn; [reflexivity|]. apply IH. }
  split; [exact A|]. intros H.
  refine (H (fun _ => Ok 4%Z) ps 1 (mkV 0 4 (Some (WParam 0)) []) _ (fun _ => eq_refl) (A _ _ _ _) (WParam 0) eq_refl eq_refl).
Qed.

(* -- moving ------------------------------------------------------------------------------------------------------ *)
Lemma upd_same h x o : upd h x o x = o. Proof. unfold upd. rewrite Nat.eqb_refl. reflexivity. Qed.
Lemma upd_other h x o y : x <> y -> upd h x o y = h y.
Proof. intros N. unfold upd. destruct (Nat.eqb_spec x y); [contradiction|reflexivity]. Qed.

Definition with_parent (o : obj) (p : nat) := mkO (owidth o) (osigned o) (oslices o) (oconcats o) (ocasts o) p (opieces o).
Lemma parents_ok w : forall l h y,
  fold_left (fun h s => set_parent h s w) l h y = if in_dec Nat.eq_dec y l then with_parent (h y) w else h y.
Proof.
  induction l as [|s l IH]; intros h y; cbn [fold_left]; [reflexivity|]. rewrite IH.
  destruct (Nat.eq_dec s y) as [->|N].
  - unfold set_parent. rewrite upd_same. destruct (in_dec Nat.eq_dec y l) as [I|I]; destruct (in_dec Nat.eq_dec y (y :: l)) as [J|J]; try reflexivity.
    + destruct J; right; exact I.
    + destruct J; left; reflexivity.
  - unfold set_parent. rewrite upd_other by exact N.
    destruct (in_dec Nat.eq_dec y l) as [I|I]; destruct (in_dec Nat.eq_dec y (s :: l)) as [J|J]; try reflexivity.
    + destruct J; right; exact I.
    + destruct J as [J|J]; [destruct (N J)|destruct (I J)].
Qed.
Lemma insert_in x l y : In y (insert x l) <-> y = x \/ In y l.
Proof.
  induction l as [|z l IH]; cbn; [intuition|]. destruct (Nat.eqb_spec x z) as [->|N]; cbn; [intuition|]. rewrite IH. intuition.
Qed.

Lemma casts_ok root : forall l h y, ~ In root l ->
  let h' := fold_left (fun h x => let h := set_parent h x root in set_casts h root (insert x (ocasts (h root)))) l h in
  owidth (h' y) = owidth (h y) /\ osigned (h' y) = osigned (h y) /\ oslices (h' y) = oslices (h y)
  /\ oconcats (h' y) = oconcats (h y) /\ opieces (h' y) = opieces (h y)
  /\ oparent (h' y) = (if in_dec Nat.eq_dec y l then root else oparent (h y))
  /\ (y <> root -> ocasts (h' y) = ocasts (h y))
  /\ (forall x, In x (ocasts (h' root)) <-> In x (ocasts (h root)) \/ In x l).
Proof.
  induction l as [|s l IH]; intros h y Nr; cbn [fold_left].
  - cbn. repeat split; intros; tauto.
  - cbn zeta. set (h1 := set_casts _ _ _).
    destruct (IH h1 y (fun I => Nr (or_intror I))) as (A & B & C & D & E & F & G & K). cbn zeta in A, B, C, D, E, F, G, K.
    assert (Ns : s <> root) by (intros ->; apply Nr; left; reflexivity).
    assert (Q : forall z, h1 z = if Nat.eqb root z then mkO (owidth (h root)) (osigned (h root)) (oslices (h root)) (oconcats (h root))
                                   (insert s (ocasts (h root))) (oparent (h root)) (opieces (h root))
                                 else if Nat.eqb s z then with_parent (h z) root else h z).
    { intros z. unfold h1, set_casts, set_parent. rewrite (upd_other _ s _ root Ns).
      unfold upd at 1. destruct (Nat.eqb_spec root z); [reflexivity|]. unfold upd. destruct (Nat.eqb_spec s z); [subst; reflexivity|reflexivity]. }
    rewrite A, B, C, D, E, F, (Q y). clear A B C D E F.
    destruct (Nat.eqb_spec root y) as [R|R].
    + subst y. cbn [owidth osigned oslices oconcats ocasts oparent opieces]. repeat split; trivial.
      * destruct (in_dec Nat.eq_dec root l) as [J|J]; [destruct (Nr (or_intror J))|].
        destruct (in_dec Nat.eq_dec root (s :: l)) as [J'|J']; [destruct (Nr J')|reflexivity].
      * intros X. destruct (X eq_refl).
      * intros I. apply K in I. rewrite (Q root), Nat.eqb_refl in I. cbn [ocasts] in I. rewrite insert_in in I. cbn. intuition.
      * intros I. apply K. rewrite (Q root), Nat.eqb_refl. cbn [ocasts]. rewrite insert_in. cbn in I. intuition.
    + assert (KK : forall x : nat, In x (ocasts (fold_left (fun (h2 : heap) (x0 : nat) => set_casts (set_parent h2 x0 root) root (insert x0 (ocasts (set_parent h2 x0 root root)))) l h1 root)) <-> In x (ocasts (h root)) \/ In x (s :: l)).
      { intros x. rewrite (K x), (Q root), Nat.eqb_refl. cbn [ocasts]. rewrite insert_in. cbn. intuition. }
      assert (GG : y <> root -> ocasts (fold_left (fun (h2 : heap) (x : nat) => set_casts (set_parent h2 x root) root (insert x (ocasts (set_parent h2 x root root)))) l h1 y) = ocasts (h y)).
      { intros X. rewrite (G X), (Q y). destruct (Nat.eqb_spec root y); [contradiction|]. destruct (Nat.eqb s y); reflexivity. }
      destruct (Nat.eqb_spec s y) as [Es|Es].
      * subst y. cbn [owidth osigned oslices oconcats ocasts oparent opieces with_parent]. repeat split; trivial; try (apply KK).
        destruct (in_dec Nat.eq_dec s (s :: l)) as [J|J]; [|destruct J; left; reflexivity]. destruct (in_dec Nat.eq_dec s l); reflexivity.
      * repeat split; trivial; try (apply KK).
        destruct (in_dec Nat.eq_dec y l) as [J|J]; destruct (in_dec Nat.eq_dec y (s :: l)) as [J'|J']; trivial.
        -- destruct J'; right; exact J.
        -- destruct J' as [J'|J']; [destruct (Es J')|destruct (J J')].
Qed.

(* C425: what is moved when a variable that is in no concatenation is exchanged for another of its width and sign.
   Its slices hang off the new variable and its casts off the root of that; it keeps none itself; nothing else is
   touched. *)
Theorem C425_moved : forall n h root v w, v <> root -> v <> w ->
  owidth (h v) = owidth (h w) -> osigned (h v) = osigned (h w) -> oconcats (h v) = [] ->
  (forall x, In x (oslices (h v)) \/ In x (ocasts (h v)) -> x <> v /\ x <> w /\ x <> root) ->
  (forall x, In x (oslices (h v)) -> ~ In x (ocasts (h v))) ->
  exists h', move_linked (S n) h root v w = Ok h'
    /\ oslices (h' w) = oslices (h v) /\ (forall s, In s (oslices (h v)) -> oparent (h' s) = w)
    /\ (forall x, In x (ocasts (h v)) -> oparent (h' x) = root)
    /\ (forall x, In x (ocasts (h' root)) <-> In x (ocasts (h root)) \/ In x (ocasts (h v)))
    /\ oslices (h' v) = [] /\ oconcats (h' v) = [] /\ ocasts (h' v) = []
    /\ (forall y, owidth (h' y) = owidth (h y) /\ osigned (h' y) = osigned (h y) /\ opieces (h' y) = opieces (h y))
    /\ (forall y, ~ In y (oslices (h v)) -> ~ In y (ocasts (h v)) -> oparent (h' y) = oparent (h y))
    /\ (forall y, y <> v -> y <> w -> oslices (h' y) = oslices (h y) /\ oconcats (h' y) = oconcats (h y))
    /\ (forall y, y <> v -> y <> root -> ocasts (h' y) = ocasts (h y)).
Proof.
  intros n h root v w Nr Nw Ew Es Ec Ap Dj. cbn [move_linked].
  destruct (Nat.eqb_spec v root) as [X|_]; [contradiction|]. rewrite Ew, Z.eqb_refl, Es, Bool.eqb_reflx. cbn [negb].
  set (h1 := fold_left (fun h s => set_parent h s w) (oslices (h v)) h).
  assert (Q1 : forall y, h1 y = if in_dec Nat.eq_dec y (oslices (h v)) then with_parent (h y) w else h y) by (intros y; apply parents_ok).
  assert (V1 : h1 v = h v).
  { rewrite Q1. destruct (in_dec Nat.eq_dec v (oslices (h v))) as [I|I]; [|reflexivity]. destruct (Ap v (or_introl I)) as [C _]; destruct (C eq_refl). }
  assert (W1 : h1 w = h w).
  { rewrite Q1. destruct (in_dec Nat.eq_dec w (oslices (h v))) as [I|I]; [|reflexivity]. destruct (Ap w (or_introl I)) as [_ [C _]]; destruct (C eq_refl). }
  set (h2 := set_slices (set_slices h1 w (oslices (h1 v))) v []).
  assert (Q2 : forall y, h2 y = if Nat.eqb v y then mkO (owidth (h v)) (osigned (h v)) [] (oconcats (h v)) (ocasts (h v)) (oparent (h v)) (opieces (h v))
              else if Nat.eqb w y then mkO (owidth (h w)) (osigned (h w)) (oslices (h v)) (oconcats (h w)) (ocasts (h w)) (oparent (h w)) (opieces (h w))
              else h1 y).
  { intros y. unfold h2, set_slices. rewrite (upd_other h1 w _ v (not_eq_sym Nw)), V1, W1. unfold upd. destruct (Nat.eqb v y), (Nat.eqb w y); reflexivity. }
  assert (V2 : oconcats (h2 v) = []). { rewrite Q2, Nat.eqb_refl. exact Ec. }
  rewrite V2. cbn [fold_left obind]. rewrite V2.
  set (h3 := set_concats (set_concats h2 w []) v []).
  assert (Q3 : forall y, h3 y = if Nat.eqb v y then mkO (owidth (h v)) (osigned (h v)) [] [] (ocasts (h v)) (oparent (h v)) (opieces (h v))
              else if Nat.eqb w y then mkO (owidth (h w)) (osigned (h w)) (oslices (h v)) [] (ocasts (h w)) (oparent (h w)) (opieces (h w))
              else h1 y).
  { intros y. unfold h3, set_concats. rewrite (upd_other h2 w _ v (not_eq_sym Nw)). unfold upd. rewrite !Q2, !Nat.eqb_refl.
    destruct (Nat.eqb_spec v w) as [C|_]; [contradiction|]. destruct (Nat.eqb_spec v y), (Nat.eqb_spec w y); reflexivity. }
  assert (K3 : ocasts (h3 v) = ocasts (h v)). { rewrite Q3, Nat.eqb_refl. reflexivity. }
  fold h3. rewrite K3.
  set (h4 := fold_left _ (ocasts (h v)) h3).
  assert (Rn : ~ In root (ocasts (h v))). { intros I. destruct (Ap root (or_intror I)) as (_ & _ & C). destruct (C eq_refl). }
  assert (Q4 : forall y, owidth (h4 y) = owidth (h3 y) /\ osigned (h4 y) = osigned (h3 y) /\ oslices (h4 y) = oslices (h3 y)
     /\ oconcats (h4 y) = oconcats (h3 y) /\ opieces (h4 y) = opieces (h3 y)
     /\ oparent (h4 y) = (if in_dec Nat.eq_dec y (ocasts (h v)) then root else oparent (h3 y))
     /\ (y <> root -> ocasts (h4 y) = ocasts (h3 y))
     /\ (forall x, In x (ocasts (h4 root)) <-> In x (ocasts (h3 root)) \/ In x (ocasts (h v)))) by (intros y; apply (casts_ok root _ h3 y Rn)).
  exists (set_casts h4 v []). split; [reflexivity|].
  assert (Q5 : forall y, set_casts h4 v [] y = if Nat.eqb v y then mkO (owidth (h4 v)) (osigned (h4 v)) (oslices (h4 v)) (oconcats (h4 v)) [] (oparent (h4 v)) (opieces (h4 v)) else h4 y)
    by (intros y; unfold set_casts, upd; destruct (Nat.eqb v y); reflexivity).
  assert (O5 : forall y, y <> v -> set_casts h4 v [] y = h4 y).
  { intros y Ny. rewrite Q5. destruct (Nat.eqb_spec v y); [congruence|reflexivity]. }
  assert (Rt : forall x, In x (ocasts (h3 root)) <-> In x (ocasts (h root))).
  { intros x. rewrite Q3. destruct (Nat.eqb_spec v root); [contradiction|]. destruct (Nat.eqb_spec w root) as [->|_]; cbn [ocasts]; [reflexivity|].
    rewrite Q1. destruct (in_dec Nat.eq_dec root (oslices (h v))); reflexivity. }
  assert (P3 : forall y, oparent (h3 y) = if in_dec Nat.eq_dec y (oslices (h v)) then w else oparent (h y)).
  { intros y. rewrite Q3. destruct (Nat.eqb_spec v y) as [<-|_]; [|destruct (Nat.eqb_spec w y) as [<-|_]]; cbn [oparent].
    - destruct (in_dec Nat.eq_dec v (oslices (h v))) as [I|I]; [|reflexivity]. destruct (Ap v (or_introl I)) as [C _]; destruct (C eq_refl).
    - destruct (in_dec Nat.eq_dec w (oslices (h v))) as [I|I]; [|reflexivity]. destruct (Ap w (or_introl I)) as [_ [C _]]; destruct (C eq_refl).
    - rewrite Q1. destruct (in_dec Nat.eq_dec y (oslices (h v))); reflexivity. }
  assert (P5 : forall y, oparent (set_casts h4 v [] y) = oparent (h4 y)).
  { intros y. rewrite Q5. destruct (Nat.eqb_spec v y) as [<-|_]; reflexivity. }
  repeat split.
  - rewrite O5 by congruence. destruct (Q4 w) as (_ & _ & -> & _). rewrite Q3, Nat.eqb_refl. destruct (Nat.eqb_spec v w); [contradiction|reflexivity].
  - intros s I. rewrite P5. destruct (Q4 s) as (_ & _ & _ & _ & _ & -> & _). rewrite P3.
    destruct (in_dec Nat.eq_dec s (ocasts (h v))) as [J|J]; [destruct (Dj _ I J)|]. destruct (in_dec Nat.eq_dec s (oslices (h v))); [reflexivity|contradiction].
  - intros x I. rewrite P5. destruct (Q4 x) as (_ & _ & _ & _ & _ & -> & _). destruct (in_dec Nat.eq_dec x (ocasts (h v))); [reflexivity|contradiction].
  - intros I. rewrite O5 in I by congruence. destruct (Q4 root) as (_ & _ & _ & _ & _ & _ & _ & K). apply K in I. rewrite Rt in I. exact I.
  - intros I. rewrite O5 by congruence. destruct (Q4 root) as (_ & _ & _ & _ & _ & _ & _ & K). apply K. rewrite Rt. exact I.
  - rewrite Q5, Nat.eqb_refl. cbn [oslices]. destruct (Q4 v) as (_ & _ & -> & _). rewrite Q3, Nat.eqb_refl. reflexivity.
  - rewrite Q5, Nat.eqb_refl. cbn [oconcats]. destruct (Q4 v) as (_ & _ & _ & -> & _). rewrite Q3, Nat.eqb_refl. reflexivity.
  - rewrite Q5, Nat.eqb_refl. reflexivity.
  - assert (E : owidth (set_casts h4 v [] y) = owidth (h4 y)) by (rewrite Q5; destruct (Nat.eqb_spec v y) as [<-|_]; reflexivity).
    rewrite E. destruct (Q4 y) as (-> & _). rewrite Q3. destruct (Nat.eqb_spec v y) as [<-|_]; [reflexivity|]. destruct (Nat.eqb_spec w y) as [<-|_]; [reflexivity|].
    rewrite Q1. destruct (in_dec Nat.eq_dec y (oslices (h v))); reflexivity.
  - assert (E : osigned (set_casts h4 v [] y) = osigned (h4 y)) by (rewrite Q5; destruct (Nat.eqb_spec v y) as [<-|_]; reflexivity).
    rewrite E. destruct (Q4 y) as (_ & -> & _). rewrite Q3. destruct (Nat.eqb_spec v y) as [<-|_]; [reflexivity|]. destruct (Nat.eqb_spec w y) as [<-|_]; [reflexivity|].
    rewrite Q1. destruct (in_dec Nat.eq_dec y (oslices (h v))); reflexivity.
  - assert (E : opieces (set_casts h4 v [] y) = opieces (h4 y)) by (rewrite Q5; destruct (Nat.eqb_spec v y) as [<-|_]; reflexivity).
    rewrite E. destruct (Q4 y) as (_ & _ & _ & _ & -> & _). rewrite Q3. destruct (Nat.eqb_spec v y) as [<-|_]; [reflexivity|]. destruct (Nat.eqb_spec w y) as [<-|_]; [reflexivity|].
    rewrite Q1. destruct (in_dec Nat.eq_dec y (oslices (h v))); reflexivity.
  - intros y I J. rewrite P5. destruct (Q4 y) as (_ & _ & _ & _ & _ & -> & _). rewrite P3.
    destruct (in_dec Nat.eq_dec y (ocasts (h v))); [contradiction|]. destruct (in_dec Nat.eq_dec y (oslices (h v))); [contradiction|reflexivity].
  - rewrite O5 by assumption. destruct (Q4 y) as (_ & _ & -> & _). rewrite Q3. destruct (Nat.eqb_spec v y); [congruence|]. destruct (Nat.eqb_spec w y); [congruence|].
    rewrite Q1. destruct (in_dec Nat.eq_dec y (oslices (h v))); reflexivity.
  - rewrite O5 by assumption. destruct (Q4 y) as (_ & _ & _ & -> & _). rewrite Q3. destruct (Nat.eqb_spec v y); [congruence|]. destruct (Nat.eqb_spec w y); [congruence|].
    rewrite Q1. destruct (in_dec Nat.eq_dec y (oslices (h v))); reflexivity.
  - intros y Ny Nt. rewrite O5 by assumption. destruct (Q4 y) as (_ & _ & _ & _ & _ & _ & G & _). rewrite (G Nt), Q3.
    destruct (Nat.eqb_spec v y); [congruence|]. destruct (Nat.eqb_spec w y) as [<-|_]; [reflexivity|]. rewrite Q1. destruct (in_dec Nat.eq_dec y (oslices (h v))); reflexivity.
Qed.

(* ... and nothing is moved between variables that differ in width or sign, or to the variable itself. *)
Theorem C425_refused : forall n h root v w, v <> root ->
  (owidth (h v) <> owidth (h w) \/ osigned (h v) <> osigned (h w) -> move_linked (S n) h root v w = Throw).
Proof.
  intros n h root v w Nr D. cbn [move_linked]. destruct (Nat.eqb_spec v root) as [X|_]; [contradiction|].
  destruct (Z.eqb_spec (owidth (h w)) (owidth (h v))) as [E|E]; cbn [negb]; [|reflexivity].
  destruct (Bool.eqb (osigned (h w)) (osigned (h v))) eqn:F; cbn [negb]; [|reflexivity].
  apply Bool.eqb_prop in F. destruct D as [D|D]; congruence.
Qed.
Theorem C425_self : forall n h v w, move_linked (S n) h v v w = Ok h.
Proof. intros n h v w. cbn. rewrite Nat.eqb_refl. reflexivity. Qed.

(* Variable 0 with slice 3 and cast 4; variable 1 with slice 5. *)
Definition hp : heap := fun x => match x with
  | 0 => mkO 8 false [3] [] [4] 0 [] | 1 => mkO 8 false [5] [] [] 1 []
  | 3 => mkO 2 false [] [] [] 0 [] | 4 => mkO 8 true [] [] [] 0 []
  | 5 => mkO 1 false [] [] [] 1 [] | _ => mkO 1 false [] [] [] 0 [] end.
Example C425_ex : exists h', move_linked 2 hp 1 0 1 = Ok h'
  /\ oparent (h' 3) = 1 /\ oparent (h' 4) = 1 /\ oslices (h' 1) = [3] /\ ocasts (h' 1) = [4] /\ oslices (h' 0) = [].
Proof. eexists. split; [reflexivity|]. repeat split. Qed.

(* C426: a variable that takes over another's links does not keep its own: it has only the slices of the other, and
   none of the concatenations it was in. *)
Theorem C426_own_refuted :
  (forall n h root v w h', v <> root -> v <> w ->
     owidth (h v) = owidth (h w) -> osigned (h v) = osigned (h w) -> oconcats (h v) = [] ->
     (forall x, In x (oslices (h v)) \/ In x (ocasts (h v)) -> x <> v /\ x <> w /\ x <> root) ->
     (forall x, In x (oslices (h v)) -> ~ In x (ocasts (h v))) ->
     move_linked (S n) h root v w = Ok h' ->
     forall s, In s (oslices (h w)) -> ~ In s (oslices (h v)) -> ~ In s (oslices (h' w)))
  /\ ~ (forall n h root v w h', v <> w -> move_linked (S n) h root v w = Ok h' ->
          forall s, In s (oslices (h w)) -> In s (oslices (h' w))).
Proof.
  split.
  - intros n h root v w h' A B C D E F G H s I J K.
    destruct (C425_moved n h root v w A B C D E F G) as (h2 & R & S & _). rewrite R in H. injection H as <-. rewrite S in K. exact (J K).
  - intros H. specialize (H 1 hp 1 0 1 _ ltac:(discriminate) eq_refl 5 (or_introl eq_refl)). cbn in H. destruct H as [H|[]]; discriminate.
Qed.

(* C427: a variable that is part of a concatenation cannot be exchanged: the concatenation is wider than either
   variable, and it is refused. *)
Theorem C427_concat_refuted :
  (forall n h root v w c rest, v <> root -> v <> w -> c <> root -> c <> v -> c <> w ->
     oconcats (h v) = c :: rest -> owidth (h c) <> owidth (h w) ->
     move_linked (S (S n)) h root v w = Throw)
  /\ ~ (forall n h root v w, v <> w -> owidth (h v) = owidth (h w) -> osigned (h v) = osigned (h w) ->
          exists h', move_linked (S (S n)) h root v w = Ok h').
Proof.
  assert (A : forall n h root v w c rest, v <> root -> v <> w -> c <> root -> c <> v -> c <> w ->
     oconcats (h v) = c :: rest -> owidth (h c) <> owidth (h w) ->
     move_linked (S (S n)) h root v w = Throw).
  { intros n h root v w c rest Nr Nw Cr Cv Cw Ec Wd. remember (S n) as k. cbn [move_linked].
    destruct (Nat.eqb_spec v root) as [X|_]; [contradiction|].
    destruct (negb (Z.eqb (owidth (h w)) (owidth (h v)))); [reflexivity|].
    destruct (negb (Bool.eqb (osigned (h w)) (osigned (h v)))); [reflexivity|].
    set (h1 := fold_left (fun h s => set_parent h s w) (oslices (h v)) h).
    set (h2 := set_slices (set_slices h1 w (oslices (h1 v))) v []).
    assert (Q1 : forall y, owidth (h1 y) = owidth (h y) /\ oconcats (h1 y) = oconcats (h y)).
    { intros y. unfold h1. rewrite parents_ok. destruct (in_dec _ _ _); split; reflexivity. }
    assert (Q2 : forall y, owidth (h2 y) = owidth (h y) /\ oconcats (h2 y) = oconcats (h y)).
    { intros y. destruct (Q1 y) as [<- <-]. unfold h2, set_slices, upd. destruct (Nat.eqb_spec v y) as [<-|_]; cbn [owidth oconcats].
      - destruct (Nat.eqb_spec w v) as [<-|_]; split; reflexivity.
      - destruct (Nat.eqb_spec w y) as [<-|_]; split; reflexivity. }
    destruct (Q2 v) as [_ ->]. rewrite Ec. cbn [fold_left obind]. subst k.
    rewrite (C425_refused n h2 root c w Cr).
    - cbn [obind]. match goal with |- context [fold_left ?f rest Throw] => assert (F : forall l, fold_left f l Throw = Throw) end.
      { induction l as [|x l IH]; [reflexivity|]. exact IH. }
      rewrite F. reflexivity.
    - left. destruct (Q2 c) as [-> _]. destruct (Q2 w) as [-> _]. exact Wd. }
  split; [exact A|]. intros H.
  set (h := fun x : nat => match x with 0 => mkO 8 false [] [2] [] 0 [] | 1 => mkO 8 false [] [] [] 1 []
                            | _ => mkO 16 false [] [] [] 2 [0; 0] end).
  destruct (H 0 h 1 0 1 ltac:(discriminate) eq_refl eq_refl) as [h' E].
  rewrite (A 0 h 1 0 1 2 []) in E; try discriminate; reflexivity.
Qed.
Print Assumptions C420_copy.
Print Assumptions C420_succeeds.
Print Assumptions C421_follows_refuted.
Print Assumptions C422_ternary_refuted.
Print Assumptions C423_meta.
Print Assumptions C424_var_like_refuted.
Print Assumptions C425_moved.
Print Assumptions C425_refused.
Print Assumptions C425_self.
Print Assumptions C426_own_refuted.
Print Assumptions C427_concat_refuted.
