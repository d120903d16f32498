From Verif Require Import Base Cat_spec Cat_model.
Local Open Scope Z_scope.
Local Open Scope list_scope.

Record inv (s : state) : Prop := {
  i_cats : forall x c, (x < s_n s)%nat -> In c (s_cats s x) -> (c < s_n s)%nat;
  i_pair : forall x c p y, (x < s_n s)%nat -> In c (s_cats s x) -> s_kind s c = KCat [p; y] ->
             p = x /\ (y < s_n s)%nat /\ s_width s c = u32 (s_width s x + s_width s y) /\ s_signed s c = s_signed s x /\ s_signed s x = s_signed s y;
  i_long : forall c l, (c < s_n s)%nat -> s_kind s c = KCat l -> (2 <= length l)%nat /\ forall p, In p l -> (p < s_n s)%nat;
  i_exts : forall x w c, (x < s_n s)%nat -> In (w, c) (s_exts s x) ->
             (c < s_n s)%nat /\ s_kind s c = KExt x /\ s_width s c = w /\ s_signed s c = s_signed s x /\ s_width s x <= w }.
(* everything that was there is as it was; the lists have grown *)
Definition grows (s s' : state) : Prop :=
  (s_n s <= s_n s')%nat /\ forall x, (x < s_n s)%nat -> s_kind s' x = s_kind s x /\ s_width s' x = s_width s x /\ s_signed s' x = s_signed s x
    /\ (exists l, s_cats s' x = s_cats s x ++ l) /\ exists l, s_exts s' x = s_exts s x ++ l.

Lemma set_at : forall A (f : nat -> A) x v, set f x v x = v.
Proof. intros A f x v. unfold set. rewrite Nat.eqb_refl. reflexivity. Qed.
Lemma set_off : forall A (f : nat -> A) x v y, y <> x -> set f x v y = f y.
Proof. intros A f x v y H. unfold set. destruct (Nat.eqb_spec y x); [contradiction|reflexivity]. Qed.

Lemma grows_refl : forall s, grows s s.
Proof. intros s. split; [lia|]. intros x _. repeat split; try reflexivity; exists []; symmetry; apply app_nil_r. Qed.
Lemma grows_trans : forall a b c, grows a b -> grows b c -> grows a c.
Proof.
  intros a b c (N1 & A) (N2 & B). split; [lia|]. intros x Hx. destruct (A x Hx) as (A1 & A2 & A3 & (l1 & A4) & (m1 & A5)). destruct (B x ltac:(lia)) as (B1 & B2 & B3 & (l2 & B4) & (m2 & B5)).
  repeat split; try congruence; [exists (l1 ++ l2)|exists (m1 ++ m2)]; [rewrite B4, A4|rewrite B5, A5]; rewrite app_assoc; reflexivity.
Qed.

(* a new object, in the list of concatenations of one that was there *)
Lemma make_grows : forall s k w sg, grows s (make s k w sg).
Proof.
  intros s k w sg. split; [cbn; lia|]. intros x Hx. cbn [make s_kind s_width s_signed s_cats s_exts]. rewrite !set_off by lia. repeat split; exists []; symmetry; apply app_nil_r.
Qed.
Lemma add_cat_grows : forall s x c, grows s (add_cat s x c).
Proof.
  intros s x c. split; [cbn; lia|]. intros y Hy. cbn [add_cat s_kind s_width s_signed s_cats s_exts]. repeat split; [|exists []; symmetry; apply app_nil_r].
  unfold set. destruct (Nat.eqb_spec y x) as [->|]; [exists [c]; reflexivity|exists []; symmetry; apply app_nil_r].
Qed.

Lemma inv_make : forall s k w sg, inv s -> (forall l, k = KCat l -> (2 <= length l)%nat /\ forall p, In p l -> (p < s_n s)%nat) -> inv (make s k w sg).
Proof.
  intros s k w sg [I1 I2 I3 I4] K.
  constructor; cbn [make s_n s_kind s_width s_signed s_cats s_exts].
  - intros x c Hx Hc. unfold set in Hc. destruct (Nat.eqb_spec x (s_n s)) as [|Nx]; [destruct Hc|]. specialize (I1 x c ltac:(lia) Hc). lia.
  - intros x c p y Hx Hc Hk. unfold set in Hc. destruct (Nat.eqb_spec x (s_n s)) as [|Nx]; [destruct Hc|]. specialize (I1 x c ltac:(lia) Hc).
    rewrite set_off in Hk by lia. destruct (I2 x c p y ltac:(lia) Hc Hk) as (E & Y & W & G1 & G2). rewrite !set_off by lia. repeat split; try assumption. lia.
  - intros c l Hc Hk. unfold set in Hk. destruct (Nat.eqb_spec c (s_n s)) as [|Nc].
    + destruct (K l Hk) as (K1 & K2). split; [exact K1|]. intros p Hp. specialize (K2 p Hp). lia.
    + destruct (I3 c l ltac:(lia) Hk) as (K1 & K2). split; [exact K1|]. intros p Hp. specialize (K2 p Hp). lia.
  - intros x v c Hx Hc. unfold set in Hc at 1. destruct (Nat.eqb_spec x (s_n s)) as [|Nx]; [destruct Hc|]. destruct (I4 x v c ltac:(lia) Hc) as (C1 & C2 & C3 & C4 & C5).
    rewrite !set_off by lia. repeat split; try assumption. lia.
Qed.
Lemma inv_add_cat : forall s x c, inv s -> (x < s_n s)%nat -> (c < s_n s)%nat ->
  (forall p y, s_kind s c = KCat [p; y] -> p = x /\ (y < s_n s)%nat /\ s_width s c = u32 (s_width s x + s_width s y) /\ s_signed s c = s_signed s x /\ s_signed s x = s_signed s y) -> inv (add_cat s x c).
Proof.
  intros s x c [I1 I2 I3 I4] Hx Hc P. constructor; cbn [add_cat s_n s_kind s_width s_signed s_cats s_exts]; try assumption.
  - intros y d Hy Hd. unfold set in Hd. destruct (Nat.eqb_spec y x) as [->|]; [|exact (I1 y d Hy Hd)]. apply in_app_or in Hd. destruct Hd as [Hd|[<-|[]]]; [exact (I1 x d Hy Hd)|exact Hc].
  - intros y d p z Hy Hd Hk. unfold set in Hd. destruct (Nat.eqb_spec y x) as [->|]; [|exact (I2 y d p z Hy Hd Hk)]. apply in_app_or in Hd. destruct Hd as [Hd|[<-|[]]]; [exact (I2 x d p z Hy Hd Hk)|exact (P p z Hk)].
Qed.

Lemma eqb_signs : forall a b, negb (Bool.eqb a b) = false -> a = b.
Proof. intros [|] [|] H; (reflexivity || discriminate H). Qed.

(* one call that is not a change *)
Lemma concat_ok : forall s x y, inv s -> (x < s_n s)%nat -> (y < s_n s)%nat ->
  inv (fst (concat s x y)) /\ grows s (fst (concat s x y)) /\
  ((s_signed s x <> s_signed s y /\ concat s x y = (s, Throw)) \/
   s_signed s x = s_signed s y /\ exists c, snd (concat s x y) = Ok c /\ (c < s_n (fst (concat s x y)))%nat /\ let s' := fst (concat s x y) in
     s_kind s' c = KCat (parts s x ++ [y]) /\ s_width s' c = u32 (s_width s x + s_width s y) /\ s_signed s' c = s_signed s x
     /\ (is_cat s x = false -> find (is_pair s' y) (s_cats s' x) = Some c)).
Proof.
  intros s x y V Hx Hy. destruct (s_kind s x) as [|l|p] eqn:Ek.
  2: { unfold concat, parts, is_cat. rewrite Ek. destruct (i_long s V x l Hx Ek) as (Ll & Lp). destruct (negb (Bool.eqb (s_signed s x) (s_signed s y))) eqn:Eb.
       - cbn [fst snd]. split; [exact V|]. split; [apply grows_refl|]. left. split; [|reflexivity]. intros E. rewrite E, Bool.eqb_reflx in Eb. discriminate Eb.
       - apply eqb_signs in Eb. destruct l as [|f l]; [cbn in Ll; lia|]. cbn [fst snd].
         assert (Hf : (f < s_n s)%nat) by (apply Lp; left; reflexivity).
         assert (Kl : forall l0, KCat ((f :: l) ++ [y]) = KCat l0 -> (2 <= length l0)%nat /\ forall p, In p l0 -> (p < s_n s)%nat).
         { intros l0 E. injection E as <-. split; [cbn [length app]; rewrite app_length; cbn; lia|]. intros p Hp. change (f :: l ++ [y]) with ((f :: l) ++ [y]) in Hp. apply in_app_or in Hp. destruct Hp as [Hp|[<-|[]]]; [exact (Lp p Hp)|exact Hy]. }
         split; [|split].
         + apply inv_add_cat; [apply inv_make; [exact V|exact Kl]|cbn; lia|cbn; lia|]. intros p z E. cbn [make s_kind] in E. rewrite set_at in E. exfalso.
           destruct l as [|g l]; [cbn in Ll; lia|]. injection E as _ _ E. destruct l; discriminate E.
         + eapply grows_trans; [apply make_grows|apply add_cat_grows].
         + right. split; [exact Eb|]. exists (s_n s). split; [reflexivity|]. split; [cbn; lia|]. cbv zeta. cbn [add_cat make s_kind s_width s_signed]. rewrite !set_at. repeat split. discriminate. }
  all: unfold concat, parts, is_cat; rewrite Ek.
  all: assert (Main : let r := match find (is_pair s y) (s_cats s x) with Some c => (s, Ok c) | None =>
      if negb (Bool.eqb (s_signed s x) (s_signed s y)) then (s, Throw) else (add_cat (make s (KCat [x; y]) (u32 (s_width s x + s_width s y)) (s_signed s x)) x (s_n s), Ok (s_n s)) end in
      inv (fst r) /\ grows s (fst r) /\ ((s_signed s x <> s_signed s y /\ r = (s, Throw)) \/
   s_signed s x = s_signed s y /\ exists c, snd r = Ok c /\ (c < s_n (fst r))%nat /\ let s' := fst r in
     s_kind s' c = KCat ([x] ++ [y]) /\ s_width s' c = u32 (s_width s x + s_width s y) /\ s_signed s' c = s_signed s x
     /\ (false = false -> find (is_pair s' y) (s_cats s' x) = Some c))); [|exact Main].
  all: cbv zeta; destruct (find (is_pair s y) (s_cats s x)) as [c|] eqn:Ef.
  1, 3: pose proof (find_some _ _ Ef) as (Hc & Hp); unfold is_pair in Hp; destruct (s_kind s c) as [|[|a [|b [|d r]]]|] eqn:Ec; try discriminate Hp; apply Nat.eqb_eq in Hp; subst b;
    destruct (i_pair s V x c a y Hx Hc Ec) as (-> & _ & W & G1 & G2); cbn [fst snd]; (split; [exact V|]); (split; [apply grows_refl|]); right; (split; [exact G2|]); exists c;
    (split; [reflexivity|]); (split; [exact (i_cats s V x c Hx Hc)|]); (split; [exact Ec|]); (split; [exact W|]); (split; [exact G1|intros _; exact Ef]).
  all: destruct (negb (Bool.eqb (s_signed s x) (s_signed s y))) eqn:Eb.
  1, 3: cbn [fst snd]; (split; [exact V|]); (split; [apply grows_refl|]); left; (split; [|reflexivity]); intros E; rewrite E, Bool.eqb_reflx in Eb; discriminate Eb.
  all: apply eqb_signs in Eb; cbn [fst snd];
    assert (Kl : forall l0, KCat [x; y] = KCat l0 -> (2 <= length l0)%nat /\ forall p, In p l0 -> (p < s_n s)%nat) by (intros l0 E; injection E as <-; split; [cbn; lia|intros q [<-|[<-|[]]]; assumption]);
    (split; [|split]);
    [apply inv_add_cat; [apply inv_make; [exact V|exact Kl]|cbn; lia|cbn; lia|]; intros q z E; cbn [make s_kind s_n s_width s_signed] in *; rewrite set_at in E; injection E as <- <-;
       rewrite !set_at, !set_off by lia; repeat split; [lia|exact Eb]
    |eapply grows_trans; [apply make_grows|apply add_cat_grows]
    |right; split; [exact Eb|]; exists (s_n s); (split; [reflexivity|]); (split; [cbn; lia|]); cbv zeta; cbn [add_cat make s_kind s_width s_signed s_cats]; rewrite !set_at; repeat split; intros _ ].
  all: rewrite set_off by lia.
  all: assert (Fs : forall (f g : nat -> bool) l, find g l = None -> (forall c, In c l -> f c = g c) -> f (s_n s) = true -> find f (l ++ [s_n s]) = Some (s_n s))
    by (intros f g l0; induction l0 as [|a l0 IH]; intros F1 F2 F3; [cbn; rewrite F3; reflexivity|]; cbn in *; rewrite (F2 a (or_introl eq_refl)); destruct (g a); [discriminate F1|]; apply IH; [exact F1|intros c Hc; apply F2; right; exact Hc|exact F3]).
  all: apply (Fs _ (is_pair s y)); [exact Ef| |unfold is_pair; cbn [add_cat make s_kind]; rewrite set_at; apply Nat.eqb_refl].
  all: intros c Hc; pose proof (i_cats s V x c Hx Hc); unfold is_pair; cbn [add_cat make s_kind]; rewrite set_off by lia; reflexivity.
Qed.

Lemma extend_ok : forall s x w, inv s -> (x < s_n s)%nat ->
  inv (fst (extend s x w)) /\ grows s (fst (extend s x w)) /\
  ((w < s_width s x /\ extend s x w = (s, Throw)) \/
   s_width s x <= w /\ exists c, snd (extend s x w) = Ok c /\ (c < s_n (fst (extend s x w)))%nat /\ let s' := fst (extend s x w) in
     s_kind s' c = KExt x /\ s_width s' c = w /\ s_signed s' c = s_signed s x /\ find (fun e => fst e =? w) (s_exts s' x) = Some (w, c)).
Proof.
  intros s x w V Hx. unfold extend. destruct (find (fun e => fst e =? w) (s_exts s x)) as [[v c]|] eqn:Ef.
  - pose proof (find_some _ _ Ef) as (Hc & Hw). cbn in Hw. apply Z.eqb_eq in Hw. subst v. destruct (i_exts s V x w c Hx Hc) as (C1 & C2 & C3 & C4 & C5). cbn [fst snd].
    split; [exact V|]. split; [apply grows_refl|]. right. split; [exact C5|]. exists c. repeat split; assumption.
  - destruct (Z.ltb_spec w (s_width s x)) as [L|L]; cbn [fst snd]; [split; [exact V|]; split; [apply grows_refl|]; left; split; [exact L|reflexivity]|].
    destruct (inv_make s (KExt x) w (s_signed s x) V ltac:(discriminate)) as [J1 J2 J3 J4]. pose proof V as [I1 I2 I3 I4].
    split; [|split].
    + constructor; cbn [s_n s_kind s_width s_signed s_cats s_exts]; try assumption. intros z v c Hz Hc. destruct (Nat.eq_dec z x) as [->|Nz].
      * rewrite set_at in Hc. apply in_app_or in Hc. destruct Hc as [Hc|[Hc|[]]]; [exact (J4 x v c Hz Hc)|]. injection Hc as <- <-. cbn [make s_n s_kind s_width s_signed]. rewrite !set_at, !set_off by lia. repeat split; lia.
      * rewrite set_off in Hc by exact Nz. exact (J4 z v c Hz Hc).
    + eapply grows_trans; [apply (make_grows s (KExt x) w (s_signed s x))|]. split; [cbn; lia|]. intros y Hy. cbn [s_kind s_width s_signed s_cats s_exts]. repeat split; [exists []; symmetry; apply app_nil_r|].
      destruct (Nat.eq_dec y x) as [->|Ny]; [rewrite set_at; eexists; reflexivity|rewrite set_off by exact Ny; exists []; symmetry; apply app_nil_r].
    + right. split; [exact L|]. exists (s_n s). split; [reflexivity|]. split; [cbn; lia|]. cbv zeta. cbn [make s_kind s_width s_signed s_exts]. rewrite !set_at, (set_off _ _ (s_n s)) by lia. repeat split.
      clear -Ef. induction (s_exts s x) as [|[v c] l IH]; cbn in *; [rewrite Z.eqb_refl; reflexivity|]. destruct (Z.eqb_spec v w) as [E|E]; [discriminate Ef|]. apply IH. exact Ef.
Qed.

Lemma step_ok : forall s a, inv s -> match a with Resize _ _ | Move _ _ _ => False | _ => True end -> inv (fst (run s a)) /\ grows s (fst (run s a)).
Proof.
  intros s a V Q. destruct a as [w sg|x y|x w|x w|c t n]; try destruct Q; cbn [run].
  - cbn [fst]. split; [apply inv_make; [exact V|discriminate]|apply make_grows].
  - destruct (Nat.ltb_spec x (s_n s)); [destruct (Nat.ltb_spec y (s_n s))|]; cbn [andb fst]; try (split; [exact V|apply grows_refl]). destruct (concat_ok s x y V ltac:(assumption) ltac:(assumption)) as (A & B & _). split; assumption.
  - destruct (Nat.ltb_spec x (s_n s)); cbn [fst]; try (split; [exact V|apply grows_refl]). destruct (extend_ok s x w V ltac:(assumption)) as (A & B & _). split; assumption.
Qed.
Lemma after_app : forall h h', after (h ++ h') = fold_left (fun s a => fst (run s a)) h' (after h).
Proof. intros h h'. unfold after. apply fold_left_app. Qed.
Lemma after_ok : forall h, quiet h -> inv (after h).
Proof.
  intros h. induction h as [|a h IH] using rev_ind; intros Q.
  - constructor; cbn; intros; lia.
  - rewrite after_app. cbn [fold_left]. apply step_ok; [apply IH; intros b Hb; apply Q, in_or_app; left; exact Hb|]. apply (Q a), in_or_app. right. left. reflexivity.
Qed.
Lemma later : forall h s, inv s -> quiet h -> grows s (fold_left (fun s a => fst (run s a)) h s).
Proof.
  induction h as [|a h IH]; intros s V Q; [apply grows_refl|]. cbn [fold_left]. destruct (step_ok s a V ltac:(apply (Q a); left; reflexivity)) as (V' & G).
  eapply grows_trans; [exact G|apply IH; [exact V'|intros b Hb; apply Q; right; exact Hb]].
Qed.
Lemma find_grown : forall A (f g : A -> bool) l m c, find f l = Some c -> (forall x, In x l -> g x = f x) -> find g (l ++ m) = Some c.
Proof.
  intros A f g l m c. induction l as [|a l IH]; intros F E; [discriminate F|]. cbn in *. rewrite (E a (or_introl eq_refl)). destruct (f a); [exact F|]. apply IH; [exact F|intros x Hx; apply E; right; exact Hx].
Qed.
