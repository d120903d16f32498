(* C359-C362: the typedefs of packed structs. *)
From Coq Require Import Lia.
From Verif Require Import Base Tydef_model.
Local Open Scope string_scope.
Local Open Scope list_scope.

(* a struct that is a field of another, and a struct that is somewhere inside another *)
Definition field_of (x d : sdef) : Prop := exists f, In (f, Some x) (s_fields d).
Inductive inside (x : sdef) : sdef -> Prop :=
| in_self : inside x x
| in_field d y : field_of y d -> inside x y -> inside x d.
(* the structs that are used: those of variables that are not external, and those inside them *)
Definition used (vars : list sdef) (x : sdef) : Prop := exists v, In v vars /\ s_external v = false /\ inside x v.
Definition one_each (vars : list sdef) : Prop := forall a b, used vars a -> used vars b -> s_name a = s_name b -> a = b.

Lemma sdef_ind' (P : sdef -> Prop) (H : forall d, (forall x, field_of x d -> P x) -> P d) : forall d, P d.
Proof.
  fix IH 1. intros [n e fs]. apply H. intros x [f I]. cbn in I. induction fs as [|[g o] fs IHf]; [destruct I|]. destruct o as [y|].
  - pose proof (IH y) as Py. destruct I as [E|I]; [injection E as _ E; rewrite <- E; exact Py|now apply IHf].
  - destruct I as [E|I]; [discriminate E|now apply IHf].
Qed.
Fixpoint size (d : sdef) : nat := S ((fix go (fs : list (string * Z * bool * option sdef)) := match fs with [] => 0 | (_, Some x) :: r => size x + go r | (_, None) :: r => go r end) (s_fields d)).
Lemma size_field x d : field_of x d -> size x < size d.
Proof.
  intros [f I]. destruct d as [n e fs]. cbn in *. apply Nat.lt_succ_r. induction fs as [|[g [y|]] fs IH]; [destruct I| |].
  - destruct I as [E|I]; [inversion E; lia|]. specialize (IH I). lia.
  - destruct I as [E|I]; [discriminate|]. exact (IH I).
Qed.
Lemma size_inside x d : inside x d -> size x <= size d.
Proof. induction 1 as [|d y F I IH]; [lia|]. apply size_field in F. lia. Qed.
Lemma inside_trans x y d : inside x y -> inside y d -> inside x d.
Proof. intros A B. induction B as [|d z F B IH]; trivial. now apply (in_field x d z). Qed.
Lemma inside_field x d : field_of x d -> inside x d.
Proof. intros F. apply (in_field x d x F). constructor. Qed.
Lemma reached_inside d : forall x, In x (reached d) <-> inside x d.
Proof.
  induction d as [d IH] using sdef_ind'. intros x. destruct d as [n e fs]. cbn [reached s_fields].
  assert (G : In x ((fix go (fs : list (string * Z * bool * option sdef)) := match fs with [] => [] | (_, Some x) :: r => reached x ++ go r | (_, None) :: r => go r end) fs) <->
    exists y, (exists f, In (f, Some y) fs) /\ inside x y).
  { assert (IH' : forall y, (exists f, In (f, Some y) fs) -> forall x, In x (reached y) <-> inside x y) by (intros y F; apply IH; exact F). clear IH.
    induction fs as [|[g [z|]] fs IHf]; [split; [intros []|intros [y [[f []] _]]]| |].
    - rewrite in_app_iff, IHf by (intros y [f F]; apply IH'; exists f; now right). rewrite IH' by (exists g; now left). split.
      + intros [I|[y [[f F] I]]]; [exists z; split; trivial; exists g; now left|exists y; split; trivial; exists f; now right].
      + intros [y [[f [E|F]] I]]; [inversion E; subst; now left|right; exists y; split; trivial; now exists f].
    - rewrite IHf by (intros y [f F]; apply IH'; exists f; now right). split; intros [y [[f F] I]]; exists y; (split; trivial); exists f; [now right|destruct F; [discriminate|trivial]]. }
  cbn [In]. rewrite G. split.
  - intros [<-|[y [F I]]]; [constructor|]. now apply (in_field x _ y).
  - intros I. inversion I as [|d y F J]; subst; [now left|right; now exists y].
Qed.
Lemma edges_inside d : forall a b, In (a, b) (edges d) <-> exists x y, inside y d /\ field_of x y /\ s_name x = a /\ s_name y = b.
Proof.
  induction d as [d IH] using sdef_ind'. intros a b. destruct d as [n e fs].
  assert (G : In (a, b) (edges (SDef n e fs)) <-> exists z, field_of z (SDef n e fs) /\ ((s_name z = a /\ n = b) \/ In (a, b) (edges z))).
  { cbn [edges s_fields s_name]. clear IH. unfold field_of. cbn [s_fields]. induction fs as [|[g [z|]] fs IHf].
    - split; [intros []|intros [y [[f []] _]]].
    - cbn [In]. rewrite in_app_iff, IHf. split.
      + intros [E|[I|[y [[f F] I]]]]; [inversion E; exists z; split; [exists g; now left|left; now split]|exists z; split; [exists g; now left|now right]|exists y; split; trivial; exists f; now right].
      + intros [y [[f [E|F]] I]]; [inversion E; subst; destruct I as [[-> ->]|I]; [now left|right; now left]|right; right; exists y; split; trivial; now exists f].
    - rewrite IHf. split; intros [y [[f F] I]]; exists y; (split; trivial); exists f; [now right|destruct F; [discriminate|trivial]]. }
  rewrite G. split.
  - intros [z [F [[A B]|I]]]; [exists z, (SDef n e fs); repeat split; trivial; constructor|].
    apply IH in I; trivial. destruct I as [x [y [I [Fx [A B]]]]]. exists x, y. repeat split; trivial. now apply (in_field y _ z).
  - intros [x [y [I [Fx [A B]]]]]. inversion I as [|d z F J]; subst; [exists x; split; trivial; left; now split|]. exists z. split; trivial. right. apply IH; trivial. now exists x, y.
Qed.
Lemma same_refl d : same d d = true.
Proof.
  induction d as [d IH] using sdef_ind'. destruct d as [n e fs]. cbn [same s_fields]. unfold field_of in IH. cbn [s_fields] in IH. induction fs as [|[[[g w] s] [z|]] fs IHf]; trivial.
  - rewrite IH by (eexists; left; reflexivity). cbn. apply IHf. intros x [f F]. apply IH. exists f. now right.
  - rewrite String.eqb_refl, Z.eqb_refl, Bool.eqb_reflx. cbn. apply IHf. intros x [f F]. apply IH. exists f. now right.
Qed.
Lemma look_some n st d : look n st = Some d -> In d st /\ s_name d = n.
Proof. intros H. apply find_some in H. rewrite String.eqb_eq in H. exact H. Qed.
Lemma look_none n st d : look n st = None -> In d st -> s_name d <> n.
Proof. intros H I E. apply (find_none _ _ H) in I. rewrite E, String.eqb_refl in I. discriminate. Qed.
Lemma put_in d st x : In x (put d st) <-> x = d \/ In x st.
Proof. induction st as [|y st IH]; cbn; [intuition congruence|]. destruct (String.ltb _ _); cbn; [intuition congruence|]. rewrite IH. intuition congruence. Qed.

Section Consistent.
  Variable U : sdef -> Prop.
  Hypothesis one : forall a b, U a -> U b -> s_name a = s_name b -> a = b.
  Hypothesis closed : forall x d, U d -> inside x d -> U x.
  Definition full (st : list sdef) (y : sdef) : Prop := forall x, inside x y -> In x st.
  (* what is stored is complete but for larger ones *)
  Definition inv (k : nat) (st : list sdef) : Prop := Forall U st /\ forall y, In y st -> size y <= k -> full st y.
  Lemma process_ok d : U d -> forall st k, size d <= k -> inv k st ->
    exists st', process d st = Ok st' /\ inv k st' /\ full st' d /\ (forall x, In x st -> In x st') /\ forall x, In x st' -> In x st \/ inside x d.
  Proof.
    induction d as [d IH] using sdef_ind'. intros Ud st k Hk [FU C]. rewrite Forall_forall in FU.
    destruct (look (s_name d) st) as [x|] eqn:L.
    - destruct (look_some _ _ _ L) as [I E]. assert (x = d) by (apply one; auto). subst x. exists st.
      assert (PE : process d st = Ok st). { destruct d as [n e fs]. cbn [process]. rewrite L. now rewrite same_refl. }
      split; [exact PE|]. split; [split; [now apply Forall_forall|trivial]|]. split; [now apply C|]. split; auto.
    - assert (FLD : forall fs st0 j, (forall f x, In (f, Some x) fs -> field_of x d) -> S j = size d -> inv j st0 -> exists st',
        (fix go (fs : list (string * Z * bool * option sdef)) (st : list sdef) := match fs with [] => Ok st | (_, Some x) :: r => olet st1 := process x st in go r st1 | (_, None) :: r => go r st end) fs st0 = Ok st' /\
        inv j st' /\ (forall f x, In (f, Some x) fs -> full st' x) /\ (forall x, In x st0 -> In x st') /\ (forall x, In x st' -> In x st0 \/ exists f y, In (f, Some y) fs /\ inside x y)).
      { clear L FU C st Hk. induction fs as [|[g [z|]] fs IHf]; intros st0 j Hf Hj I0.
        - exists st0. split; trivial. split; trivial. split; [intros f x []|]. split; auto.
        - assert (Fz : field_of z d) by (apply (Hf g); now left). pose proof (size_field _ _ Fz) as Sz.
          destruct (IH z Fz (closed _ _ Ud (inside_field _ _ Fz)) st0 j ltac:(lia) I0) as [st1 [P1 [I1 [F1 [M1 N1]]]]].
          destruct (IHf st1 j (fun f x I => Hf f x (or_intror I)) Hj I1) as [st2 [P2 [I2 [F2 [M2 N2]]]]].
          exists st2. rewrite P1. cbn [obind]. split; [exact P2|]. split; trivial. split; [|split; [auto|]].
          + intros f x [E|I]; [inversion E; subst; intros y J; apply M2, F1, J|now apply (F2 f)].
          + intros x I. destruct (N2 x I) as [J|[f [y [J K]]]]; [|right; exists f, y; split; trivial; now right]. destruct (N1 x J) as [K|K]; [now left|right; exists g, z; split; trivial; now left].
        - destruct (IHf st0 j (fun f x I => Hf f x (or_intror I)) Hj I0) as [st2 [P2 [I2 [F2 [M2 N2]]]]].
          exists st2. split; [exact P2|]. split; trivial. split; [|split; [auto|]].
          + intros f x [E|I]; [discriminate|now apply (F2 f)].
          + intros x I. destruct (N2 x I) as [J|[f [y [J K]]]]; [now left|right; exists f, y; split; trivial; now right]. }
      destruct (size d) as [|j] eqn:SD; [destruct d; discriminate SD|].
      assert (I1 : inv j (put d st)).
      { split; [apply Forall_forall; intros x I; apply put_in in I; destruct I as [->|I]; auto|]. intros y I Hy. apply put_in in I. destruct I as [->|I]; [lia|]. intros x J. apply put_in. right. apply (C y); trivial. lia. }
      destruct (FLD (s_fields d) (put d st) j (fun f x I => ex_intro _ f I) eq_refl I1) as [st' [P [I' [F' [M' N']]]]].
      exists st'. assert (PE : process d st = Ok st'). { destruct d as [n e fs]. cbn [process]. rewrite L. exact P. }
      assert (FD : full st' d). { intros x I. inversion I as [|? y [f F] J]; subst; [apply M', put_in; now left|]. now apply (F' f y F). }
      assert (NEW : forall x, In x st' -> In x st \/ inside x d).
      { intros x I. destruct (N' x I) as [J|[f [y [J K]]]]; [apply put_in in J; destruct J as [->|J]; [right; constructor|now left]|right]. apply (in_field x d y); trivial. now exists f. }
      split; trivial. split; [|split; trivial; split; [intros x I; apply M', put_in; now right|exact NEW]].
      split; [apply I'|]. intros y I Hy. destruct (NEW y I) as [J|J].
      + intros x K. apply M', put_in. right. now apply (C y).
      + inversion J as [|? z [f F] K]; subst; [exact FD|]. intros x X. apply FD. apply (inside_trans x y); trivial.
  Qed.
  Lemma collect_ok vars : (forall v, In v vars -> s_external v = false -> U v) -> forall st, (forall k, inv k st) ->
    exists st', collect vars st = Ok st' /\ (forall k, inv k st') /\ (forall x, In x st' <-> In x st \/ used vars x).
  Proof.
    induction vars as [|v vars IH]; intros HU st I; cbn [collect].
    - exists st. split; trivial. split; trivial. intros x. split; [now left|]. intros [J|[v [[] _]]]. exact J.
    - destruct (s_external v) eqn:EX.
      + destruct (IH (fun w J => HU w (or_intror J)) st I) as [st' [P [I' E]]]. exists st'. split; trivial. split; trivial. intros x. rewrite E. split.
        * intros [J|[w [J K]]]; [now left|right; exists w; split; [now right|exact K]].
        * intros [J|[w [[->|J] [K1 K2]]]]; [now left|congruence|right; exists w; repeat split; trivial].
      + destruct (process_ok v (HU v (or_introl eq_refl) EX) st (size v) (le_n _) (I _)) as [st1 [P1 [I1 [F1 [M1 N1]]]]].
        assert (I1' : forall k, inv k st1). { intros k. split; [apply I1|]. intros y J Hy x K. destruct (N1 y J) as [L|L]; [apply M1; exact (proj2 (I k) y L Hy x K)|]. apply F1. now apply (inside_trans x y). }
        destruct (IH (fun w J => HU w (or_intror J)) st1 I1') as [st' [P [I' E]]]. exists st'. rewrite P1. cbn [obind]. split; [exact P|]. split; trivial. intros x. rewrite E. split.
        * intros [J|[w [J K]]]; [|right; exists w; split; [now right|exact K]]. destruct (N1 x J) as [L|L]; [now left|right; exists v; repeat split; trivial; now left].
        * intros [J|[w [[->|J] [K1 K2]]]]; [left; now apply M1|left; now apply F1|right; exists w; repeat split; trivial].
  Qed.
End Consistent.

Lemma mem_in n l : mem n l = true <-> In n l.
Proof.
  unfold mem. rewrite existsb_exists. split; [intros [x [I E]]; apply String.eqb_eq in E; now subst|]. intros I. exists n. split; trivial. apply String.eqb_refl.
Qed.
(* the search *)
Section Dfs.
  Variables (ord : list string) (kids : string -> list string) (rank : string -> nat).
  Hypothesis kids_in : forall n k, In k (kids n) -> In k ord.
  Hypothesis up : forall n k, In k (kids n) -> rank n < rank k.
  Definition left_over (v : list string) : nat := List.length (filter (fun n => negb (mem n v)) ord).
  Lemma left_mono v v' : (forall x, In x v -> In x v') -> left_over v' <= left_over v.
  Proof.
    intros H. unfold left_over. clear kids_in. induction ord as [|n l IH]; cbn; [lia|]. destruct (mem n v') eqn:E'; destruct (mem n v) eqn:E; cbn; try lia.
    apply mem_in in E. apply H, mem_in in E. congruence.
  Qed.
  Lemma left_less v n : In n ord -> ~ In n v -> S (left_over (n :: v)) <= left_over v.
  Proof.
    intros I N. unfold left_over. clear kids_in. induction ord as [|m l IH]; [destruct I|]. cbn [filter].
    assert (Q : mem m (n :: v) = String.eqb m n || mem m v) by reflexivity. rewrite Q. destruct (String.eqb_spec m n) as [->|D]; cbn [orb].
    - assert (mem n v = false) as -> by (destruct (mem n v) eqn:E; trivial; apply mem_in in E; contradiction). cbn [negb List.length]. apply le_n_S.
      clear. induction l as [|m l IH]; [apply le_n|]. cbn [filter]. assert (Q : mem m (n :: v) = String.eqb m n || mem m v) by reflexivity. rewrite Q.
      destruct (String.eqb m n), (mem m v); cbn [negb orb List.length]; lia.
    - destruct I as [->|I]; [now destruct D|]. specialize (IH I). destruct (mem m v); cbn [negb orb List.length]; lia.
  Qed.
  (* the queue holds each node after its children *)
  Definition sorted (q : list string) : Prop := forall l1 n l2, q = l1 ++ n :: l2 -> forall k, In k (kids n) -> In k l1.
  Lemma sorted_snoc q n : sorted q -> (forall k, In k (kids n) -> In k q) -> sorted (q ++ [n]).
  Proof.
    intros S H l1 m l2 E k K. destruct l2 as [|z l2].
    - apply app_inj_tail in E. destruct E as [<- <-]. now apply H.
    - assert (X : exists l3, l2 = l3 ++ [n] \/ (l2 = [] /\ z = n)). { destruct l2 as [|y l2 _] using rev_ind; [exists []; right; split; trivial|exists l2; left].
        - change (l1 ++ [m; z]) with (l1 ++ [m] ++ [z]) in E. rewrite app_assoc in E. apply app_inj_tail in E. now destruct E.
        - f_equal. change (l1 ++ m :: z :: l2 ++ [y]) with (l1 ++ (m :: z :: l2) ++ [y]) in E. rewrite app_assoc in E. apply app_inj_tail in E. destruct E as [_ <-]. reflexivity. }
      destruct X as [l3 [->|[-> ->]]].
      + change (l1 ++ m :: z :: l3 ++ [n]) with (l1 ++ (m :: z :: l3) ++ [n]) in E. rewrite app_assoc in E. apply app_inj_tail in E. destruct E as [E _]. apply (S l1 m (z :: l3) E k K).
      + change (l1 ++ [m; n]) with (l1 ++ [m] ++ [n]) in E. rewrite app_assoc in E. apply app_inj_tail in E. destruct E as [E _]. apply (S l1 m [] E k K).
  Qed.
  Record state (vq : list string * list string) : Prop := {
    st_nd : NoDup (snd vq); st_sub : forall x, In x (snd vq) -> In x (fst vq); st_sorted : sorted (snd vq) ; st_ord : forall x, In x (fst vq) -> In x ord }.
  Record later (vq vq' : list string * list string) : Prop := {
    lt_v : forall x, In x (fst vq) -> In x (fst vq'); lt_q : forall x, In x (snd vq) -> In x (snd vq');
    lt_n : forall x, In x (fst vq') -> In x (fst vq) \/ In x (snd vq'); lt_o : forall x, In x (snd vq') -> In x (snd vq) \/ ~ In x (fst vq) }.
  Lemma later_refl vq : later vq vq.
  Proof. constructor; auto. Qed.
  Lemma later_trans a b c : later a b -> later b c -> later a c.
  Proof.
    intros [A1 A2 A3 A4] [B1 B2 B3 B4]. constructor; auto.
    - intros x I. destruct (B3 x I) as [J|J]; [destruct (A3 x J); auto|auto].
    - intros x I. destruct (B4 x I) as [J|J]; [apply A4, J|]. right. intros K. apply J, A1, K.
  Qed.
  Lemma visit_ok fuel : forall n vq, left_over (fst vq) <= fuel -> In n ord -> ~ In n (fst vq) -> state vq ->
    (forall x, In x (fst vq) -> ~ In x (snd vq) -> rank x < rank n) ->
    state (visit fuel kids n vq) /\ later vq (visit fuel kids n vq) /\ In n (snd (visit fuel kids n vq)).
  Proof.
    induction fuel as [|f IH]; intros n [v q] LO NI NV [SN SS SO SR] ST; cbn [fst snd] in *.
    - pose proof (left_less v n NI NV). lia.
    - cbn [visit fst snd].
      assert (G : forall ks vq, (forall k, In k ks -> In k (kids n)) -> left_over (fst vq) <= f -> state vq -> In n (fst vq) -> ~ In n (snd vq) ->
        (forall x, In x (fst vq) -> ~ In x (snd vq) -> rank x <= rank n) ->
        let r := fold_left (fun vq k => if mem k (fst vq) then vq else visit f kids k vq) ks vq in state r /\ later vq r /\ (forall k, In k ks -> In k (snd r))).
      { induction ks as [|k ks IHk]; intros vq KS LF S0 NV0 NQ0 ST0; cbn zeta; cbn [fold_left].
        - split; trivial. split; [apply later_refl|intros k []].
        - pose proof (up n k (KS k (or_introl eq_refl))) as R. destruct (mem k (fst vq)) eqn:MK.
          + destruct (IHk vq (fun x I => KS x (or_intror I)) LF S0 NV0 NQ0 ST0) as [A [B C]]. split; trivial. split; trivial. intros x [<-|I]; [|now apply C]. apply (lt_q _ _ B).
            apply mem_in in MK. destruct (in_dec string_dec k (snd vq)) as [Y|Y]; trivial. specialize (ST0 k MK Y). lia.
          + assert (NK : ~ In k (fst vq)) by (intros X; apply mem_in in X; congruence).
            destruct (IH k vq LF (kids_in n k (KS k (or_introl eq_refl))) NK S0) as [A [B C]]; [intros x X1 X2; specialize (ST0 x X1 X2); lia|].
            assert (NQ1 : ~ In n (snd (visit f kids k vq))). { intros X. destruct (lt_o _ _ B n X) as [Y|Y]; [contradiction|]. apply Y. exact NV0. }
            destruct (IHk (visit f kids k vq) (fun x I => KS x (or_intror I))) as [A' [B' C']]; trivial.
            * apply Nat.le_trans with (left_over (fst vq)); trivial. apply left_mono. apply (lt_v _ _ B).
            * apply (lt_v _ _ B), NV0.
            * intros x X1 X2. destruct (lt_n _ _ B x X1) as [Y|Y]; [|contradiction]. apply ST0; trivial. intros Z. apply X2, (lt_q _ _ B), Z.
            * split; trivial. split; [now apply (later_trans _ _ _ B)|]. intros x [<-|I]; [apply (lt_q _ _ B'), C|now apply C']. }
      destruct (G (kids n) (n :: v, q)) as [A [B C]]; cbn [fst snd].
      + auto.
      + pose proof (left_less v n NI NV). lia.
      + constructor; cbn; trivial; [intros x X; right; now apply SS|intros x [<-|X]; auto].
      + now left.
      + intros X. apply NV, SS, X.
      + intros x [<-|X] Y; [lia|]. specialize (ST x X Y). lia.
      + set (r := fold_left _ _ _) in *. destruct A as [AN AS AO AR].
        assert (NQ : ~ In n (snd r)). { intros X. destruct (lt_o _ _ B n X) as [Y|Y]; [apply NV, SS, Y|]. apply Y. now left. }
        split; [|split].
        * constructor; cbn [fst snd]; trivial.
          -- clear - AN NQ. induction (snd r) as [|y l IHl]; cbn; [repeat constructor; auto|]. inversion AN; subst. constructor; [|apply IHl; trivial; intros X; apply NQ; now right].
             intros X. apply in_app_iff in X. destruct X as [X|[->|[]]]; [contradiction|]. apply NQ. now left.
          -- intros x X. apply in_app_iff in X. destruct X as [X|[<-|[]]]; [now apply AS|]. apply (lt_v _ _ B). now left.
          -- now apply sorted_snoc.
        * constructor; cbn [fst snd].
          -- intros x X. apply (lt_v _ _ B). now right.
          -- intros x X. apply in_app_iff. left. apply (lt_q _ _ B), X.
          -- intros x X. destruct (lt_n _ _ B x X) as [[<-|Y]|Y]; [right; apply in_app_iff; right; now left|now left|right; apply in_app_iff; now left].
          -- intros x X. apply in_app_iff in X. destruct X as [X|[<-|[]]]; [|now right]. destruct (lt_o _ _ B x X) as [Y|Y]; [now left|]. right. intros Z. apply Y. now right.
        * apply in_app_iff. right. now left.
  Qed.
  Lemma sort_ok : let q := rev (sort ord kids) in NoDup q /\ sorted q /\ forall x, In x q <-> In x ord.
  Proof.
    cbn zeta. unfold sort. rewrite rev_involutive.
    assert (G : forall l vq, (forall x, In x l -> In x ord) -> state vq -> (forall x, In x (fst vq) -> In x (snd vq)) ->
      let r := fold_left (fun vq n => if mem n (fst vq) then vq else visit (List.length ord) kids n vq) l vq in
      state r /\ (forall x, In x (fst r) -> In x (snd r)) /\ (forall x, In x (fst vq) \/ In x l -> In x (snd r))).
    { induction l as [|n l IH]; intros vq LO S E; cbn zeta; cbn [fold_left]; [split; trivial; split; trivial; intros x [X|[]]; now apply E|].
      destruct (mem n (fst vq)) eqn:M.
      - destruct (IH vq (fun x I => LO x (or_intror I)) S E) as [A [B C]]. split; trivial. split; trivial. intros x [X|[<-|X]]; apply C; auto. left. now apply mem_in.
      - assert (NV : ~ In n (fst vq)) by (intros X; apply mem_in in X; congruence).
        destruct (visit_ok (List.length ord) n vq) as [A [B C]]; trivial.
        + unfold left_over. clear. induction ord as [|m l IH]; cbn; [lia|]. destruct (negb _); cbn; lia.
        + apply LO. now left.
        + intros x X Y. destruct (Y (E x X)).
        + assert (E' : forall x, In x (fst (visit (List.length ord) kids n vq)) -> In x (snd (visit (List.length ord) kids n vq))). { intros x X. destruct (lt_n _ _ B x X) as [Y|Y]; trivial. apply (lt_q _ _ B), E, Y. }
          destruct (IH _ (fun x I => LO x (or_intror I)) A E') as [A' [B' C']]. split; trivial. split; trivial.
          intros x [X|[<-|X]]; apply C'; auto; left; [apply (lt_v _ _ B), X|]. apply (st_sub _ A), C. }
    destruct (G ord ([], [])) as [[AN AS AO AR] [B C]]; [auto| |intros x []|].
    - constructor; cbn; [apply NoDup_nil|intros x []| |intros x []]. intros l1 n l2 E. destruct l1; discriminate.
    - split; trivial. split; trivial. intros x. split; [intros X; apply AR, AS, X|intros X; apply C; now right].
  Qed.
End Dfs.

Lemma nodup_names (l : list sdef) : NoDup (map s_name l) -> NoDup l.
Proof. apply NoDup_map_inv. Qed.
(* C359: each struct that is used gets one typedef, after those of its fields, whatever the order of the containers *)
Theorem C359_typedefs vars : one_each vars -> exists st, collect vars [] = Ok st /\ forall ord kids, any_order st ord kids ->
  exists out, extract vars ord kids = Ok out /\ NoDup (map s_name out) /\ (forall d, In d out <-> used vars d) /\
  forall l1 d l2, out = l1 ++ d :: l2 -> forall x, field_of x d -> In x l1.
Proof.
  intros ONE.
  assert (CL : forall x d, used vars d -> inside x d -> used vars x) by (intros x d [v [I [E J]]] K; exists v; repeat split; trivial; now apply (inside_trans x d)).
  destruct (collect_ok (used vars) ONE CL vars) with (st := @nil sdef) as [st [P [I E]]].
  { intros v J X. exists v. repeat split; trivial. constructor. }
  { intros k. split; [constructor|intros y []]. }
  assert (E' : forall x, In x st <-> used vars x) by (intros x; rewrite E; cbn; tauto). clear E.
  exists st. split; trivial. intros ord kids [ND [ORD KIDS]]. unfold extract. rewrite P. cbn [obind].
  assert (ND' : forall x, In x (nodes st) <-> used vars x).
  { intros x. unfold nodes. rewrite in_flat_map. split; [intros [y [J K]]; apply reached_inside in K; apply E' in J; now apply (CL x y)|]. intros U. exists x. split; [now apply E'|]. apply reached_inside. constructor. }
  assert (LK : forall n, In n ord -> exists d, look n (nodes st) = Some d /\ used vars d /\ s_name d = n).
  { intros n J. apply ORD in J. apply in_map_iff in J. destruct J as [d [<- J]]. destruct (look (s_name d) (nodes st)) as [e|] eqn:L.
    - apply look_some in L. destruct L as [L1 L2]. exists e. split; trivial. split; trivial. now apply ND'.
    - now destruct (look_none _ _ _ L J). }
  assert (LU : forall d, used vars d -> look (s_name d) (nodes st) = Some d).
  { intros d U. destruct (LK (s_name d)) as [e [L [Ue Ne]]]; [apply ORD, in_map, ND', U|]. rewrite L. f_equal. now apply ONE. }
  assert (KI : forall n k, In k (kids n) <-> exists x y, used vars y /\ field_of x y /\ s_name x = n /\ s_name y = k).
  { intros n k. rewrite KIDS, in_flat_map. split.
    - intros [d [J K]]. apply edges_inside in K. destruct K as [x [y [K [F [A B]]]]]. exists x, y. repeat split; trivial. apply (CL y d); trivial. now apply E'.
    - intros [x [y [U [F [A B]]]]]. exists y. split; [now apply E'|]. apply edges_inside. exists x, y. repeat split; trivial. constructor. }
  set (rank := fun n => match look n (nodes st) with Some d => size d | None => 0 end).
  assert (KO : forall n k, In k (kids n) -> In k ord). { intros n k J. apply KI in J. destruct J as [x [y [U [F [A B]]]]]. subst k. apply ORD, in_map, ND', U. }
  assert (UP : forall n k, In k (kids n) -> rank n < rank k).
  { intros n k J. apply KI in J. destruct J as [x [y [U [F [A B]]]]]. subst. unfold rank. rewrite (LU y U), (LU x); [now apply size_field|]. apply (CL x y U). now apply inside_field. }
  destruct (sort_ok ord kids rank KO UP) as [QN [QS QI]]. set (res := sort ord kids) in *.
  assert (RI : forall n, In n res <-> In n ord) by (intros n; rewrite <- QI; now rewrite <- in_rev).
  set (f := fun n => match look n (nodes st) with Some d => [d] | None => [] end).
  assert (MAP : forall l, (forall n, In n l -> In n ord) -> map s_name (flat_map f l) = l).
  { induction l as [|n l IH]; intros H; trivial. cbn [flat_map]. rewrite map_app, IH by (intros m J; apply H; now right). unfold f. destruct (LK n (H n (or_introl eq_refl))) as [d [-> [_ <-]]]. reflexivity. }
  assert (MR : map s_name (flat_map f res) = res) by (apply MAP; intros n; apply RI).
  exists (flat_map f res). split; trivial. split; [rewrite MR; apply NoDup_rev in QN; now rewrite rev_involutive in QN|].
  assert (IN : forall d, In d (flat_map f res) <-> used vars d).
  { intros d. rewrite in_flat_map. split.
    - intros [n [J K]]. unfold f in K. destruct (LK n (proj1 (RI n) J)) as [e [L [U _]]]. rewrite L in K. destruct K as [<-|[]]. exact U.
    - intros U. exists (s_name d). split; [apply RI, ORD, in_map, ND', U|]. unfold f. rewrite (LU d U). now left. }
  split; trivial. intros l1 d l2 E x F.
  assert (Ud : used vars d) by (apply IN; rewrite E; apply in_app_iff; right; now left).
  assert (Ux : used vars x) by (apply (CL x d Ud); now apply inside_field).
  assert (RE : res = map s_name l1 ++ s_name d :: map s_name l2) by (rewrite <- MR, E, map_app; reflexivity).
  (* x is in the result; it cannot be at or after d *)
  assert (Ix : In x (flat_map f res)) by now apply IN. rewrite E in Ix. apply in_app_iff in Ix. destruct Ix as [Ix|[Ix|Ix]]; trivial; exfalso.
  - subst x. apply size_field in F. lia.
  - assert (K : In (s_name d) (kids (s_name x))) by (apply KI; exists x, d; repeat split; trivial).
    apply in_split in Ix. destruct Ix as [m1 [m2 ->]]. rewrite map_app in RE. cbn [map] in RE.
    assert (RV : rev res = rev (map s_name m2) ++ s_name x :: (rev (map s_name m1) ++ [s_name d] ++ rev (map s_name l1))).
    { rewrite RE. rewrite rev_app_distr. cbn [rev]. rewrite rev_app_distr. cbn [rev]. now rewrite <- !app_assoc. }
    specialize (QS _ _ _ RV _ K). rewrite RV in QN. apply in_split in QS. destruct QS as [p1 [p2 QE]]. rewrite QE in QN. rewrite <- app_assoc in QN. apply NoDup_remove_2 in QN.
    apply QN. apply in_app_iff. right. apply in_app_iff. right. right. apply in_app_iff. right. now left.
Qed.
Definition leaf (n : string) : sdef := SDef n false [("v", 8%Z, false, None)].
Definition with_one (n f : string) (d : sdef) : sdef := SDef n false [(f, 0%Z, false, Some d); ("w", 4%Z, true, None)].
Definition ex_vars : list sdef := [with_one "P" "x" (with_one "Q" "y" (leaf "R")); with_one "Q" "y" (leaf "R"); SDef "X" true [("z", 1%Z, false, None)]].
Definition ex_kids (n : string) : list string := if String.eqb n "R" then ["Q"] else if String.eqb n "Q" then ["P"] else [].
Lemma one_of_list vars l : (forall x, used vars x -> In x l) -> NoDup (map s_name l) -> one_each vars.
Proof.
  intros H ND a b A B E. apply H in A, B. clear H. induction l as [|d l IH]; [destruct A|]. inversion ND as [|? ? NI ND']; subst.
  destruct A as [->|A], B as [->|B]; auto; destruct NI; [rewrite E|rewrite <- E]; now apply in_map.
Qed.
Lemma used_reached vars x : used vars x -> In x (flat_map reached (filter (fun v => negb (s_external v)) vars)).
Proof.
  intros [v [I [E J]]]. apply in_flat_map. exists v. split; [apply filter_In; split; trivial; now rewrite E|now apply reached_inside].
Qed.
Example C359_ex : one_each ex_vars /\ any_order [with_one "P" "x" (with_one "Q" "y" (leaf "R")); with_one "Q" "y" (leaf "R"); leaf "R"] ["Q"; "R"; "P"] ex_kids /\
  collect ex_vars [] = Ok [with_one "P" "x" (with_one "Q" "y" (leaf "R")); with_one "Q" "y" (leaf "R"); leaf "R"] /\
  extract ex_vars ["Q"; "R"; "P"] ex_kids = Ok [leaf "R"; with_one "Q" "y" (leaf "R"); with_one "P" "x" (with_one "Q" "y" (leaf "R"))].
Proof.
  split; [|split; [|split; reflexivity]].
  - apply (one_of_list _ [with_one "P" "x" (with_one "Q" "y" (leaf "R")); with_one "Q" "y" (leaf "R"); leaf "R"]).
    + intros x U. apply used_reached in U. cbn in U. cbn. tauto.
    + repeat constructor; cbn; intuition discriminate.
  - split; [repeat constructor; cbn; intuition discriminate|]. split; [intros n; cbn; tauto|]. intros n k. unfold ex_kids. cbn. destruct (String.eqb_spec n "R") as [->|N1]; [|destruct (String.eqb_spec n "Q") as [->|N2]]; cbn.
    + split; [intros [<-|[]]; right; now left|]. intros H. repeat destruct H as [H|H]; try (inversion H; subst; now left); destruct H.
    + split; [intros [<-|[]]; now left|]. intros H. repeat destruct H as [H|H]; try (inversion H; subst; now left); destruct H.
    + split; [intros []|]. intros H. repeat destruct H as [H|H]; try (inversion H; congruence); destruct H.
Qed.
(* C360: a struct that is declared elsewhere, as a field of one that is not *)
Theorem C360_external_refuted : ~ (forall vars ord kids out, one_each vars -> extract vars ord kids = Ok out -> forall d, In d out -> s_external d = false).
Proof.
  intros H. pose (e := SDef "E" true [("v", 8%Z, false, None)]). pose (d := with_one "D" "f" e).
  assert (O : one_each [d]). { apply (one_of_list _ [d; e]); [intros x U; apply used_reached in U; cbn in U; cbn; tauto|repeat constructor; cbn; intuition discriminate]. }
  specialize (H [d] ["D"; "E"] (fun n => if String.eqb n "E" then ["D"] else []) [e; d] O eq_refl e (or_introl eq_refl)). discriminate.
Qed.
(* C361: structs that are accepted, for all orders.  The second B is taken for the first one because names of nested structs are
   not compared, and the D inside it makes D come before B, which it uses *)
Theorem C361_order_refuted : ~ (forall vars st ord kids out, collect vars [] = Ok st -> any_order st ord kids -> extract vars ord kids = Ok out ->
  forall l1 d l2, out = l1 ++ d :: l2 -> forall x, field_of x d -> exists y, In y l1 /\ s_name y = s_name x).
Proof.
  intros H. pose (B := SDef "B" false [("f", 0%Z, false, Some (leaf "C"))]). pose (A := SDef "A" false [("x", 0%Z, false, Some B)]).
  pose (B' := SDef "B" false [("f", 0%Z, false, Some (leaf "D"))]). pose (D := SDef "D" false [("y", 0%Z, false, Some B')]).
  pose (kids := fun n => if String.eqb n "B" then ["A"; "D"] else if String.eqb n "C" then ["B"] else if String.eqb n "D" then ["B"] else []).
  assert (ANY : any_order [A; B; leaf "C"; D] ["D"; "A"; "B"; "C"] kids).
  { split; [repeat constructor; cbn; intuition discriminate|]. split; [intros n; cbn; tauto|]. intros n k. unfold kids. cbn.
    destruct (String.eqb_spec n "B") as [->|N1]; [|destruct (String.eqb_spec n "C") as [->|N2]; [|destruct (String.eqb_spec n "D") as [->|N3]]]; cbn.
    - split; [intros [<-|[<-|[]]]; tauto|]. intros X. repeat destruct X as [X|X]; try (inversion X; subst; tauto); destruct X.
    - split; [intros [<-|[]]; tauto|]. intros X. repeat destruct X as [X|X]; try (inversion X; subst; tauto); destruct X.
    - split; [intros [<-|[]]; tauto|]. intros X. repeat destruct X as [X|X]; try (inversion X; subst; tauto); destruct X.
    - split; [intros []|]. intros X. repeat destruct X as [X|X]; try (inversion X; congruence); destruct X. }
  destruct (H [A; B; D] _ _ _ [leaf "C"; D; B; A] eq_refl ANY eq_refl [leaf "C"] D [B; A] eq_refl B') as [y [[<-|[]] E]]; [eexists; now left|discriminate].
Qed.
(* C382: two different structs of one name, without structs inside, are not both accepted *)
Lemma look_put n d st x : look (s_name d) st = None -> look n st = Some x -> look n (put d st) = Some x.
Proof.
  intros N. induction st as [|y st IH]; intros H; [discriminate|]. cbn [put]. unfold look in *. cbn [find] in *.
  destruct (String.eqb_spec (s_name y) (s_name d)) as [E|E]; [discriminate|]. destruct (String.ltb (s_name d) (s_name y)); cbn [find].
  - destruct (String.eqb_spec (s_name d) n) as [<-|D]; trivial. exfalso. destruct (String.eqb_spec (s_name y) (s_name d)); [congruence|]. congruence.
  - destruct (String.eqb (s_name y) n); trivial. now apply IH.
Qed.
Lemma look_put_self d st : look (s_name d) st = None -> look (s_name d) (put d st) = Some d.
Proof.
  induction st as [|y st IH]; intros H; cbn [put]; unfold look in *; cbn [find] in *.
  - now rewrite String.eqb_refl.
  - destruct (String.eqb_spec (s_name y) (s_name d)) as [E|E]; [discriminate|]. destruct (String.ltb (s_name d) (s_name y)); cbn [find]; [now rewrite String.eqb_refl|].
    destruct (String.eqb_spec (s_name y) (s_name d)); [contradiction|]. now apply IH.
Qed.
Lemma process_keep d : forall st st', process d st = Ok st' -> (forall n x, look n st = Some x -> look n st' = Some x) /\ exists x, look (s_name d) st' = Some x /\ same d x = true.
Proof.
  induction d as [d IH] using sdef_ind'. intros st st' H. destruct (look (s_name d) st) as [x|] eqn:L.
  - assert (E : process d st = if same d x then Ok st else Throw) by (destruct d as [n e fs]; cbn [process]; now rewrite L). rewrite E in H. destruct (same d x) eqn:S'; [|discriminate]. inversion H; subst. split; trivial. now exists x.
  - assert (G : forall fs st0, (forall f x, In (f, Some x) fs -> field_of x d) ->
      (fix go (fs : list (string * Z * bool * option sdef)) (st : list sdef) := match fs with [] => Ok st | (_, Some x) :: r => olet st1 := process x st in go r st1 | (_, None) :: r => go r st end) fs st0 = Ok st' ->
      forall n x, look n st0 = Some x -> look n st' = Some x).
    { clear H L. induction fs as [|[g [z|]] fs IHf]; intros st0 F H n x X; [inversion H; now subst| |].
      - destruct (process z st0) as [st1| |] eqn:P; try discriminate. apply (IHf st1); [intros f y J; apply (F f); now right|exact H|]. apply (IH z (F g z (or_introl eq_refl)) st0 st1 P). exact X.
      - apply (IHf st0); [intros f y J; apply (F f); now right|exact H|exact X]. }
    assert (P : forall n x, look n (put d st) = Some x -> look n st' = Some x).
    { apply (G (s_fields d) (put d st)); [intros f x I; now exists f|]. destruct d as [n e fs]. cbn [process] in H. rewrite L in H. exact H. }
    split; [intros n x X; apply P; now apply look_put|]. exists d. split; [apply P; now apply look_put_self|apply same_refl].
Qed.
Lemma process_def d : forall st, process d st <> UB.
Proof.
  induction d as [d IH] using sdef_ind'. intros st H. destruct (look (s_name d) st) as [x|] eqn:L.
  - assert (E : process d st = if same d x then Ok st else Throw) by (destruct d as [n e fs]; cbn [process]; now rewrite L). rewrite E in H. now destruct (same d x).
  - assert (G : forall fs st0, (forall f x, In (f, Some x) fs -> field_of x d) ->
      (fix go (fs : list (string * Z * bool * option sdef)) (st : list sdef) := match fs with [] => Ok st | (_, Some x) :: r => olet st1 := process x st in go r st1 | (_, None) :: r => go r st end) fs st0 <> UB).
    { clear H L. induction fs as [|[g [z|]] fs IHf]; intros st0 F H; [discriminate| |].
      - destruct (process z st0) as [st1| |] eqn:P; try discriminate; [|exact (IH z (F g z (or_introl eq_refl)) st0 P)]. apply (IHf st1); [intros f y J; apply (F f); now right|exact H].
      - apply (IHf st0); [intros f y J; apply (F f); now right|exact H]. }
    apply (G (s_fields d) (put d st)); [intros f x I; now exists f|]. destruct d as [n e fs]. cbn [process] in H. rewrite L in H. exact H.
Qed.
Lemma collect_def vars : forall st, collect vars st <> UB.
Proof.
  induction vars as [|d vars IH]; intros st H; cbn [collect] in H; [discriminate|]. destruct (s_external d); [now apply (IH st)|]. destruct (process d st) as [st1| |] eqn:P; try discriminate; [now apply (IH st1)|now apply (process_def d st)].
Qed.
Definition flat (d : sdef) : Prop := forall f, In f (s_fields d) -> snd f = None.
Lemma same_flat a b : flat a -> same a b = true -> s_fields a = s_fields b.
Proof.
  destruct a as [na ea l], b as [nb eb m]. unfold flat. cbn [same s_fields]. revert m. induction l as [|[[[n w] s] o] l IH]; intros [|[[[n' w'] s'] o'] m] F H; trivial; try discriminate.
  - pose proof (F _ (or_introl eq_refl)) as E. cbn in E. subst o. discriminate.
  - pose proof (F _ (or_introl eq_refl)) as E. cbn in E. subst o. destruct o'; [discriminate|]. apply andb_true_iff in H. destruct H as [H H4]. apply andb_true_iff in H. destruct H as [H H3]. apply andb_true_iff in H. destruct H as [H1 H2].
    apply String.eqb_eq in H1. apply Z.eqb_eq in H2. apply Bool.eqb_prop in H3. subst. f_equal. apply IH; [|exact H4]. intros f I. apply F. now right.
Qed.
Theorem C382_different vars a b : In a vars -> In b vars -> s_external a = false -> s_external b = false -> s_name a = s_name b -> flat a -> flat b -> s_fields a <> s_fields b -> collect vars [] = Throw.
Proof.
  intros A B EA EB N FA FB D. destruct (collect vars []) as [st| |] eqn:C; trivial; [exfalso; apply D|now apply collect_def in C].
  assert (G : forall vars st0 st, collect vars st0 = Ok st -> (forall n x, look n st0 = Some x -> look n st = Some x) /\ forall d, In d vars -> s_external d = false -> exists x, look (s_name d) st = Some x /\ same d x = true).
  { clear. induction vars as [|d vars IH]; intros st0 st H; cbn [collect] in H; [inversion H; subst; split; [trivial|intros d []]|]. destruct (s_external d) eqn:E.
    - destruct (IH _ _ H) as [K R]. split; trivial. intros e [<-|I] X; [congruence|auto].
    - destruct (process d st0) as [st1| |] eqn:P; try discriminate. cbn [obind] in H. destruct (IH _ _ H) as [K R]. destruct (process_keep _ _ _ P) as [K1 [x [X1 X2]]]. split; [auto|]. intros e [<-|I] X; [exists x; auto|auto]. }
  destruct (G vars [] st C) as [_ R]. destruct (R a A EA) as [x [X1 X2]]. destruct (R b B EB) as [y [Y1 Y2]]. rewrite <- N in Y1. rewrite X1 in Y1. inversion Y1; subst y.
  rewrite (same_flat a x FA X2), (same_flat b x FB Y2). reflexivity.
Qed.
Example C382_ex : collect [leaf "R"; SDef "R" false []] [] = Throw /\ collect [SDef "R" false []; leaf "R"] [] = Throw.
Proof. split; reflexivity. Qed.
(* C383: structs with structs inside *)
Theorem C383_nested_refuted : ~ (forall vars a b, In a vars -> In b vars -> s_external a = false -> s_external b = false -> s_name a = s_name b -> s_fields a <> s_fields b -> forall st, collect vars [] <> Ok st).
Proof.
  intros H. apply (H [SDef "P" false [("x", 0%Z, false, Some (leaf "R"))]; SDef "P" false [("y", 0%Z, false, Some (leaf "S"))]] (SDef "P" false [("x", 0%Z, false, Some (leaf "R"))]) (SDef "P" false [("y", 0%Z, false, Some (leaf "S"))])
    (or_introl eq_refl) (or_intror (or_introl eq_refl)) eq_refl eq_refl eq_refl) with (st := [SDef "P" false [("x", 0%Z, false, Some (leaf "R"))]; leaf "R"]); [discriminate|reflexivity].
Qed.
Print Assumptions C359_typedefs.
Print Assumptions C360_external_refuted.
Print Assumptions C361_order_refuted.
Print Assumptions C382_different.
Print Assumptions C383_nested_refuted.
