From Verif Require Import Base Graph_spec Graph_model.
From Coq Require Import Permutation.
Local Open Scope nat_scope.

Section TreeInd.
  Variable P : tree -> Prop.
  Hypothesis H : forall i k, Forall P k -> P (Node i k).
  Fixpoint tree_ind' (t : tree) : P t :=
    match t with
    | Node i k => H i k ((fix all (l : list tree) : Forall P l :=
        match l with [] => Forall_nil _ | s :: r => Forall_cons s (tree_ind' s) (all r) end) k)
    end.
End TreeInd.
Lemma memn_in : forall x l, memn x l = true <-> In x l.
Proof.
  intros. unfold memn. rewrite existsb_exists. split.
  - intros (y & H & E). apply Nat.eqb_eq in E. now subst.
  - intros H. exists x. split; [assumption|apply Nat.eqb_refl].
Qed.
Lemma memn_out : forall x l, memn x l = false <-> ~ In x l.
Proof. intros. rewrite <- memn_in. destruct (memn x l); intuition congruence. Qed.

Lemma add_nodes_ok : forall l seen, NoDup (seen ++ l) -> add_nodes seen l = Ok (seen ++ l).
Proof.
  induction l as [|i r IH]; intros seen N; cbn [add_nodes]; [now rewrite app_nil_r|].
  assert (memn i seen = false) as ->.
  { apply memn_out. intros J. apply NoDup_remove_2 in N. apply N, in_or_app. now left. }
  rewrite IH; rewrite <- app_assoc; [reflexivity|exact N].
Qed.
Lemma add_nodes_bad : forall l seen, NoDup seen -> ~ NoDup (seen ++ l) -> add_nodes seen l = Throw.
Proof.
  induction l as [|i r IH]; intros seen Ns N; cbn [add_nodes]; [rewrite app_nil_r in N; contradiction|].
  destruct (memn i seen) eqn:M; [reflexivity|]. apply memn_out in M. apply IH.
  - apply NoDup_rev in Ns. rewrite <- (rev_involutive (seen ++ [i])). apply NoDup_rev. rewrite rev_app_distr. cbn.
    constructor; [now rewrite <- in_rev|assumption].
  - now rewrite <- app_assoc.
Qed.

(* ---- edges and a rank that decreases along them ---- *)
Lemma root_in : forall t, In (root_id t) (ids t).
Proof. intros [i k]. now left. Qed.
Lemma edge_in : forall t p c, edge t p c -> In p (ids t) /\ In c (ids t).
Proof.
  intros t p c H. induction H.
  - split; [now left|]. right. apply in_flat_map. exists c. split; [assumption|apply root_in].
  - destruct IHedge. split; right; apply in_flat_map; eauto.
Qed.
Fixpoint rank (t : tree) (x : nat) : nat :=
  match t with
  | Node i k => if x =? i then length (ids t) else fold_right Nat.max 0 (map (fun s => rank s x) k)
  end.
Lemma max_le : forall l b, (forall x, In x l -> x <= b) -> fold_right Nat.max 0 l <= b.
Proof. induction l; cbn; intros; [lia|]. pose proof (H a (or_introl eq_refl)). pose proof (IHl b). assert (fold_right Nat.max 0 l <= b) by auto. lia. Qed.
Lemma max_ge : forall l x, In x l -> x <= fold_right Nat.max 0 l.
Proof. induction l; cbn; intros x H; [destruct H|]. destruct H as [->|H]; [lia|]. specialize (IHl x H). lia. Qed.
Lemma kid_len : forall k s, In s k -> length (ids s) <= length (flat_map ids k).
Proof. induction k; cbn; intros s H; [destruct H|]. rewrite app_length. destruct H as [->|H]; [lia|]. specialize (IHk s H). lia. Qed.
Lemma rank_le : forall t x, rank t x <= length (ids t).
Proof.
  induction t as [i k IH] using tree_ind'. intros x. cbn [rank]. destruct (x =? i); [lia|].
  apply max_le. intros y Hy. apply in_map_iff in Hy as (s & <- & Hs). rewrite Forall_forall in IH.
  pose proof (IH s Hs x). pose proof (kid_len k s Hs). cbn. lia.
Qed.
Lemma rank_out : forall t x, ~ In x (ids t) -> rank t x = 0.
Proof.
  induction t as [i k IH] using tree_ind'. intros x N. cbn [rank]. cbn in N. destruct (Nat.eqb_spec x i) as [->|D]; [exfalso; auto|].
  apply Nat.le_0_r, max_le. intros y Hy. apply in_map_iff in Hy as (s & <- & Hs). rewrite Forall_forall in IH.
  rewrite (IH s Hs); [lia|]. intros J. apply N. right. apply in_flat_map. eauto.
Qed.
Lemma rank_pos : forall t x, In x (ids t) -> 1 <= rank t x.
Proof.
  induction t as [i k IH] using tree_ind'. intros x J. cbn [rank]. destruct (Nat.eqb_spec x i) as [->|D]; [cbn; lia|].
  destruct J as [J|J]; [congruence|]. apply in_flat_map in J as (s & Hs & J). rewrite Forall_forall in IH.
  pose proof (IH s Hs x J). pose proof (max_ge (map (fun s => rank s x) k) (rank s x) (in_map _ k s Hs)). lia.
Qed.
Lemma nodup_app : forall (A : Type) (a b : list A), NoDup (a ++ b) -> NoDup a /\ NoDup b /\ forall x, In x a -> In x b -> False.
Proof.
  induction a as [|x a IH]; cbn; intros b N; [split; [constructor|split; [assumption|auto]]|].
  inversion N as [|? ? H1 H2]; subst. destruct (IH b H2) as (Na & Nb & D). split; [|split; [assumption|]].
  - constructor; [intros J; apply H1, in_or_app; auto|assumption].
  - intros y [->|J] Jb; [apply H1, in_or_app; auto|eauto].
Qed.
Lemma kid_nodup : forall k s, NoDup (flat_map ids k) -> In s k -> NoDup (ids s).
Proof.
  induction k as [|a k IH]; cbn; intros s N H; [destruct H|]. apply nodup_app in N as (N1 & N2 & _). destruct H as [->|H]; auto.
Qed.
Lemma rank_kid : forall k s x, NoDup (flat_map ids k) -> In s k -> In x (ids s) ->
  fold_right Nat.max 0 (map (fun s => rank s x) k) = rank s x.
Proof.
  induction k as [|a k IH]; cbn [flat_map map fold_right]; intros s x N H J; [destruct H|].
  apply nodup_app in N as (N1 & N2 & D). destruct H as [->|H].
  - assert (fold_right Nat.max 0 (map (fun s => rank s x) k) = 0) as ->.
    { apply Nat.le_0_r, max_le. intros y Hy. apply in_map_iff in Hy as (s' & <- & Hs). rewrite rank_out; [lia|].
      intros J'. apply (D x J). apply in_flat_map. eauto. }
    apply Nat.max_0_r.
  - rewrite (IH s x N2 H J), (rank_out a x); [lia|]. intros J'. apply (D x J'). apply in_flat_map. eauto.
Qed.
Lemma rank_edge : forall t p c, NoDup (ids t) -> edge t p c -> rank t c < rank t p.
Proof.
  intros t p c N H. induction H; cbn [ids] in N; inversion N as [|? ? Ni Nk]; subst.
  - cbn [rank]. rewrite Nat.eqb_refl. destruct (Nat.eqb_spec (root_id c) i) as [E|D].
    + exfalso. apply Ni, in_flat_map. exists c. split; [assumption|]. rewrite <- E. apply root_in.
    + cbn [ids length]. apply Nat.lt_succ_r, max_le. intros y Hy. apply in_map_iff in Hy as (s & <- & Hs).
      pose proof (rank_le s (root_id c)). pose proof (kid_len k s Hs). lia.
  - destruct (edge_in s p c H0) as [Jp Jc]. specialize (IHedge (kid_nodup k s Nk H)). cbn [rank].
    assert (forall x, In x (ids s) -> x =? i = false) as NE.
    { intros x J. apply Nat.eqb_neq. intros ->. apply Ni, in_flat_map. eauto. }
    rewrite (NE p Jp), (NE c Jc), (rank_kid k s p Nk H Jp), (rank_kid k s c Nk H Jc). exact IHedge.
Qed.

(* ---- depth-first sort ---- *)
Section dfs.
  Variables (children : nat -> list nat) (rk : nat -> nat).
  Hypothesis dec : forall p c, In c (children p) -> rk c < rk p.
  Variable dom : nat -> Prop.
  Hypothesis dch : forall p c, In c (children p) -> dom c.
  Definition closed (o : list nat) : Prop := forall a p d, o = a ++ p :: d -> forall c, In c (children p) -> In c a.
  Definition running (b : nat) (v o : list nat) : Prop :=
    (forall x, In x o -> In x v) /\ (forall x, In x v -> ~ In x o -> b <= rk x).
  Lemma helper_unfold : forall f n v o, helper children (S f) n v o =
    olet p := each children f (children n) (n :: v) o in Ok (fst p, snd p ++ [n]).
  Proof.
    intros. cbn [helper]. f_equal. generalize (n :: v) o. induction (children n) as [|c r IH]; intros v' o'; [reflexivity|].
    cbn [each]. destruct (memn c v'); [apply IH|]. destruct (helper children f c v' o') as [p| |]; cbn [obind]; auto.
  Qed.
  Lemma closed_snoc : forall o n, closed o -> (forall c, In c (children n) -> In c o) -> closed (o ++ [n]).
  Proof.
    intros o n C H a p d E c Hc. destruct d as [|x d] using rev_ind.
    - apply app_inj_tail in E as [-> ->]. auto.
    - clear IHd. rewrite app_comm_cons, app_assoc in E. apply app_inj_tail in E as [E _]. eapply C; eauto.
  Qed.
  Definition result (v o v' o' : list nat) : Prop :=
    closed o' /\ NoDup o' /\ (exists w, o' = o ++ w /\ (forall x, In x w -> ~ In x v /\ dom x) /\ forall x, In x v' <-> In x v \/ In x w).
  Lemma result_running : forall b v o v' o', running b v o -> result v o v' o' -> running b v' o'.
  Proof.
    intros b v o v' o' [R1 R2] (_ & _ & w & -> & _ & V). split.
    - intros x Hx. apply V. apply in_app_or in Hx as [Hx|Hx]; auto.
    - intros x Hx No. apply V in Hx as [Hx|Hx]; [|exfalso; apply No, in_or_app; auto]. apply R2; [assumption|].
      intros Ho. apply No, in_or_app. auto.
  Qed.
  Lemma nodup_snoc : forall (o : list nat) n, NoDup o -> ~ In n o -> NoDup (o ++ [n]).
  Proof.
    intros o n N H. apply NoDup_rev in N. rewrite <- (rev_involutive (o ++ [n])). apply NoDup_rev. rewrite rev_app_distr. cbn.
    constructor; [now rewrite <- in_rev|assumption].
  Qed.
  Lemma dfs_ok : forall f,
    (forall n v o, dom n -> rk n < f -> ~ In n v -> running (S (rk n)) v o -> closed o -> NoDup o ->
      exists v' o', helper children f n v o = Ok (v', o') /\ result v o v' o' /\ In n o') /\
    (forall l b v o, (forall x, In x l -> dom x) -> (forall x, In x l -> rk x < f) -> (forall x, In x l -> rk x < b) -> running b v o -> closed o -> NoDup o ->
      exists v' o', each children f l v o = Ok (v', o') /\ result v o v' o' /\ forall x, In x l -> In x o').
  Proof.
    assert (forall v o, closed o -> NoDup o -> result v o v o) as Stop.
    { intros v o C N. split; [assumption|]. split; [assumption|]. exists []. rewrite app_nil_r.
      split; [reflexivity|]. split; [intros x []|cbn; tauto]. }
    induction f as [|f [_ IH]].
    - split; [intros; lia|]. intros l b v o _ H _ _ C N. destruct l as [|x r]; [|specialize (H x (or_introl eq_refl)); lia].
      exists v, o. split; [reflexivity|]. split; [auto|intros x []].
    - assert (forall n v o, dom n -> rk n < S f -> ~ In n v -> running (S (rk n)) v o -> closed o -> NoDup o ->
        exists v' o', helper children (S f) n v o = Ok (v', o') /\ result v o v' o' /\ In n o') as Hh.
      { intros n v o Dn Hn Nv [R1 R2] C N. rewrite helper_unfold.
        destruct (IH (children n) (rk n) (n :: v) o) as (v' & o' & E & (C' & N' & w & Ew & Aw & Vw) & A).
        - intros x Hx. eapply dch; eauto.
        - intros x Hx. apply dec in Hx. lia.
        - intros x Hx. now apply dec in Hx.
        - split; [intros x Hx; right; auto|]. intros x [<-|Hx] Ho; [lia|]. specialize (R2 x Hx Ho). lia.
        - assumption.
        - assumption.
        - rewrite E. cbn [obind fst snd]. exists v', (o' ++ [n]). split; [reflexivity|]. split; [|apply in_or_app; right; now left].
          split; [now apply closed_snoc|]. split.
          + apply nodup_snoc; [assumption|]. rewrite Ew. intros J. apply in_app_or in J as [J|J]; [auto|].
            apply (proj1 (Aw n J)). now left.
          + exists (w ++ [n]). split; [rewrite Ew, app_assoc; reflexivity|]. split.
            * intros x J. apply in_app_or in J as [J|[<-|[]]]; [|auto]. destruct (Aw x J) as [Q Dx]. split; [|exact Dx]. intros Jv. apply Q. now right.
            * intros x. rewrite Vw, in_app_iff. cbn. tauto. }
      split; [exact Hh|]. induction l as [|c r IHl]; intros b v o H0 H1 H2 R C N; cbn [each].
      + exists v, o. split; [reflexivity|]. split; [auto|intros x []].
      + pose proof (H1 c (or_introl eq_refl)) as Fc. pose proof (H2 c (or_introl eq_refl)) as Bc.
        destruct (memn c v) eqn:M.
        * apply memn_in in M. destruct (IHl b v o) as (v' & o' & E & Rs & A); auto using in_cons.
          exists v', o'. split; [exact E|]. split; [exact Rs|]. intros x [<-|Hx]; [|auto].
          destruct Rs as (_ & _ & w & -> & _). apply in_or_app. left.
          destruct (in_dec Nat.eq_dec c o) as [J|J]; [exact J|]. destruct R as [_ R2]. specialize (R2 c M J). lia.
        * apply memn_out in M. destruct (Hh c v o (H0 c (or_introl eq_refl)) Fc M) as (v1 & o1 & E1 & Rs1 & A1); auto.
          { destruct R as [R1 R2]. split; [exact R1|]. intros x Hx Ho. specialize (R2 x Hx Ho). lia. }
          rewrite E1. cbn [obind fst snd].
          assert (running b v1 o1) as R' by (eapply result_running; eauto).
          destruct Rs1 as (C1 & N1 & w1 & Ew1 & Aw1 & V1).
          destruct (IHl b v1 o1) as (v' & o' & E & Rs & A); auto using in_cons.
          destruct Rs as (C2 & N2 & w2 & Ew2 & Aw2 & V2).
          exists v', o'. split; [exact E|]. split.
          -- split; [assumption|]. split; [assumption|]. exists (w1 ++ w2). split; [rewrite Ew2, Ew1, app_assoc; reflexivity|]. split.
             ++ intros x J. apply in_app_or in J as [J|J]; [exact (Aw1 x J)|]. destruct (Aw2 x J) as [Q Dx]. split; [|exact Dx].
                intros Jv. apply Q, V1. now left.
             ++ intros x. rewrite V2, V1, in_app_iff. tauto.
          -- intros x [<-|Hx]; [|auto]. rewrite Ew2. apply in_or_app. now left.
  Qed.
End dfs.

Lemma sorted_ok : forall t children nodes, NoDup (ids t) -> Permutation nodes (ids t) ->
  (forall p c, In c (children p) <-> edge t p c) ->
  exists l, sorted children nodes = Ok l /\ Permutation l (ids t) /\ forall p c, edge t p c -> before l c p.
Proof.
  intros t children nodes N P H.
  destruct (dfs_ok children (fun x => rank t x - 1)) with (f := length nodes) (dom := fun x => In x (ids t)) as [_ D].
  { intros p c E. apply H in E. pose proof (rank_edge t p c N E). pose proof (rank_pos t c (proj2 (edge_in t p c E))). lia. }
  { intros p c E. apply H in E. apply (edge_in t p c E). }
  destruct (D nodes (length nodes) [] []) as (v & o & E & (C & No & w & Ew & Aw & V) & A).
  - intros x Hx. apply (Permutation_in _ P Hx).
  - intros x Hx. apply (Permutation_in _ P) in Hx. pose proof (rank_pos t x Hx). pose proof (rank_le t x).
    rewrite (Permutation_length P). lia.
  - intros x Hx. apply (Permutation_in _ P) in Hx. pose proof (rank_pos t x Hx). pose proof (rank_le t x).
    rewrite (Permutation_length P). lia.
  - split; [intros x []|intros x []].
  - intros a p d Q. destruct a; discriminate.
  - constructor.
  - unfold sorted. rewrite E. cbn [obind snd]. exists o. split; [reflexivity|].
    assert (Permutation o (ids t)) as Po.
    { apply NoDup_Permutation; [assumption|assumption|]. intros x. split.
      - intros J. rewrite Ew in J. now apply (Aw x J).
      - intros J. apply A. apply (Permutation_in _ (Permutation_sym P)). exact J. }
    split; [exact Po|]. intros p c Ed.
    assert (In p o) as Jp by (apply (Permutation_in _ (Permutation_sym Po)); apply (edge_in t p c Ed)).
    apply in_split in Jp as (a & d & Eo). apply H in Ed. pose proof (C a p d Eo c Ed) as Jc.
    apply in_split in Jc as (a1 & a2 & Ea). exists a1, a2, d. rewrite Eo, Ea, <- app_assoc. reflexivity.
Qed.

(* ---- levels ---- *)
Fixpoint flat (d : nat) (t : tree) : list (nat * nat) :=
  match t with Node i k => (i, d) :: flat_map (flat (S d)) k end.
Lemma flat_ids : forall t d, map fst (flat d t) = ids t.
Proof.
  induction t as [i k IH] using tree_ind'. intros d. cbn. f_equal. induction IH as [|s r Hs _ IH2]; [reflexivity|].
  cbn. rewrite map_app, Hs, IH2. reflexivity.
Qed.
Lemma flat_depth : forall t b i d, In (i, d) (flat b t) <-> exists e, d = b + e /\ depth t i e.
Proof.
  induction t as [j k IH] using tree_ind'. intros b i d. cbn [flat]. rewrite Forall_forall in IH. split.
  - intros [E|J].
    + injection E as <- <-. exists 0. split; [lia|constructor].
    + apply in_flat_map in J as (s & Hs & J). apply (IH s Hs) in J as (e & -> & De). exists (S e). split; [lia|]. econstructor; eauto.
  - intros (e & -> & De). inversion De; subst.
    + left. f_equal. lia.
    + right. apply in_flat_map. exists s. split; [assumption|]. apply IH; [assumption|]. eexists. split; [|eassumption]. lia.
Qed.
Lemma set_level_new : forall m i d, ~ In i (map fst m) -> set_level m i d = m ++ [(i, d)].
Proof.
  induction m as [|[j e] r IH]; cbn; intros i d H; [reflexivity|]. destruct (Nat.eqb_spec i j) as [->|]; [exfalso; auto|].
  rewrite IH; auto.
Qed.
Definition todo (q : list (tree * nat)) : list (nat * nat) := flat_map (fun p => flat (snd p) (fst p)) q.
Lemma todo_app : forall a b, todo (a ++ b) = todo a ++ todo b.
Proof. intros. unfold todo. apply flat_map_app. Qed.
Lemma todo_kids : forall d k, todo (map (fun c => (c, S d)) k) = flat_map (flat (S d)) k.
Proof. induction k; cbn; [reflexivity|]. unfold todo in *. now rewrite IHk. Qed.
Fixpoint maxl (l : list nat) : nat := match l with [] => 0 | x :: r => Nat.max x (maxl r) end.
Lemma maxl_app : forall a b, maxl (a ++ b) = Nat.max (maxl a) (maxl b).
Proof. induction a; cbn; intros; [reflexivity|]. rewrite IHa. lia. Qed.
Lemma bfs_ok : forall chunk fuel pops q m mx,
  NoDup (map fst (m ++ todo q)) -> length (todo q) < fuel -> pops + length (todo q) < chunk -> mx = maxl (map snd m) ->
  exists m', bfs chunk fuel pops q m mx = Ok (m', maxl (map snd m')) /\ Permutation m' (m ++ todo q).
Proof.
  induction fuel as [|f IH]; intros pops q m mx N F B Emx; [lia|]. cbn [bfs]. destruct q as [|[[i k] d] q].
  - exists m. split; [now subst|]. unfold todo. cbn. now rewrite app_nil_r.
  - change (todo ((Node i k, d) :: q)) with (((i, d) :: flat_map (flat (S d)) k) ++ todo q) in *.
    cbn [app length] in F, B. rewrite app_length in F, B.
    assert (S pops mod chunk =? 0 = false) as -> by (apply Nat.eqb_neq; rewrite Nat.mod_small by lia; lia).
    cbn [kids root_id].
    assert (~ In i (map fst m)) as Ni.
    { rewrite map_app in N. apply nodup_app in N as (_ & _ & D). intros J. apply (D i J). now left. }
    rewrite set_level_new by assumption.
    assert (Permutation ((m ++ [(i, d)]) ++ todo (q ++ map (fun c => (c, S d)) k)) (m ++ ((i, d) :: flat_map (flat (S d)) k) ++ todo q)) as Pq.
    { rewrite todo_app, todo_kids, <- app_assoc. apply Permutation_app_head. cbn. constructor. apply Permutation_app_comm. }
    destruct (IH (S pops) (q ++ map (fun c => (c, S d)) k) (m ++ [(i, d)]) (Nat.max mx d)) as (m' & E & P).
    + eapply Permutation_NoDup; [|exact N]. apply Permutation_map, Permutation_sym, Pq.
    + rewrite todo_app, todo_kids, app_length. lia.
    + rewrite todo_app, todo_kids, app_length. lia.
    + rewrite map_app, maxl_app, Emx. cbn. lia.
    + exists m'. split; [exact E|]. now rewrite P.
Qed.
Lemma bfs_ub : forall chunk fuel pops q m mx, 0 < chunk ->
  pops < chunk -> chunk <= pops + length (todo q) -> length (todo q) < fuel -> bfs chunk fuel pops q m mx = UB.
Proof.
  induction fuel as [|f IH]; intros pops q m mx C L B F; [lia|]. cbn [bfs]. destruct q as [|[[i k] d] q]; [exfalso; cbn in B; lia|].
  change (todo ((Node i k, d) :: q)) with (((i, d) :: flat_map (flat (S d)) k) ++ todo q) in *.
  cbn [app length] in F, B. rewrite app_length in F, B. destruct (S pops mod chunk =? 0) eqn:M; [reflexivity|].
  apply Nat.eqb_neq in M. assert (S pops <> chunk) by (intros Q; apply M; rewrite Q; apply Nat.mod_same; lia).
  cbn [kids]. apply IH; try lia; rewrite todo_app, todo_kids, app_length; lia.
Qed.
Lemma maxl_ge : forall l x, In x l -> x <= maxl l.
Proof. induction l; cbn; intros x H; [destruct H|]. destruct H as [->|H]; [lia|]. specialize (IHl x H). lia. Qed.
Lemma maxl_in : forall l, l <> [] -> In (maxl l) l.
Proof.
  induction l as [|a r IH]; intros H; [congruence|]. cbn. destruct r as [|b r'].
  - left. cbn. lia.
  - destruct (Nat.max_spec a (maxl (b :: r'))) as [[_ ->]|[_ ->]]; [right; apply IH; discriminate|now left].
Qed.
Lemma filter_perm : forall (A : Type) (f : A -> bool) a b, Permutation a b -> Permutation (filter f a) (filter f b).
Proof.
  induction 1; cbn; auto.
  - destruct (f x); auto.
  - destruct (f x), (f y); auto. apply perm_swap.
  - etransitivity; eauto.
Qed.
Lemma leveled_ok : forall chunk t, NoDup (ids t) -> length (ids t) < chunk ->
  exists ls, leveled chunk t = Ok ls /\
    (forall d l, nth_error ls d = Some l -> NoDup l /\ l <> [] /\ forall i, In i l <-> depth t i d) /\
    (forall i d, depth t i d -> d < length ls).
Proof.
  intros chunk t N B. unfold leveled.
  assert (todo [(t, 0)] = flat 0 t) as Et by (unfold todo; cbn; apply app_nil_r).
  assert (length (flat 0 t) = length (ids t)) as El by (rewrite <- (flat_ids t 0), map_length; reflexivity).
  destruct (bfs_ok chunk (S (length (ids t))) 0 [(t, 0)] [] 0) as (m & E & P); rewrite ?Et in *; cbn [app].
  - now rewrite flat_ids.
  - lia.
  - lia.
  - reflexivity.
  - rewrite E. cbn [obind fst snd]. cbn [app] in P. eexists. split; [reflexivity|].
    assert (forall i d, In (i, d) m <-> depth t i d) as Dm.
    { intros i d. split.
      - intros J. apply (Permutation_in _ P), flat_depth in J as (e & -> & De). exact De.
      - intros De. apply (Permutation_in _ (Permutation_sym P)), flat_depth. exists d. auto. }
    assert (NoDup (map fst m)) as Nm by (eapply Permutation_NoDup; [apply Permutation_map, Permutation_sym, P|rewrite flat_ids; exact N]).
    assert (forall e j d, depth t j e -> d <= e -> exists i, depth t i d) as Down.
    { clear. intros e j d H. revert d. induction H; intros d' Hd.
      - assert (d' = 0) as -> by lia. exists i. constructor.
      - destruct d' as [|d']; [exists i; constructor|]. destruct (IHdepth d') as (i' & Hi); [lia|]. exists i'. econstructor; eauto. }
    split.
    + intros d l Hl. rewrite nth_error_map in Hl. destruct (nth_error (seq 0 (S (maxl (map snd m)))) d) as [d'|] eqn:Es; [|discriminate].
      assert (d < S (maxl (map snd m))) as Ld by (rewrite <- (seq_length (S (maxl (map snd m))) 0); apply nth_error_Some; congruence).
      assert (d' = d) as ->.
      { apply nth_error_nth with (d := 0) in Es. rewrite seq_nth in Es by assumption. lia. }
      cbn in Hl. injection Hl as <-.
      assert (forall i, In i (map fst (filter (fun e => snd e =? d) m)) <-> depth t i d) as Q.
      { intros i. rewrite in_map_iff. split.
        - intros ([j e] & Ej & J). cbn in Ej. subst j. apply filter_In in J as [J Ee]. cbn in Ee. apply Nat.eqb_eq in Ee. subst e. now apply Dm.
        - intros De. exists (i, d). split; [reflexivity|]. apply filter_In. split; [now apply Dm|]. apply Nat.eqb_refl. }
      split; [|split; [|exact Q]].
      * clear - Nm. induction m as [|[i e] r IH]; cbn; [constructor|]. cbn in Nm. inversion Nm as [|? ? H1 H2]; subst.
        destruct (e =? d); [|auto]. cbn. constructor; [|auto]. intros J. apply H1. apply in_map_iff in J as (p & Ep & J).
        apply filter_In in J as [J _]. apply in_map_iff. eauto.
      * assert (In (maxl (map snd m)) (map snd m)) as J.
        { apply maxl_in. intros Q0. apply map_eq_nil in Q0. assert (In (root_id t, 0) m) as J.
          { apply Dm. destruct t. constructor. }
          rewrite Q0 in J. destruct J. }
        apply in_map_iff in J as ([j e] & Ej & J). cbn in Ej. apply Dm in J. destruct (Down e j d J) as (i & Di); [lia|].
        intros Q0. apply Q in Di. rewrite Q0 in Di. destruct Di.
    + intros i d De. rewrite map_length, seq_length. apply Dm in De. apply (in_map snd) in De. apply maxl_ge in De. cbn in De. lia.
Qed.
Lemma leveled_ub : forall chunk t, 0 < chunk -> chunk <= length (ids t) -> leveled chunk t = UB.
Proof.
  intros chunk t C B. unfold leveled. assert (length (todo [(t, 0)]) = length (ids t)) as El.
  { unfold todo. cbn. rewrite app_nil_r, <- (flat_ids t 0), map_length. reflexivity. }
  rewrite bfs_ub; [reflexivity|lia|lia|lia|lia].
Qed.
