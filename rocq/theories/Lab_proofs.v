From Verif Require Import Base Lab_spec Lab_model.
From Coq Require Import Permutation.
Local Open Scope string_scope.
Local Open Scope list_scope.

Lemma find_in_In : forall A (l : list (string * A)) n a, find_in l n = Some a -> In (n, a) l.
Proof.
  intros A l n a H. unfold find_in in H. destruct (find _ l) as [[k v]|] eqn:E; [|discriminate H]. cbn in H. injection H as ->.
  apply find_some in E. destruct E as (Hi & Hk). cbn in Hk. apply String.eqb_eq in Hk. subst k. exact Hi.
Qed.
Lemma find_in_none : forall A (l : list (string * A)) n, find_in l n = None <-> ~ In n (map fst l).
Proof.
  intros A l n. unfold find_in. induction l as [|[k v] l IH]; cbn; [split; [intros _ []|reflexivity]|]. destruct (String.eqb_spec k n) as [E|E]; cbn.
  - split; [discriminate|intros H; exfalso; apply H; left; exact E].
  - rewrite IH. split; intros H; [intros [X|X]; [exact (E X)|exact (H X)]|intros X; apply H; right; exact X].
Qed.
Lemma find_in_snoc : forall A (l : list (string * A)) n a m, find_in l n = None ->
  find_in (l ++ [(n, a)])%list m = if String.eqb n m then Some a else find_in l m.
Proof.
  intros A l n a m H. unfold find_in in *. induction l as [|[k v] l IH]; cbn in *; [destruct (String.eqb n m); reflexivity|].
  destruct (String.eqb_spec k n) as [E|E]; [discriminate H|]. specialize (IH H). destruct (String.eqb_spec k m) as [F|F]; cbn; [|exact IH].
  destruct (String.eqb_spec n m) as [G|G]; [exfalso; apply E; congruence|reflexivity].
Qed.
Lemma nodup_find : forall A (l : list (string * A)) n a, NoDup (map fst l) -> In (n, a) l -> find_in l n = Some a.
Proof.
  intros A l n a. unfold find_in. induction l as [|[k v] l IH]; intros Nd Hi; [destruct Hi|]. cbn in *. inversion Nd as [|x y N1 N2]; subst.
  destruct Hi as [Hi|Hi]; [injection Hi as -> ->; rewrite String.eqb_refl; reflexivity|]. destruct (String.eqb_spec k n) as [E|E]; [|apply IH; assumption].
  exfalso. apply N1. subst k. change n with (fst (n, a)). apply in_map, Hi.
Qed.

Lemma given_snoc : forall h c g n b, given (h ++ [c]) g n b <-> given h g n b \/ c = Label g n b /\ forall x, ~ given h g n x.
Proof.
  intros h c g n b. split.
  - intros (h1 & h2 & E & N). destruct (@exists_last _ (Label g n b :: h2) ltac:(discriminate)) as (l & z & El). rewrite El, app_assoc in E.
    apply app_inj_tail in E. destruct E as (-> & ->). destruct h2 as [|y h2].
    + assert (l = [] /\ z = Label g n b) as (-> & ->) by (destruct l as [|? [|? ?]]; try discriminate El; injection El as <-; split; reflexivity).
      right. split; [reflexivity|]. intros x (a1 & a2 & Ea & _). rewrite app_nil_r in Ea. apply (N x). rewrite Ea. apply in_or_app. right. left. reflexivity.
    + left. destruct l as [|w l]; [discriminate El|]. injection El as <- _. exists h1, l. split; [reflexivity|exact N].
  - intros [(h1 & h2 & -> & N)|(-> & N)].
    + exists h1, (h2 ++ [c]). split; [rewrite <- app_assoc; reflexivity|exact N].
    + exists h, []. split; [reflexivity|]. intros x Hx.
      assert (X : exists y, given h g n y).
      { clear N b. induction h as [|d h IH] using rev_ind; [destruct Hx|]. apply in_app_or in Hx. destruct Hx as [Hx|[->|[]]].
        - destruct (IH Hx) as (y & h1 & h2 & -> & M). exists y, h1, (h2 ++ [d]). split; [rewrite <- app_assoc; reflexivity|exact M].
        - destruct (in_dec (fun p q : call => ltac:(decide equality; try apply Nat.eq_dec; apply string_dec)) (Label g n x) h) as [Hi|Hi].
          + destruct (IH Hi) as (y & h1 & h2 & -> & M). exists y, h1, (h2 ++ [Label g n x]). split; [rewrite <- app_assoc; reflexivity|exact M].
          + destruct (existsb (fun q => match q with Label g' n' _ => Nat.eqb g' g && String.eqb n' n | _ => false end) h) eqn:Ex.
            * apply existsb_exists in Ex. destruct Ex as (q & Hq & Q). destruct q as [g' n' b'| |]; try discriminate Q. apply andb_prop in Q. destruct Q as (Q1 & Q2).
              apply Nat.eqb_eq in Q1. apply String.eqb_eq in Q2. subst g' n'.
              assert (Y : exists y, given h g n y).
              { clear IH Hi. revert b' Hq. induction h as [|d h IH2]; intros b' Hq; [destruct Hq|].
                destruct d as [g2 n2 b2|g2 n2|d2 g2].
                - destruct (Nat.eq_dec g2 g) as [->|Ng]; [destruct (string_dec n2 n) as [->|Nn]|].
                  + exists b2, [], h. split; [reflexivity|intros ? []].
                  + destruct Hq as [Hq|Hq]; [congruence|]. destruct (IH2 _ Hq) as (y & a1 & a2 & -> & M). exists y, (Label g n2 b2 :: a1), a2. split; [reflexivity|].
                    intros c [Hc|Hc]; [congruence|exact (M c Hc)].
                  + destruct Hq as [Hq|Hq]; [congruence|]. destruct (IH2 _ Hq) as (y & a1 & a2 & -> & M). exists y, (Label g2 n2 b2 :: a1), a2. split; [reflexivity|].
                    intros c [Hc|Hc]; [congruence|exact (M c Hc)].
                - destruct Hq as [Hq|Hq]; [discriminate Hq|]. destruct (IH2 _ Hq) as (y & a1 & a2 & -> & M). exists y, (Var g2 n2 :: a1), a2. split; [reflexivity|].
                  intros c [Hc|Hc]; [discriminate Hc|exact (M c Hc)].
                - destruct Hq as [Hq|Hq]; [discriminate Hq|]. destruct (IH2 _ Hq) as (y & a1 & a2 & -> & M). exists y, (Inline d2 g2 :: a1), a2. split; [reflexivity|].
                  intros c [Hc|Hc]; [discriminate Hc|exact (M c Hc)]. }
              destruct Y as (y & h1 & h2 & -> & M). exists y, h1, (h2 ++ [Label g n x]). split; [rewrite <- app_assoc; reflexivity|exact M].
            * exists x, h, []. split; [reflexivity|]. intros c Hc. assert (T : existsb (fun q => match q with Label g' n' _ => Nat.eqb g' g && String.eqb n' n | _ => false end) h = true).
              { apply existsb_exists. exists (Label g n c). split; [exact Hc|]. rewrite Nat.eqb_refl, String.eqb_refl. reflexivity. }
              congruence. }
      destruct X as (y & Y). exact (N y Y).
Qed.

Lemma after_snoc : forall home h c, after home (h ++ [c]) = fst (run (after home h) c).
Proof. intros home h c. unfold after. rewrite fold_left_app. reflexivity. Qed.

Lemma named_given : forall home h, (forall g n b, get_named_block (after home h) g n = Some b <-> given h g n b) /\ forall g, NoDup (labels (after home h) g).
Proof.
  intros home h. induction h as [|c h (IH & Nd)] using rev_ind.
  - split; [|intros g; constructor]. intros g n b. split; [discriminate|]. intros (h1 & h2 & E & _). destruct h1; discriminate E.
  - assert (Skip : s_named (after home (h ++ [c])) = s_named (after home h) -> (forall g n b, c <> Label g n b \/ exists x, given h g n x) ->
               (forall g n b, get_named_block (after home (h ++ [c])) g n = Some b <-> given (h ++ [c]) g n b) /\ forall g, NoDup (labels (after home (h ++ [c])) g)).
    { intros E K. split; [|intros g; unfold labels; rewrite E; apply Nd]. intros g n b. unfold get_named_block. rewrite E. fold (get_named_block (after home h) g n).
      rewrite IH, given_snoc. split; [intros X; left; exact X|]. intros [X|(X & Y)]; [exact X|]. exfalso. destruct (K g n b) as [Z|(x & Z)]; [exact (Z X)|exact (Y x Z)]. }
    destruct c as [g0 n0 b0|g0 n0|d0 g0].
    + destruct (find_in (s_named (after home h) g0) n0) as [b1|] eqn:E.
      * apply Skip.
        -- rewrite after_snoc. cbn [run]. unfold add_named_block. rewrite E. reflexivity.
        -- intros g n b. destruct (Nat.eq_dec g g0) as [->|]; [destruct (string_dec n n0) as [->|]|]; [right; exists b1; apply IH; exact E|left; congruence|left; congruence].
      * assert (F : after home (h ++ [Label g0 n0 b0]) = {| s_named := set (s_named (after home h)) g0 (s_named (after home h) g0 ++ [(n0, b0)]); s_vars := s_vars (after home h); s_home := s_home (after home h) |})
          by (rewrite after_snoc; cbn [run]; unfold add_named_block; rewrite E; reflexivity).
        rewrite F. split.
        -- intros g n b. unfold get_named_block. cbn [s_named]. unfold set. rewrite given_snoc, <- IH. unfold get_named_block. destruct (Nat.eqb_spec g g0) as [->|Ng].
           ++ rewrite find_in_snoc by exact E. destruct (String.eqb_spec n0 n) as [<-|Nn].
              ** split; [intros X; injection X as <-; right; split; [reflexivity|]|]. { intros x X. apply IH in X. unfold get_named_block in X. congruence. }
                 intros [X|(X & _)]; congruence.
              ** split; [intros X; left; exact X|intros [X|(X & _)]; [exact X|congruence]].
           ++ split; [intros X; left; exact X|intros [X|(X & _)]; [exact X|congruence]].
        -- intros g. unfold labels. cbn [s_named]. unfold set. destruct (Nat.eqb_spec g g0) as [->|Ng]; [|apply Nd]. rewrite map_app. cbn [map fst].
           apply (Permutation_NoDup (Permutation_cons_append _ _)). constructor; [apply find_in_none; exact E|apply Nd].
    + apply Skip; [|intros; left; discriminate]. rewrite after_snoc. cbn [run]. unfold add_var. destruct (existsb _ _); reflexivity.
    + apply Skip; [|intros; left; discriminate]. rewrite after_snoc. reflexivity.
Qed.

Lemma index_spec : forall s g names,
  (forall b n, In (b, n) (index_named_block s g names) -> get_named_block s g n = Some b /\ In n names) /\
  (forall n b, In n names -> get_named_block s g n = Some b -> exists m, In (b, m) (index_named_block s g names)).
Proof.
  intros s g names. induction names as [|x names (A & B)] using rev_ind; [split; intros ? ? []|].
  unfold index_named_block in *. rewrite fold_left_app. cbn [fold_left]. set (l := fold_left _ names []) in *.
  destruct (get_named_block s g x) as [c|] eqn:E.
  - destruct (existsb (fun e => Nat.eqb (fst e) c) l) eqn:Ex.
    + split; [intros b n H; apply A in H; split; [apply H|apply in_or_app; left; apply H]|]. intros n b Hn Hb. apply in_app_or in Hn. destruct Hn as [Hn|[<-|[]]]; [exact (B n b Hn Hb)|].
      apply existsb_exists in Ex. destruct Ex as ([k m] & He & Hk). cbn in Hk. apply Nat.eqb_eq in Hk. exists m. replace b with k by congruence. exact He.
    + split.
      * intros b n H. apply in_app_or in H. destruct H as [H|[H|[]]]; [apply A in H; split; [apply H|apply in_or_app; left; apply H]|]. injection H as <- <-. split; [exact E|apply in_or_app; right; left; reflexivity].
      * intros n b Hn Hb. apply in_app_or in Hn. destruct Hn as [Hn|[<-|[]]]; [destruct (B n b Hn Hb) as (m & Hm); exists m; apply in_or_app; left; exact Hm|].
        exists x. apply in_or_app. right. left. congruence.
  - split; [intros b n H; apply A in H; split; [apply H|apply in_or_app; left; apply H]|]. intros n b Hn Hb. apply in_app_or in Hn. destruct Hn as [Hn|[<-|[]]]; [exact (B n b Hn Hb)|congruence].
Qed.

Lemma label_cases : forall home h g names b, Permutation names (labels (after home h) g) ->
  (exists n, given h g n b /\ block_label (after home h) g names b = (" :" ++ n)%string) \/ (forall n, ~ given h g n b) /\ block_label (after home h) g names b = "".
Proof.
  intros home h g names b Pm. destruct (named_given home h) as (IH & Nd). destruct (index_spec (after home h) g names) as (A & B). unfold block_label.
  destruct (find _ _) as [[k n]|] eqn:E.
  - left. apply find_some in E. destruct E as (Hi & Hk). cbn in Hk. apply Nat.eqb_eq in Hk. subst k. exists n. split; [apply IH; apply A; exact Hi|reflexivity].
  - right. split; [|reflexivity]. intros n Hg. apply IH in Hg. destruct (B n b) as (m & Hm).
    + apply (Permutation_in n (Permutation_sym Pm)). unfold labels. apply find_in_In in Hg. change n with (fst (n, b)). apply in_map. exact Hg.
    + exact Hg.
    + apply (find_none _ _ E) in Hm. cbn in Hm. rewrite Nat.eqb_refl in Hm. discriminate Hm.
Qed.

Lemma home_fixed : forall home h, at_home home h -> s_home (after home h) = home.
Proof.
  intros home h. induction h as [|c h IH] using rev_ind; intros A; [reflexivity|].
  assert (K : s_home (after home h) = home) by (apply IH; intros d Hd; apply A; apply in_or_app; left; exact Hd).
  specialize (A c ltac:(apply in_or_app; right; left; reflexivity)). rewrite after_snoc. destruct c as [g n b|g n|d g]; [| |destruct A]; cbn [run].
  - unfold add_named_block. destruct (find_in _ _); exact K.
  - unfold add_var. destruct (existsb _ _); exact K.
Qed.
Lemma vars_nodup : forall home h g, NoDup (s_vars (after home h) g).
Proof.
  intros home h. induction h as [|c h IH] using rev_ind; intros g; [constructor|]. rewrite after_snoc. destruct c as [g0 n b|g0 n|d g0]; cbn [run].
  - unfold add_named_block. destruct (find_in _ _); apply IH.
  - unfold add_var. destruct (existsb _ _) eqn:E; [apply IH|]. cbn [fst s_vars]. unfold set. destruct (Nat.eqb_spec g g0) as [->|]; [|apply IH].
    apply (Permutation_NoDup (Permutation_cons_append _ _)). constructor; [|apply IH]. intros Hi.
    assert (T : existsb (String.eqb n) (s_vars (after home h) g0) = true) by (apply existsb_exists; exists n; split; [exact Hi|apply String.eqb_refl]). congruence.
  - apply IH.
Qed.

(* children *)
Lemma memb : forall n l, existsb (String.eqb n) l = true <-> In n l.
Proof. intros n l. rewrite existsb_exists. split; [intros (x & H & E); apply String.eqb_eq in E; subst x; exact H|intros H; exists n; split; [exact H|apply String.eqb_refl]]. Qed.
Lemma memb_not : forall n l, ~ In n l -> existsb (String.eqb n) l = false.
Proof. intros n l H. destruct (existsb (String.eqb n) l) eqn:E; [|reflexivity]. apply memb in E. contradiction. Qed.
Lemma find_in_erase : forall A (l : list (string * A)) n m, find_in (erase l n) m = if String.eqb n m then None else find_in l m.
Proof.
  intros A l n m. unfold find_in, erase. induction l as [|[k v] l IH]; cbn [filter find fst]; [destruct (String.eqb n m); reflexivity|].
  destruct (String.eqb_spec k n) as [E|E]; cbn [negb find fst].
  - rewrite IH. destruct (String.eqb_spec n m) as [F|F]; [reflexivity|]. destruct (String.eqb_spec k m) as [G|G]; [congruence|reflexivity].
  - destruct (String.eqb_spec k m) as [G|G]; cbn [option_map snd]; [|exact IH]. destruct (String.eqb_spec n m) as [F|F]; [congruence|reflexivity].
Qed.
Lemma find_in_emplace : forall A (l : list (string * A)) n a m,
  find_in (emplace l n a) m = match find_in l n with Some _ => find_in l m | None => if String.eqb n m then Some a else find_in l m end.
Proof. intros A l n a m. unfold emplace. destruct (find_in l n) eqn:E; [reflexivity|apply find_in_snoc, E]. Qed.
Lemma map_other : forall n m l, ~ In n l -> map (fun x => if String.eqb x n then m else x) l = l.
Proof.
  intros n m l H. induction l as [|x l IH]; [reflexivity|]. cbn [map]. rewrite IH by (intros X; apply H; right; exact X). destruct (String.eqb_spec x n) as [E|E]; [|reflexivity].
  exfalso. apply H. left. exact E.
Qed.
Lemma filter_other : forall n l, ~ In n l -> filter (fun x => negb (String.eqb x n)) l = l.
Proof.
  intros n l H. induction l as [|x l IH]; [reflexivity|]. cbn [filter]. rewrite IH by (intros X; apply H; right; exact X). destruct (String.eqb_spec x n) as [E|E]; [|reflexivity].
  exfalso. apply H. left. exact E.
Qed.
Lemma kafter_snoc : forall h c, kafter (h ++ [c]) = fst (kdo (kafter h) c).
Proof. intros h c. unfold kafter. rewrite fold_left_app. reflexivity. Qed.

(* the comment of a name: what the record of the child says, nothing for another name *)
Definition agrees (k : kids) (s : kstate) : Prop :=
  k_names s = names k /\ NoDup (names k) /\ (forall n o, In (n, o) k -> find_in (k_comments s) n = o) /\ (forall n, ~ In n (names k) -> find_in (k_comments s) n = None).

Lemma story_agrees : forall h k, story h k -> agrees k (kafter h).
Proof.
  intros h k H. induction H as [|h k n H IH Hn|h k n H IH Hn|h k1 k2 n t H IH|h k1 k2 n m o H IH Hm|h k n m H IH Hd|h k1 k2 n o H IH|h k n H IH Hn].
  - split; [reflexivity|]. split; [constructor|]. split; [intros ? ? []|reflexivity].
  - destruct IH as (A & B & C & D). rewrite kafter_snoc. cbn [kdo]. rewrite A, memb_not by exact Hn. cbn [fst]. unfold agrees, names in *. cbn [k_names k_comments]. rewrite map_app. cbn [map fst].
    split; [reflexivity|]. split; [apply (Permutation_NoDup (Permutation_cons_append _ _)); constructor; assumption|]. split.
    + intros x o Hx. apply in_app_or in Hx. destruct Hx as [Hx|[Hx|[]]]; [exact (C x o Hx)|]. injection Hx as <- <-. apply D, Hn.
    + intros x Hx. apply D. intros Y. apply Hx. apply in_or_app. left. exact Y.
  - destruct IH as (A & B & C & D). rewrite kafter_snoc. cbn [kdo]. rewrite A. apply memb in Hn. rewrite Hn. cbn [fst]. repeat split; assumption.
  - destruct IH as (A & B & C & D). rewrite kafter_snoc. cbn [kdo fst]. unfold agrees, names in *. cbn [k_names k_comments].
    assert (En : map fst (k1 ++ (n, Some t) :: k2) = map fst (k1 ++ (n, None) :: k2)) by (rewrite !map_app; reflexivity). rewrite En.
    split; [exact A|]. split; [exact B|]. assert (Fn : find_in (k_comments (kafter h)) n = None) by (apply (C n None), in_or_app; right; left; reflexivity).
    split; intros x.
    + intros o Hx. rewrite find_in_emplace, Fn. apply in_app_or in Hx. destruct (String.eqb_spec n x) as [<-|Nx].
      * rewrite map_app in B. cbn [map fst] in B. apply NoDup_remove_2 in B. destruct Hx as [Hx|[Hx|Hx]]; [|injection Hx as <-; reflexivity|].
        -- exfalso. apply B, in_or_app. left. change n with (fst (n, o)). apply in_map, Hx.
        -- exfalso. apply B, in_or_app. right. change n with (fst (n, o)). apply in_map, Hx.
      * apply C, in_or_app. destruct Hx as [Hx|[Hx|Hx]]; [left; exact Hx|congruence|right; right; exact Hx].
    + intros Hx. rewrite find_in_emplace, Fn. destruct (String.eqb_spec n x) as [<-|Nx]; [|apply D, Hx]. exfalso. apply Hx. rewrite map_app. apply in_or_app. right. left. reflexivity.
  - destruct IH as (A & B & C & D). rewrite kafter_snoc. cbn [kdo]. rewrite A. assert (Hn : In n (names (k1 ++ (n, o) :: k2))) by (unfold names; rewrite map_app; apply in_or_app; right; left; reflexivity).
    pose proof Hn as Hn'. apply memb in Hn'. rewrite Hn'. cbn [negb]. rewrite (memb_not m) by exact Hm. cbn [fst]. unfold agrees. cbn [k_names k_comments].
    assert (Nm : n <> m) by (intros ->; exact (Hm Hn)). assert (Fm : find_in (k_comments (kafter h)) m = None) by (apply D, Hm).
    assert (Fn : find_in (k_comments (kafter h)) n = o) by (apply C, in_or_app; right; left; reflexivity).
    assert (En : names (k1 ++ (m, o) :: k2) = map fst k1 ++ m :: map fst k2) by (unfold names; rewrite map_app; reflexivity). rewrite En.
    unfold names in *. rewrite map_app in *. cbn [map fst] in *. pose proof (NoDup_remove_2 _ _ _ B) as B2. pose proof (NoDup_remove_1 _ _ _ B) as B1.
    assert (N1 : ~ In n (map fst k1)) by (intros X; apply B2, in_or_app; left; exact X). assert (N2 : ~ In n (map fst k2)) by (intros X; apply B2, in_or_app; right; exact X).
    assert (Ff : forall x, find_in (match find_in (k_comments (kafter h)) n with Some t => emplace (erase (k_comments (kafter h)) n) m t | None => k_comments (kafter h) end) x
                  = if String.eqb n x then None else if String.eqb m x then o else find_in (k_comments (kafter h)) x).
    { intros x. rewrite Fn. destruct o as [t|].
      - rewrite find_in_emplace, !find_in_erase. destruct (String.eqb_spec n m) as [|_]; [contradiction|]. rewrite Fm. destruct (String.eqb_spec m x) as [<-|]; [|reflexivity].
        destruct (String.eqb_spec n m); [contradiction|reflexivity].
      - destruct (String.eqb_spec n x) as [<-|]; [exact Fn|]. destruct (String.eqb_spec m x) as [<-|]; [exact Fm|reflexivity]. }
    split; [rewrite map_app; cbn [map]; rewrite String.eqb_refl, !map_other by assumption; reflexivity|]. split.
    + apply (Permutation_NoDup (Permutation_middle _ _ _)). constructor; [|exact B1]. intros X. apply Hm. apply in_app_or in X. apply in_or_app. destruct X as [X|X]; [left; exact X|right; right; exact X].
    + split; intros x.
      * intros p Hx. rewrite Ff. apply in_app_or in Hx.
        assert (Old : In (x, p) k1 \/ In (x, p) k2 -> (if String.eqb n x then None else if String.eqb m x then o else find_in (k_comments (kafter h)) x) = p).
        { intros Hy. assert (Hz : In x (map fst k1) \/ In x (map fst k2)) by (change x with (fst (x, p)); destruct Hy as [Hy|Hy]; [left|right]; apply in_map, Hy).
          destruct (String.eqb_spec n x) as [<-|_]; [destruct Hz; contradiction|]. destruct (String.eqb_spec m x) as [<-|_].
          - exfalso. apply Hm, in_or_app. destruct Hz as [Hz|Hz]; [left; exact Hz|right; right; exact Hz].
          - apply C, in_or_app. destruct Hy as [Hy|Hy]; [left; exact Hy|right; right; exact Hy]. }
        destruct Hx as [Hx|[Hx|Hx]]; [apply Old; left; exact Hx| |apply Old; right; exact Hx]. injection Hx as <- <-.
        destruct (String.eqb_spec n m); [contradiction|]. rewrite String.eqb_refl. reflexivity.
      * intros Hx. rewrite Ff. destruct (String.eqb_spec n x) as [|Nx]; [reflexivity|]. destruct (String.eqb_spec m x) as [<-|_]; [exfalso; apply Hx, in_or_app; right; left; reflexivity|].
        apply D. intros X. apply Hx. apply in_app_or in X. apply in_or_app. destruct X as [X|[X|X]]; [left; exact X|congruence|right; right; exact X].
  - destruct IH as (A & B & C & D). rewrite kafter_snoc. cbn [kdo]. rewrite A. destruct Hd as [Hd|Hd]; [rewrite memb_not by exact Hd; cbn [negb fst]; repeat split; assumption|].
    apply memb in Hd. rewrite Hd. destruct (negb _); cbn [fst]; repeat split; assumption.
  - destruct IH as (A & B & C & D). rewrite kafter_snoc. cbn [kdo]. rewrite A. assert (Hn : In n (names (k1 ++ (n, o) :: k2))) by (unfold names; rewrite map_app; apply in_or_app; right; left; reflexivity).
    apply memb in Hn. rewrite Hn. cbn [fst]. unfold agrees. cbn [k_names k_comments].
    assert (En : names (k1 ++ k2) = map fst k1 ++ map fst k2) by (unfold names; apply map_app). rewrite En. unfold names in *. rewrite map_app in *. cbn [map fst] in *.
    pose proof (NoDup_remove_2 _ _ _ B) as B2. pose proof (NoDup_remove_1 _ _ _ B) as B1.
    assert (N1 : ~ In n (map fst k1)) by (intros X; apply B2, in_or_app; left; exact X). assert (N2 : ~ In n (map fst k2)) by (intros X; apply B2, in_or_app; right; exact X).
    split; [rewrite filter_app; cbn [filter]; rewrite String.eqb_refl; cbn [negb]; rewrite !filter_other by assumption; reflexivity|]. split; [exact B1|]. split; intros x.
    + intros p Hx. rewrite find_in_erase. assert (Hz : In x (map fst k1 ++ map fst k2)) by (rewrite <- map_app; change x with (fst (x, p)); apply in_map, Hx).
      destruct (String.eqb_spec n x) as [<-|_]; [contradiction|]. apply C. apply in_app_or in Hx. apply in_or_app. destruct Hx as [Hx|Hx]; [left; exact Hx|right; right; exact Hx].
    + intros Hx. rewrite find_in_erase. destruct (String.eqb_spec n x) as [|Nx]; [reflexivity|]. apply D. intros X. apply Hx. apply in_app_or in X. apply in_or_app.
      destruct X as [X|[X|X]]; [left; exact X|congruence|right; exact X].
  - destruct IH as (A & B & C & D). rewrite kafter_snoc. cbn [kdo]. rewrite A, memb_not by exact Hn. cbn [fst]. repeat split; assumption.
Qed.
