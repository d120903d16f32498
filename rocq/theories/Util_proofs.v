(* Proofs about Util_model. *)
From Coq Require Import Sorting.Sorted.
From Verif Require Import Base Slice_spec Util_spec Util_model.
Local Open Scope Z_scope.

(* ---- clog2 ---- *)
Lemma clog2_ok : forall n, 1 <= n ->
  exists k, clog2 n = Ok k /\ 1 <= k /\ n <= 2 ^ k /\ forall j, 1 <= j -> n <= 2 ^ j -> k <= j.
Proof.
  intros n H. unfold clog2. destruct (n =? 0) eqn:E; [lia|].
  exists (Z.max 1 (Z.log2_up n)). split; [reflexivity|]. split; [lia|].
  split.
  - destruct (Z.eq_dec n 1) as [->|N]; [cbn; lia|].
    destruct (Z.log2_up_spec n) as [_ U]; [lia|].
    apply Z.le_trans with (1 := U). apply Z.pow_le_mono_r; lia.
  - intros j J P. apply Z.max_lub; [exact J|].
    apply Z.log2_up_le_mono in P. rewrite Z.log2_up_pow2 in P by lia. exact P.
Qed.

(* ---- flattening ---- *)
Lemma fold_mul : forall l a, fold_left Z.mul l a = a * prod l.
Proof. induction l as [|x l IH]; intros a; cbn [fold_left prod]; [lia|]. rewrite IH. lia. Qed.
Lemma num_slices_prod : forall l, num_slices l = prod l.
Proof. intros. unfold num_slices. rewrite fold_mul. lia. Qed.
Lemma prod_pos : forall l, Forall (fun d => 0 < d) l -> 0 < prod l.
Proof. induction 1; cbn [prod]; nia. Qed.
Lemma prod_app : forall a b, prod (a ++ b) = prod a * prod b.
Proof. induction a as [|x a IH]; intros; cbn [prod app]; [lia|]. rewrite IH. lia. Qed.
Lemma prod_rev : forall a, prod (rev a) = prod a.
Proof. induction a as [|x a IH]; cbn [rev]; [reflexivity|]. rewrite prod_app, IH. cbn [prod]. lia. Qed.

Lemma flatten_loop_app : forall l d i, Forall (fun d => 0 < d) l ->
  flatten_loop (l ++ [d]) i = flatten_loop l i ++ [(i / prod l) mod d].
Proof.
  induction l as [|x l IH]; intros d i H; cbn [flatten_loop app prod].
  - rewrite Z.div_1_r. reflexivity.
  - apply Forall_cons_iff in H as [H1 H2]. rewrite IH by exact H2.
    pose proof (prod_pos l H2). rewrite Z.div_div by lia. reflexivity.
Qed.
Lemma flatten_one_cons : forall d ds i, Forall (fun d => 0 < d) ds ->
  flatten_one (d :: ds) i = (i / prod ds) mod d :: flatten_one ds i.
Proof.
  intros d ds i H. unfold flatten_one. cbn [rev]. rewrite flatten_loop_app.
  - rewrite rev_app_distr. cbn [rev app]. rewrite prod_rev. reflexivity.
  - apply Forall_rev. exact H.
Qed.
Lemma flatten_valid : forall dims i, Forall (fun d => 0 < d) dims -> valid_index dims (flatten_one dims i).
Proof.
  induction dims as [|d ds IH]; intros i H; [constructor|].
  apply Forall_cons_iff in H as [H1 H2]. rewrite flatten_one_cons by exact H2.
  constructor; [apply Z.mod_pos_bound; exact H1|]. apply IH. exact H2.
Qed.
Lemma linear_flatten : forall dims i, Forall (fun d => 0 < d) dims ->
  linear dims (flatten_one dims i) = i mod prod dims.
Proof.
  induction dims as [|d ds IH]; intros i H; [cbn; rewrite Z.mod_1_r; reflexivity|].
  apply Forall_cons_iff in H as [H1 H2]. rewrite flatten_one_cons by exact H2.
  cbn [linear prod]. rewrite IH by exact H2. pose proof (prod_pos ds H2).
  rewrite (Z.mul_comm d), Z.rem_mul_r by lia. lia.
Qed.
Lemma linear_range : forall dims idx, valid_index dims idx -> 0 <= linear dims idx < prod dims.
Proof. induction 1 as [|d i ds r H _ IH]; cbn [linear prod]; nia. Qed.
Lemma linear_lex : forall dims a b, valid_index dims a -> valid_index dims b ->
  linear dims a < linear dims b -> lex_lt a b.
Proof.
  intros dims a b Ha. revert b. induction Ha as [|d i ds r H Hr IH]; intros b Hb L.
  - inversion Hb; subst. cbn in L. lia.
  - inversion Hb as [|? j ? r' J Hr']; subst. cbn [linear] in L. cbn [lex_lt].
    pose proof (linear_range _ _ Hr). pose proof (linear_range _ _ Hr').
    destruct (Z.lt_trichotomy i j) as [?|[->|?]]; [left; lia| |exfalso; nia].
    right. split; [reflexivity|]. apply IH; [exact Hr'|lia].
Qed.
Lemma linear_inj : forall dims a b, valid_index dims a -> valid_index dims b ->
  linear dims a = linear dims b -> a = b.
Proof.
  intros dims a b Ha. revert b. induction Ha as [|d i ds r H Hr IH]; intros b Hb L.
  - inversion Hb; subst. reflexivity.
  - inversion Hb as [|? j ? r' J Hr']; subst. cbn [linear] in L.
    pose proof (linear_range _ _ Hr). pose proof (linear_range _ _ Hr').
    assert (i = j) as -> by nia. f_equal. apply IH; [exact Hr'|lia].
Qed.
Lemma flatten_in : forall dims idx, Forall (fun d => 0 < d) dims ->
  (In idx (get_flatten_slices dims) <-> valid_index dims idx).
Proof.
  intros dims idx P. unfold get_flatten_slices. rewrite in_map_iff. split.
  - intros (i & <- & _). apply flatten_valid. exact P.
  - intros V. pose proof (linear_range _ _ V) as R. exists (Z.to_nat (linear dims idx)). split.
    + apply (linear_inj dims); [apply flatten_valid; exact P | exact V |].
      rewrite linear_flatten by exact P. rewrite Z2Nat.id by lia. apply Z.mod_small. exact R.
    + apply in_seq. rewrite num_slices_prod. lia.
Qed.
Lemma flatten_sorted : forall dims, Forall (fun d => 0 < d) dims ->
  StronglySorted lex_lt (get_flatten_slices dims).
Proof.
  intros dims P. unfold get_flatten_slices. rewrite num_slices_prod.
  assert (forall n s, (Z.of_nat s + Z.of_nat n <= prod dims) ->
    StronglySorted lex_lt (map (fun i => flatten_one dims (Z.of_nat i)) (seq s n))) as K.
  { induction n as [|n IH]; intros s B; cbn [seq map]; [constructor|].
    constructor; [apply IH; lia|]. apply Forall_forall. intros x Hx.
    apply in_map_iff in Hx as (j & <- & Hj). apply in_seq in Hj.
    apply (linear_lex dims); try (apply flatten_valid; exact P).
    rewrite !linear_flatten by exact P. rewrite !Z.mod_small by lia. lia. }
  apply K. pose proof (prod_pos _ P). lia.
Qed.
Lemma flatten_nth : forall dims i d, Forall (fun d => 0 < d) dims -> 0 <= i < prod dims ->
  linear dims (nth (Z.to_nat i) (get_flatten_slices dims) d) = i.
Proof.
  intros dims i d P B. unfold get_flatten_slices. rewrite num_slices_prod.
  erewrite nth_indep with (d' := flatten_one dims (Z.of_nat 0)).
  - rewrite (map_nth (fun i => flatten_one dims (Z.of_nat i))). rewrite seq_nth by lia.
    rewrite linear_flatten by exact P. cbn [Nat.add]. rewrite Z2Nat.id by lia. apply Z.mod_small. exact B.
  - rewrite map_length, seq_length. lia.
Qed.

(* ---- tokens ---- *)
Section tokens.
  Variable p : ascii -> bool.
  Notation D := (fun c => p c = true).

  Lemma find_from_some : forall s k, find_from p s = Some k ->
    exists c, s = firstn k s ++ c :: skipn (S k) s /\ p c = true
              /\ Forall (fun c => ~ p c = true) (firstn k s) /\ length (firstn k s) = k.
  Proof.
    induction s as [|x s IH]; intros k E; cbn in E; [discriminate|].
    destruct (p x) eqn:P.
    - injection E as <-. exists x. cbn. auto.
    - destruct (find_from p s) as [m|] eqn:F; [|discriminate]. cbn in E. injection E as <-.
      destruct (IH m eq_refl) as (c & E1 & E2 & E3 & E4). exists c. cbn [firstn skipn app length].
      split; [f_equal; exact E1|]. split; [exact E2|]. split; [|lia]. constructor; [congruence|exact E3].
  Qed.
  Lemma find_from_none : forall s, find_from p s = None -> Forall (fun c => ~ p c = true) s.
  Proof.
    induction s as [|x s IH]; intros E; [constructor|]. cbn in E. destruct (p x) eqn:P; [discriminate|].
    destruct (find_from p s); [discriminate|]. constructor; [congruence|auto].
  Qed.

  Lemma splits_delim : forall s ts c, p c = true -> splits D s ts -> splits D (c :: s) ts.
  Proof.
    intros s ts c P H. inversion H as [? F | d t rest ts' F N T R S]; subst.
    - constructor. constructor; auto.
    - apply (split_tok D (c :: d) t rest ts'); auto.
  Qed.
  Lemma splits_nonempty : forall s ts, splits D s ts -> Forall (fun t => t <> []) ts.
  Proof. induction 1; constructor; auto. Qed.

  Lemma skipn_skipn : forall (A : Type) (l : list A) a b, skipn a (skipn b l) = skipn (b + a) l.
  Proof. intros A l a b. revert l. induction b; intros [|x l]; cbn; auto. destruct a; reflexivity. Qed.
  Lemma token_loop_ok : forall fuel line prev tokens,
    (prev <= length line)%nat -> (length line - prev < fuel)%nat ->
    exists ts, token_loop fuel p line prev tokens = tokens ++ ts /\ splits D (skipn prev line) ts.
  Proof.
    induction fuel as [|f IH]; intros line prev tokens L Fu; [lia|].
    cbn [token_loop]. unfold find_first. destruct (find_from p (skipn prev line)) as [k|] eqn:E; cbn [option_map].
    - apply find_from_some in E as (c & E1 & E2 & E3 & E4).
      assert (length (skipn prev line) = length line - prev)%nat as SL by apply skipn_length.
      rewrite skipn_skipn in E1. replace (prev + S k)%nat with (S (prev + k)) in E1 by lia.
      assert (k < length line - prev)%nat as K.
      { rewrite <- SL, E1, app_length. cbn [length]. rewrite E4. lia. }
      set (toks := if (prev <? prev + k)%nat then _ else _).
      destruct (IH line (S (prev + k)) toks) as (ts & T1 & T2); [lia|lia|].
      rewrite T1. unfold toks. destruct (Nat.ltb_spec prev (prev + k)) as [G|G].
      + exists (substr line prev (prev + k - prev) :: ts). split; [rewrite <- app_assoc; reflexivity|].
        replace (prev + k - prev)%nat with k by lia. unfold substr. rewrite E1 at 1.
        apply (split_tok D []); auto.
        * intros C. rewrite C in E4. cbn in E4. lia.
        * apply splits_delim; assumption.
      + assert (k = 0)%nat by lia. subst k. exists ts. split; [reflexivity|]. rewrite E1.
        cbn [firstn app]. apply splits_delim; assumption.
    - apply find_from_none in E. destruct (Nat.ltb_spec prev (length line)) as [G|G].
      + exists [skipn prev line]. split; [reflexivity|].
        pose proof (split_tok D [] (skipn prev line) [] []) as S. rewrite app_nil_r in S. apply S; auto.
        * intros C. apply (f_equal (@length _)) in C. rewrite skipn_length in C. cbn in C. lia.
        * constructor. constructor.
      + exists []. split; [symmetry; apply app_nil_r|]. rewrite skipn_all2 by lia. constructor. constructor.
  Qed.

  Lemma split_prefix : forall (P Q : ascii -> Prop), (forall c, P c -> Q c -> False) ->
    forall a b x y, Forall P a -> Forall P b ->
      (match x with [] => True | c :: _ => Q c end) -> (match y with [] => True | c :: _ => Q c end) ->
      a ++ x = b ++ y -> a = b /\ x = y.
  Proof.
    intros P Q X. induction a as [|c a IH]; intros [|d b] x y Fa Fb Hx Hy E; cbn in E.
    - auto.
    - subst x. apply Forall_cons_iff in Fb as [F _]. exfalso. eapply X; eauto.
    - subst y. apply Forall_cons_iff in Fa as [F _]. exfalso. eapply X; eauto.
    - injection E as -> E. apply Forall_cons_iff in Fa as [_ Fa]. apply Forall_cons_iff in Fb as [_ Fb].
      destruct (IH b x y Fa Fb Hx Hy E) as [-> ->]. auto.
  Qed.
End tokens.

Lemma splits_unique : forall (D : ascii -> Prop) s ts ts', splits D s ts -> splits D s ts' -> ts = ts'.
Proof.
  intros D s ts ts' H. revert ts'. induction H as [s F | d t rest ts F N T R S IH]; intros ts' H'.
  - inversion H' as [|d t rest ts0 F' N T R S]; subst; [reflexivity|]. exfalso.
    apply Forall_app in F as [_ F]. apply Forall_app in F as [F _].
    destruct t as [|c t]; [congruence|]. apply Forall_cons_iff in F as [F _].
    apply Forall_cons_iff in T as [T _]. contradiction.
  - inversion H' as [s F' E1 E2 | d' t' rest' ts0 F' N' T' R' S' E1 E2].
    + exfalso. apply Forall_app in F' as [_ F']. apply Forall_app in F' as [F' _].
      destruct t as [|c t]; [congruence|]. apply Forall_cons_iff in F' as [F' _].
      apply Forall_cons_iff in T as [T _]. contradiction.
    + assert (forall t, t <> [] -> Forall (fun c => ~ D c) t -> forall r,
                match t ++ r with [] => True | c :: _ => ~ D c end) as K.
      { intros [|c u] Nu Tu r; [congruence|]. apply Forall_cons_iff in Tu as [Tu _]. exact Tu. }
      destruct (split_prefix D (fun c => ~ D c) ltac:(intros ? X1 X2; cbv beta in X1, X2; tauto) d' d _ _ F' F (K _ N' T' _) (K _ N T _) E1)
        as [-> Q].
      destruct (split_prefix (fun c => ~ D c) D ltac:(intros ? X1 X2; cbv beta in X1, X2; tauto) t' t _ _ T' T R' R Q) as [-> ->].
      f_equal. apply IH. exact S'.
Qed.

Lemma is_delim_iff : forall ds c, is_delim ds c = true <-> In c ds.
Proof.
  intros ds c. unfold is_delim. rewrite existsb_exists. split.
  - intros (x & H & E). apply Ascii.eqb_eq in E. congruence.
  - intros H. exists c. split; [exact H|apply Ascii.eqb_refl].
Qed.
Lemma splits_ext : forall (D E : ascii -> Prop), (forall c, D c <-> E c) ->
  forall s ts, splits D s ts -> splits E s ts.
Proof.
  intros D E X. induction 1 as [s F | d t rest ts F N T R S IH].
  - constructor. eapply Forall_impl; [|exact F]. intros; apply X; auto.
  - constructor; auto.
    + eapply Forall_impl; [|exact F]. intros; apply X; auto.
    + eapply Forall_impl; [|exact T]. intros c H H'. apply H, X, H'.
    + destruct rest; [exact I|]. apply X, R.
Qed.
Lemma get_tokens_splits : forall line delims,
  splits (fun c => In c delims) line (get_tokens line delims).
Proof.
  intros line delims. unfold get_tokens.
  destruct (token_loop_ok (is_delim delims) (S (length line)) line 0 []) as (ts & E & S); [lia|lia|].
  rewrite E. cbn [app]. cbn [skipn] in S.
  assert (filter (fun t : list ascii => match t with [] => false | _ => true end) ts = ts) as ->.
  { apply splits_nonempty in S. clear E. induction S as [|t ts H _ IH]; [reflexivity|]. cbn.
    destruct t; [congruence|]. cbn in *. f_equal. exact IH. }
  eapply splits_ext; [|exact S]. intros c. apply is_delim_iff.
Qed.

(* ---- line wrapping ---- *)
Definition fits (width : Z) (w : list ascii) : Prop := zlen w <= width.
Lemma zlen_app : forall (A : Type) (a b : list A), zlen (a ++ b) = zlen a + zlen b.
Proof. intros. unfold zlen. rewrite app_length. lia. Qed.
Lemma zlen_cons : forall (A : Type) x (a : list A), zlen (x :: a) = 1 + zlen a.
Proof. intros. unfold zlen. cbn [length]. lia. Qed.
Lemma zlen_nonneg : forall (A : Type) (a : list A), 0 <= zlen a.
Proof. intros. unfold zlen. lia. Qed.
Lemma join_snoc : forall g w, g <> [] -> join (g ++ [w]) = join g ++ " "%char :: w.
Proof.
  induction g as [|x g IH]; intros w H; [congruence|].
  destruct g as [|y g]; [reflexivity|].
  change (join ((x :: y :: g) ++ [w])) with (x ++ " "%char :: join ((y :: g) ++ [w])).
  rewrite IH by congruence. change (join (x :: y :: g)) with (x ++ " "%char :: join (y :: g)).
  rewrite <- app_assoc. reflexivity.
Qed.

(* the words are kept whatever their lengths *)
Lemma wrap_words : forall width ws result line space gs g,
  result = map join gs -> line = join g -> g <> [] -> Forall (fun g => g <> []) gs ->
  exists gs' g' space', fold_left (wrap_step width) ws (result, line, space)
     = (map join gs', join g', space')
     /\ concat gs' ++ g' = concat gs ++ g ++ ws /\ g' <> [] /\ Forall (fun g => g <> []) gs'.
Proof.
  induction ws as [|w ws IH]; intros result line space gs g -> -> N NS.
  - exists gs, g, space. rewrite app_nil_r. auto.
  - cbn [fold_left]. unfold wrap_step at 2. destruct (space <? u64 (zlen w + 1)).
    + destruct (IH (map join gs ++ [join g]) w (u64 (width - zlen w)) (gs ++ [g]) [w])
        as (gs' & g' & s' & E1 & E2 & E3 & E4).
      * rewrite map_app. reflexivity.
      * reflexivity.
      * discriminate.
      * apply Forall_app. auto.
      * exists gs', g', s'. split; [exact E1|]. split; [|auto]. rewrite E2, concat_app. cbn.
        rewrite app_nil_r, <- app_assoc. reflexivity.
    + destruct (IH (map join gs) (join g ++ " "%char :: w) (u64 (space - (zlen w + 1))) gs (g ++ [w]))
        as (gs' & g' & s' & E1 & E2 & E3 & E4).
      * reflexivity.
      * rewrite join_snoc by exact N. reflexivity.
      * intros C. apply app_eq_nil in C as [_ C]. discriminate.
      * exact NS.
      * exists gs', g', s'. split; [exact E1|]. split; [|auto]. rewrite E2, <- app_assoc. reflexivity.
Qed.

(* consecutive groups cannot share a line *)
Fixpoint greedy (width : Z) (gs : list (list (list ascii))) : Prop :=
  match gs with
  | g :: (((w :: _) :: _) as r) => width < zlen (join g) + 1 + zlen w /\ greedy width r
  | _ => True
  end.
Definition starts (w : list ascii) (g : list (list ascii)) : Prop := exists r, g = w :: r.
Lemma greedy_snoc : forall width gs g h w, greedy width (gs ++ [g]) -> starts w h ->
  width < zlen (join g) + 1 + zlen w -> Forall (fun g => g <> []) (gs ++ [g]) ->
  greedy width (gs ++ [g; h]).
Proof.
  induction gs as [|a gs IH]; intros g h w G [r ->] L N.
  - cbn. auto.
  - cbn [app] in G, N |- *. apply Forall_cons_iff in N as [_ N].
    destruct gs as [|b gs].
    + cbn [app] in *. apply Forall_cons_iff in N as [N _]. destruct g as [|x g]; [congruence|].
      cbn [greedy] in G |- *. destruct G as [G1 _]. auto.
    + cbn [app] in *. assert (b <> []) as Nb by (apply Forall_cons_iff in N as [N _]; exact N).
      destruct b as [|x b]; [congruence|].
      change (width < zlen (join a) + 1 + zlen x /\ greedy width ((x :: b) :: gs ++ [g])) in G.
      change (width < zlen (join a) + 1 + zlen x /\ greedy width ((x :: b) :: gs ++ [g; w :: r])).
      destruct G as [G1 G2]. split; [exact G1|].
      apply (IH g (w :: r) w); [exact G2 | exists r; reflexivity | exact L | exact N].
Qed.
Lemma greedy_extend : forall width gs g w, greedy width (gs ++ [g]) -> g <> [] ->
  greedy width (gs ++ [g ++ [w]]).
Proof.
  induction gs as [|a gs IH]; intros g w G N; [exact I|].
  destruct gs as [|b gs].
  - cbn [app] in *. destruct g as [|x g]; [congruence|]. cbn [app greedy] in *. tauto.
  - cbn [app] in *. destruct b as [|x b]; [exact I|].
    change (width < zlen (join a) + 1 + zlen x /\ greedy width ((x :: b) :: gs ++ [g])) in G.
    change (width < zlen (join a) + 1 + zlen x /\ greedy width ((x :: b) :: gs ++ [g ++ [w]])).
    destruct G as [G1 G2]. split; [exact G1|]. apply IH; assumption.
Qed.

Lemma u64_id : forall z, 0 <= z < 2 ^ 64 -> u64 z = z.
Proof. intros. apply Z.mod_small. assumption. Qed.

Lemma wrap_fits : forall width ws result line space gs g,
  0 <= width < 2 ^ 32 -> Forall (fits width) ws ->
  result = map join gs -> line = join g -> g <> [] -> Forall (fun g => g <> []) gs ->
  space = width - zlen (join g) -> 0 <= space ->
  Forall (fun g => fits width (join g)) gs -> greedy width (gs ++ [g]) ->
  exists gs' g' space', fold_left (wrap_step width) ws (result, line, space)
     = (map join gs', join g', space')
     /\ concat gs' ++ g' = concat gs ++ g ++ ws /\ g' <> [] /\ Forall (fun g => g <> []) gs'
     /\ Forall (fun g => fits width (join g)) (gs' ++ [g']) /\ greedy width (gs' ++ [g']).
Proof.
  intros width ws. induction ws as [|w ws IH];
    intros result line space gs g Wd Fw -> -> N NS Hs Hp Fg G.
  - exists gs, g, space. rewrite app_nil_r. repeat split; auto. apply Forall_app. split; [exact Fg|].
    constructor; [|constructor]. unfold fits. lia.
  - apply Forall_cons_iff in Fw as [F1 F2]. unfold fits in F1. pose proof (zlen_nonneg _ w).
    assert (2 ^ 32 < 2 ^ 64) as B by (apply Z.pow_lt_mono_r; lia).
    pose proof (zlen_nonneg _ (join g)).
    cbn [fold_left]. unfold wrap_step at 2. rewrite (u64_id (zlen w + 1)) by lia.
    destruct (Z.ltb_spec space (zlen w + 1)) as [Lt|Ge].
    + destruct (IH (map join gs ++ [join g]) w (u64 (width - zlen w)) (gs ++ [g]) [w])
        as (gs' & g' & s' & E1 & E2 & E3 & E4 & E5 & E6); auto.
      * rewrite map_app. reflexivity.
      * discriminate.
      * apply Forall_app. auto.
      * rewrite u64_id by lia. reflexivity.
      * rewrite u64_id by lia. lia.
      * apply Forall_app. split; [exact Fg|]. constructor; [|constructor]. unfold fits. lia.
      * rewrite <- app_assoc. cbn [app]. apply (greedy_snoc width gs g [w] w); auto.
        -- exists []. reflexivity.
        -- lia.
        -- apply Forall_app. auto.
      * exists gs', g', s'. split; [exact E1|]. split; [|auto]. rewrite E2, concat_app. cbn.
        rewrite app_nil_r, <- app_assoc. reflexivity.
    + destruct (IH (map join gs) (join g ++ " "%char :: w) (u64 (space - (zlen w + 1))) gs (g ++ [w]))
        as (gs' & g' & s' & E1 & E2 & E3 & E4 & E5 & E6); auto.
      * rewrite join_snoc by exact N. reflexivity.
      * intros C. apply app_eq_nil in C as [_ C]. discriminate.
      * rewrite u64_id by lia. rewrite join_snoc by exact N. rewrite zlen_app, zlen_cons. lia.
      * rewrite u64_id by lia. lia.
      * apply greedy_extend; assumption.
      * exists gs', g', s'. split; [exact E1|]. split; [|auto]. rewrite E2, <- app_assoc. reflexivity.
Qed.

Lemma wrap_never : forall width ws g result space,
  g <> [] -> 0 <= width < 2 ^ 32 -> zlen (join (g ++ ws)) < 2 ^ 63 ->
  space = 2 ^ 64 + width - zlen (join g) -> width < zlen (join g) ->
  exists s', fold_left (wrap_step width) ws (result, join g, space) = (result, join (g ++ ws), s').
Proof.
  intros width ws. induction ws as [|w ws IH]; intros g result space N Wd Small -> Long.
  - rewrite app_nil_r. eexists. reflexivity.
  - cbn [fold_left]. unfold wrap_step at 2.
    assert (2 ^ 32 < 2 ^ 63 /\ 2 ^ 64 = 2 ^ 63 + 2 ^ 63) as [B1 B2] by (split; reflexivity).
    pose proof (zlen_nonneg _ w). pose proof (zlen_nonneg _ (join g)).
    assert (zlen (join g) + 1 + zlen w <= zlen (join (g ++ w :: ws))) as ZL.
    { clear -N. replace (g ++ w :: ws) with ((g ++ [w]) ++ ws) by (rewrite <- app_assoc; reflexivity).
      assert (forall a b, a <> [] -> zlen (join a) <= zlen (join (a ++ b))) as K.
      { induction a as [|x a IHa]; intros b Na; [congruence|]. destruct a as [|y a].
        - destruct b as [|z b]; [rewrite app_nil_r; lia|].
          change (join ([x] ++ z :: b)) with (x ++ " "%char :: join (z :: b)). change (join [x]) with x.
          rewrite zlen_app. pose proof (zlen_nonneg _ (" "%char :: join (z :: b))). lia.
        - change (join ((x :: y :: a) ++ b)) with (x ++ " "%char :: join ((y :: a) ++ b)).
          change (join (x :: y :: a)) with (x ++ " "%char :: join (y :: a)).
          rewrite !zlen_app, !zlen_cons. specialize (IHa b ltac:(congruence)). lia. }
      specialize (K (g ++ [w]) ws). rewrite join_snoc in K by exact N.
      rewrite zlen_app, zlen_cons in K. etransitivity; [|apply K]; [lia|].
      intros C. apply app_eq_nil in C as [_ C]. discriminate. }
    rewrite (u64_id (zlen w + 1)) by lia.
    destruct (Z.ltb_spec (2 ^ 64 + width - zlen (join g)) (zlen w + 1)) as [Lt|Ge]; [exfalso; lia|].
    rewrite <- join_snoc by exact N.
    destruct (IH (g ++ [w]) result (u64 (2 ^ 64 + width - zlen (join g) - (zlen w + 1)))) as [s' E].
    + intros C. apply app_eq_nil in C as [_ C]. discriminate.
    + exact Wd.
    + rewrite <- app_assoc. exact Small.
    + rewrite join_snoc by exact N. rewrite zlen_app, zlen_cons. rewrite u64_id; lia.
    + rewrite join_snoc by exact N. rewrite zlen_app, zlen_cons. lia.
    + exists s'. rewrite E, <- app_assoc. reflexivity.
Qed.

(* ---- strip_newline ---- *)
Lemma newline_find : forall s pos, find_first (Ascii.eqb newline) s pos = None -> ~ In newline (skipn pos s).
Proof.
  intros s pos H. unfold find_first in H. destruct (find_from _ _) eqn:E; [discriminate|].
  apply find_from_none in E. rewrite Forall_forall in E. intros I. apply (E _ I). apply Ascii.eqb_refl.
Qed.
Lemma newline_found : forall s pos k, find_first (Ascii.eqb newline) s pos = Some k -> In newline (skipn pos s).
Proof.
  intros s pos k H. unfold find_first in H. destruct (find_from _ _) as [m|] eqn:E; [|discriminate].
  apply find_from_some in E as (c & E1 & E2 & _). rewrite E1. apply Ascii.eqb_eq in E2. subst c. apply in_elt.
Qed.
Lemma strip_loop_ok : forall fuel c r, (length r < fuel)%nat ->
  exists r', strip_loop fuel (c :: r) 1 = c :: r' /\ ~ In newline r'.
Proof.
  induction fuel as [|f IH]; intros c r L; [lia|]. cbn [strip_loop].
  destruct (find_first (Ascii.eqb newline) (c :: r) 1) as [k|] eqn:E.
  - apply newline_found in E. cbn [skipn] in E. destruct r as [|d r]; [destruct E|].
    cbn [erase1]. apply IH. cbn in L. lia.
  - apply newline_find in E. exists r. split; [reflexivity|exact E].
Qed.
Lemma strip_ok : forall s, match strip_newline s with [] => s = [] | c :: r => ~ In newline r /\ exists r', s = c :: r' end.
Proof.
  intros [|c r]; [reflexivity|]. unfold strip_newline. cbn [length].
  change (strip_loop (S (S (length r))) (c :: r) 0) with
    (match find_first (Ascii.eqb newline) (c :: r) 0 with
     | Some _ => strip_loop (S (length r)) (erase1 (c :: r)) 1 | None => c :: r end).
  destruct (find_first (Ascii.eqb newline) (c :: r) 0) eqn:E.
  - assert (exists r0, erase1 (c :: r) = c :: r0 /\ (length r0 < S (length r))%nat) as (r0 & -> & L0).
    { destruct r as [|d r]; [exists []; cbn; auto|]. exists r. cbn. auto. }
    destruct (strip_loop_ok (S (length r)) c r0 L0) as (r' & -> & H). split; [exact H|]. eauto.
  - apply newline_find in E. cbn in E. split; [tauto|]. eauto.
Qed.
Lemma strip_id : forall s, ~ In newline s -> strip_newline s = s.
Proof.
  intros s H. unfold strip_newline. cbn [strip_loop].
  destruct (find_first (Ascii.eqb newline) s 0) eqn:E; [|reflexivity].
  apply newline_found in E. contradiction.
Qed.
