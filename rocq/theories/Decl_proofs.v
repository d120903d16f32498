From Coq Require Import Permutation Sorted.
From Verif Require Import Base SV_spec IR IRSem_spec Print_spec Print_model Print_proofs Num_spec Num_model Num_proofs Decl_spec Decl_model.
Local Open Scope Z_scope.
Local Open Scope list_scope.

(* ---- ranges ---- *)
Lemma reads_num : forall n, reads [num_tok n] (EConst n 32 true).
Proof. intros n. exists 5%nat. reflexivity. Qed.
Definition tight_op (op : expr_op) : bool := match op with Add | Minus | Multiply | Divide | Mod | Power => true | _ => false end.
Definition tight (e : expr) : Prop := match e with EBin op _ _ => tight_op op = true | ECond _ _ _ => False | _ => True end.
Lemma minus_rest : forall a p, (p <= 8)%nat -> goes (MLoop p a) [TSym YMinus; one_tok] (EBin Minus a one, []).
Proof.
  intros a p L. eapply goes_step; [reflexivity|exact L| |apply goes_end; exact I].
  eapply goes_bin; [apply goes_atom|]. apply goes_end. exact I.
Qed.
Lemma after_operand : forall G t e, operand G t e -> exists e', reads (t ++ [TSym YMinus; one_tok]) (EBin Minus e' one) /\ same_value G e' e.
Proof.
  intros G t e (e' & V & H). exists e'. split; [|exact V]. apply goes_top; [|discriminate].
  eapply goes_bin; [apply H|]. apply minus_rest. lia.
Qed.
Lemma tight_minus : forall G e, plain e -> wt G e -> tight e ->
  exists e', reads (to_string e ++ [TSym YMinus; one_tok]) (EBin Minus e' one) /\ same_value G e' e.
Proof.
  intros G e P W T. pose proof (good_all G e P W) as (_ & _ & H).
  destruct e as [x|v w s|op a|op a b|c a b|a h l|a b|a w]; try (apply after_operand, operand_atom); try contradiction.
  - apply after_operand. exact H.
  - cbn in T. destruct (binary_sym op ltac:(destruct op; try discriminate; reflexivity)) as (s & q & Es & Is).
    destruct (H s q Is) as [(e' & V & K) _]. exists e'. split; [|exact V]. apply goes_top; [|discriminate].
    apply K; [lia| |apply minus_rest; lia]. cbn. destruct op; try discriminate; cbn in Es; injection Es as <-; cbn in Is; injection Is as <-; lia.
Qed.
Lemma paren_minus : forall G e, plain e -> wt G e ->
  exists e', reads (paren (to_string e) ++ [TSym YMinus; one_tok]) (EBin Minus e' one) /\ same_value G e' e.
Proof.
  intros G e P W. pose proof (good_all G e P W) as (_ & H & _). apply after_operand. apply whole_paren. exact H.
Qed.
Lemma size_bound : forall G e, plain e -> wt G e -> exists m, get_width_str_v e = DRange m /\ bound G (Of e) m.
Proof.
  intros G e P W. unfold get_width_str_v. eexists. split; [reflexivity|]. cbn [bound]. destruct (is_param e) eqn:E.
  - destruct e; try discriminate. now apply tight_minus.
  - now apply paren_minus.
Qed.
(* all dimensions that are expressions can be printed and read *)
Definition sound (G : tenv) (g : sig) : Prop :=
  g_size g <> []
  /\ (forall i e, g_size_of g i = Some e -> plain e /\ wt G e)
  /\ (forall e, g_width_of g = Some e -> g_kind g = Logic /\ plain e /\ wt G e /\ tight e).
Lemma size_ranges : forall G f, (forall i e, f i = Some e -> plain e /\ wt G e) -> forall l i,
  exists ms, get_var_size_str_from i l f = map DRange ms /\ Forall2 (bound G) (size_dims_from i l f) ms.
Proof.
  intros G f F l. induction l as [|n l IH]; intros i; [exists []; split; [reflexivity|constructor]|].
  destruct (IH (S i)) as (ms & E & B). cbn [get_var_size_str_from size_dims_from]. rewrite E.
  destruct (f i) as [e|] eqn:Fi.
  - destruct (F i e Fi) as [P W]. destruct (size_bound G e P W) as (m & -> & Bm). exists (m :: ms). split; [reflexivity|]. constructor; auto.
  - exists ([num_tok (n - 1)] :: ms). split; [reflexivity|]. constructor; auto. apply reads_num.
Qed.
Lemma width_ranges : forall G g, sound G g -> g_kind g = Logic ->
  exists ms, get_var_width_str g = map DRange ms /\ Forall2 (bound G) (width_dims g) ms.
Proof.
  intros G g (_ & _ & W) K. unfold get_var_width_str, width_dims. rewrite K. cbn [negb]. rewrite andb_true_r.
  destruct (g_width_of g) as [e|].
  - destruct (W e eq_refl) as (_ & P & We & T). rewrite orb_true_r. eexists [_]. split; [reflexivity|]. constructor; [|constructor].
    exact (tight_minus G e P We T).
  - rewrite orb_false_r. destruct (1 <? g_width g); [|exists []; split; [reflexivity|constructor]].
    eexists [_]. split; [reflexivity|]. constructor; [apply reads_num|constructor].
Qed.
Lemma read_ranges_app : forall ms r, (forall m r', r <> DRange m :: r') -> read_ranges (map DRange ms ++ r) = (ms, r).
Proof.
  induction ms as [|m ms IH]; intros r N; cbn [map app read_ranges].
  - destruct r as [|[] r]; auto. exfalso. eapply N. reflexivity.
  - rewrite IH by exact N. reflexivity.
Qed.
Lemma read_all : forall d t (s : bool) ps n us,
  read_decl (match d with Some d => [DDir d] | None => [] end ++ [DType t] ++ (if s then [DSigned] else []) ++ map DRange ps ++ [DName n] ++ map DRange us)
  = Some {| de_dir := d; de_type := t; de_signed := s; de_packed := ps; de_name := n; de_unpacked := us |}.
Proof.
  intros d t s ps n us.
  assert (U : read_ranges (map DRange us) = (us, [])) by (rewrite <- (app_nil_r (map DRange us)); apply read_ranges_app; discriminate).
  assert (P : read_ranges (map DRange ps ++ DName n :: map DRange us) = (ps, DName n :: map DRange us)) by (apply read_ranges_app; discriminate).
  unfold read_decl. destruct d, s; cbn [app]; try rewrite P, U; auto.
  - destruct ps; cbn [map app] in *; rewrite ?P, U; reflexivity.
  - destruct ps; cbn [map app] in *; rewrite ?P, U; reflexivity.
Qed.

(* ---- sorting ---- *)
Lemma sinsert_perm {A} (lt : A -> A -> bool) a l : Permutation (a :: l) (sinsert lt a l).
Proof.
  induction l as [|b l IH]; [reflexivity|]. cbn. destruct (lt a b); [reflexivity|].
  rewrite perm_swap. now apply perm_skip.
Qed.
Lemma ssort_perm_acc {A} (lt : A -> A -> bool) l : forall acc, Permutation (acc ++ l) (fold_left (fun acc a => sinsert lt a acc) l acc).
Proof.
  induction l as [|a l IH]; intros acc; cbn [fold_left]; [now rewrite app_nil_r|]. rewrite <- IH.
  rewrite <- (sinsert_perm lt a acc). symmetry. apply (Permutation_middle acc l a).
Qed.
Lemma ssort_perm {A} (lt : A -> A -> bool) l : Permutation l (ssort lt l).
Proof. exact (ssort_perm_acc lt l []). Qed.
Section Sort.
  Context {A : Type} (lt : A -> A -> bool).
  Definition leq a b := lt b a = false.
  Hypothesis asym : forall a b, lt a b = true -> lt b a = false.
  Hypothesis neg : forall a b c, lt a c = true -> lt a b = true \/ lt b c = true.
  Lemma leq_trans : forall a b c, leq a b -> leq b c -> leq a c.
  Proof. unfold leq. intros a b c H K. destruct (lt c a) eqn:E; [|reflexivity]. destruct (neg c b a E); congruence. Qed.
  Lemma sinsert_sorted : forall a l, StronglySorted leq l -> StronglySorted leq (sinsert lt a l).
  Proof.
    intros a l. induction l as [|b l IH]; intros H; cbn [sinsert]; [repeat constructor|].
    apply StronglySorted_inv in H as [H F]. destruct (lt a b) eqn:E.
    - constructor; [constructor; auto|]. assert (L : leq a b) by (apply asym; exact E). constructor; [exact L|].
      eapply Forall_impl; [|exact F]. intros c. now apply leq_trans.
    - constructor; [now apply IH|]. apply (Permutation_Forall (sinsert_perm lt a l)). constructor; [exact E|exact F].
  Qed.
  Lemma ssort_sorted : forall l, StronglySorted leq (ssort lt l).
  Proof.
    intros l. unfold ssort. assert (K : StronglySorted leq []) by constructor. revert K. generalize (@nil A) as acc.
    induction l as [|a l IH]; intros acc K; [exact K|]. apply IH. now apply sinsert_sorted.
  Qed.
End Sort.
Lemma str_asym : forall a b, str_ltb a b = true -> str_ltb b a = false.
Proof.
  induction a as [|x a IH]; intros [|y b]; cbn [str_ltb]; auto; try discriminate.
  intros H. apply orb_true_iff in H. apply orb_false_iff. rewrite !Nat.ltb_lt in H. rewrite Nat.ltb_ge.
  destruct H as [H|H].
  - split; [lia|]. destruct (Nat.eqb_spec (Ascii.nat_of_ascii y) (Ascii.nat_of_ascii x)); [lia|reflexivity].
  - apply andb_true_iff in H as [H K]. apply Nat.eqb_eq in H. rewrite H. split; [lia|]. rewrite Nat.eqb_refl. cbn. auto.
Qed.
Lemma str_neg : forall a b c, str_ltb a c = true -> str_ltb a b = true \/ str_ltb b c = true.
Proof.
  induction a as [|x a IH]; intros [|y b] [|z c]; cbn [str_ltb]; auto; try discriminate.
  intros H. rewrite !orb_true_iff, !andb_true_iff, !Nat.ltb_lt, !Nat.eqb_eq in *.
  destruct (Nat.lt_trichotomy (Ascii.nat_of_ascii x) (Ascii.nat_of_ascii y)) as [L|[L|L]]; [auto| |].
  - destruct (Nat.lt_trichotomy (Ascii.nat_of_ascii y) (Ascii.nat_of_ascii z)) as [M|[M|M]]; [auto| |lia].
    destruct H as [H|[_ H]]; [lia|]. destruct (IH b c H); auto.
  - right. left. lia.
Qed.
Lemma z_asym {B} : forall a b : B * Z, (snd a <? snd b) = true -> (snd b <? snd a) = false.
Proof. intros. lia. Qed.
Lemma z_neg {B} : forall a b c : B * Z, (snd a <? snd c) = true -> (snd a <? snd b) = true \/ (snd b <? snd c) = true.
Proof. intros. lia. Qed.

(* ---- the order of the ports ---- *)
Definition name_le (a b : pinfo) : Prop := str_ltb (p_name b) (p_name a) = false.
Definition listed_ok (p q : pinfo) : Prop := ~ (p_dir p = Out_ /\ p_dir q = In_) /\ (p_dir p = p_dir q -> name_le p q).
Lemma has_dir_in : forall d l, has_dir d l = true <-> exists p, In p l /\ p_dir p = d.
Proof.
  intros d l. unfold has_dir. rewrite existsb_exists. split; intros (p & I & H); exists p; (split; [exact I|]).
  - destruct (p_dir p), d; congruence.
  - rewrite H. destruct d; reflexivity.
Qed.
Lemma in_out : forall a b, in_before_out a b = true <-> p_dir a = In_ /\ p_dir b = Out_.
Proof. intros a b. unfold in_before_out. destruct (p_dir a), (p_dir b); split; intros H; try discriminate; try (destruct H; discriminate); auto. Qed.
Section Ports.
  Variable all : list pinfo.
  Hypothesis two : ~ (has_dir In_ all = true /\ has_dir Out_ all = true /\ has_dir Inout_ all = true).
  Lemma ports_insert : forall a l, In a all -> incl l all -> Forall (fun b => name_le b a) l ->
    StronglySorted listed_ok l -> StronglySorted listed_ok (sinsert in_before_out a l).
  Proof.
    intros a l Ia. induction l as [|b l IH]; intros Il N H; cbn [sinsert]; [repeat constructor|].
    apply StronglySorted_inv in H as [H F]. apply Forall_cons_iff in N as [Nb N].
    destruct (in_before_out a b) eqn:E.
    - apply in_out in E as [Ea Eb]. constructor; [constructor; auto|].
      assert (K : forall c, In c (b :: l) -> p_dir c = Out_).
      { intros c [<-|C]; [exact Eb|]. rewrite Forall_forall in F. destruct (F c C) as [X _]. destruct (p_dir c) eqn:Ec; [exfalso; apply X; auto|reflexivity|].
        exfalso. apply two. rewrite !has_dir_in. split; [exists a; auto|]. split; [exists b; split; auto; apply Il; now left|exists c; split; auto; apply Il; now right]. }
      apply Forall_forall. intros c C. apply K in C. split; rewrite Ea, C; [intros [X _]; discriminate|discriminate].
    - constructor; [apply IH; auto; intros c C; apply Il; now right|].
      apply (Permutation_Forall (sinsert_perm in_before_out a l)). constructor; [|exact F]. split; [|auto].
      intros [X Y]. assert (in_before_out a b = true) by (apply in_out; auto). congruence.
  Qed.
  Lemma ports_fold : forall l acc, incl l all -> incl acc all -> StronglySorted name_le l ->
    (forall b a, In b acc -> In a l -> name_le b a) -> StronglySorted listed_ok acc ->
    StronglySorted listed_ok (fold_left (fun acc a => sinsert in_before_out a acc) l acc).
  Proof.
    induction l as [|a l IH]; intros acc Il Ia N B H; [exact H|]. apply StronglySorted_inv in N as [N F]. cbn [fold_left]. apply IH.
    - intros c C. apply Il. now right.
    - intros c C. apply (Permutation_in _ (Permutation_sym (sinsert_perm in_before_out a acc))) in C as [<-|C]; [apply Il; now left|auto].
    - exact N.
    - intros b c Hb C. apply (Permutation_in _ (Permutation_sym (sinsert_perm in_before_out a acc))) in Hb as [<-|Hb].
      + rewrite Forall_forall in F. auto.
      + apply B; [exact Hb|now right].
    - apply ports_insert; auto; [apply Il; now left|]. apply Forall_forall. intros b Hb. apply B; [exact Hb|now left].
  Qed.
End Ports.
Lemma has_dir_perm : forall d l l', Permutation l l' -> has_dir d l = has_dir d l'.
Proof.
  intros d l l' P. apply eq_true_iff_eq. rewrite !has_dir_in. split; intros (p & I & H); exists p; (split; [|exact H]).
  - eapply Permutation_in; eauto.
  - eapply Permutation_in; [apply Permutation_sym|]; eauto.
Qed.
Lemma port_order_ok : forall l o, port_order l = Ok o -> Permutation l o /\ StronglySorted listed_ok o.
Proof.
  intros l o H. unfold port_order, stable_sort_ports in H. set (n := ssort (fun a b => str_ltb (p_name a) (p_name b)) l) in *.
  destruct (has_dir In_ n && has_dir Out_ n && has_dir Inout_ n) eqn:E; [discriminate|]. injection H as <-.
  split; [transitivity n; apply ssort_perm|]. apply (ports_fold n).
  - intros (A & B & C). rewrite A, B, C in E. discriminate.
  - apply incl_refl.
  - intros ? [].
  - exact (ssort_sorted (fun a b => str_ltb (p_name a) (p_name b)) (fun a b => str_asym _ _) (fun a b c => str_neg _ _ _) l).
  - intros b a [].
  - constructor.
Qed.
Lemma with_commas_ok : forall l c, with_commas c (c + List.length l) l = comma_list l.
Proof.
  induction l as [|e l IH]; intros c; [reflexivity|]. cbn [with_commas comma_list List.length].
  replace (c + S (List.length l))%nat with (S c + List.length l)%nat by lia. rewrite IH.
  destruct l as [|e' l]; cbn [List.length].
  - rewrite Nat.add_0_r, Nat.eqb_refl. reflexivity.
  - destruct (Nat.eqb_spec (S c) (S c + S (List.length l))); [lia|reflexivity].
Qed.
Lemma ifaces_in : forall l seen d n, In (d, n) (ifaces seen l) -> ~ In n seen /\ exists p, In p l /\ p_iface p = Some (d, n).
Proof.
  induction l as [|p l IH]; intros seen d n H; [destruct H|]. cbn [ifaces] in H. destruct (p_iface p) as [[d' n']|] eqn:E.
  - destruct (existsb (String.eqb n') seen) eqn:S.
    + apply IH in H as (A & q & I & Q). split; [exact A|]. exists q. split; [now right|exact Q].
    + destruct H as [H|H].
      * injection H as <- <-. split; [|exists p; split; [now left|exact E]]. intros K. apply not_true_iff_false in S. apply S. apply existsb_exists. exists n'. split; [exact K|apply String.eqb_refl].
      * apply IH in H as (A & q & I & Q). split; [intros K; apply A; now right|]. exists q. split; [now right|exact Q].
  - apply IH in H as (A & q & I & Q). split; [exact A|]. exists q. split; [now right|exact Q].
Qed.
Lemma ifaces_nodup : forall l seen, NoDup (map snd (ifaces seen l)).
Proof.
  induction l as [|p l IH]; intros seen; [constructor|]. cbn [ifaces]. destruct (p_iface p) as [[d n]|]; [|apply IH].
  destruct (existsb _ _); [apply IH|]. cbn [map snd]. constructor; [|apply IH]. intros H. apply in_map_iff in H as ([d' n'] & <- & H).
  apply ifaces_in in H as [H _]. apply H. now left.
Qed.
Lemma ifaces_all : forall l seen p d n, In p l -> p_iface p = Some (d, n) -> In n seen \/ In n (map snd (ifaces seen l)).
Proof.
  induction l as [|q l IH]; intros seen p d n [] E.
  - subst q. cbn [ifaces]. rewrite E. destruct (existsb _ _) eqn:S; [|right; left; reflexivity].
    left. apply existsb_exists in S as (m & M & S). apply String.eqb_eq in S. now subst.
  - cbn [ifaces]. destruct (p_iface q) as [[d' n']|]; [|eapply IH; eauto]. destruct (existsb _ _); [eapply IH; eauto|].
    destruct (IH (n' :: seen) p d n H E) as [[<-|K]|K]; [right; now left|auto|right; now right].
Qed.

(* ---- names of flattened ports ---- *)
Lemma append_inj_l : forall a b c : string, (a ++ b = a ++ c -> b = c)%string.
Proof. induction a as [|x a IH]; cbn; intros b c H; [exact H|]. injection H as H. auto. Qed.
Lemma append_assoc_s : forall a b c : string, ((a ++ b) ++ c = a ++ (b ++ c))%string.
Proof. induction a as [|x a IH]; intros; cbn; [reflexivity|]. now rewrite IH. Qed.
Lemma append_nil_s : forall a : string, (a ++ "" = a)%string.
Proof. induction a as [|x a IH]; cbn; [reflexivity|]. now rewrite IH. Qed.
Fixpoint suffix (ix : list nat) : string := match ix with [] => ""%string | i :: r => ("_" ++ dec (Z.of_nat i) ++ suffix r)%string end.
Lemma slice_suffix : forall ix n, slice_name n ix = (n ++ suffix ix)%string.
Proof.
  unfold slice_name. induction ix as [|i ix IH]; intros n; cbn [fold_left suffix]; [now rewrite append_nil_s|].
  rewrite IH. now rewrite append_assoc_s.
Qed.
Lemma suffix_stops : forall ix, stops 10 (suffix ix).
Proof. destruct ix; [exact I|]. cbn. exact I. Qed.
Lemma suffix_inj : forall a b, suffix a = suffix b -> a = b.
Proof.
  induction a as [|i a IH]; intros [|j b] H; auto; try discriminate. cbn [suffix append] in H. injection H as H.
  pose proof (read_print 10 (Z.of_nat i) (suffix a) ltac:(lia) ltac:(lia) (suffix_stops a)) as Ra.
  pose proof (read_print 10 (Z.of_nat j) (suffix b) ltac:(lia) ltac:(lia) (suffix_stops b)) as Rb.
  unfold dec in H. rewrite H in Ra. rewrite Ra in Rb. injection Rb as E F. apply Nat2Z.inj in E. subst. f_equal. auto.
Qed.
Lemma nodup_app2 {A} : forall a b : list A, NoDup a -> NoDup b -> (forall x, In x a -> In x b -> False) -> NoDup (a ++ b).
Proof.
  induction a as [|x a IH]; intros b Ha Hb D; [exact Hb|]. inversion Ha as [|? ? N Ha']; subst. cbn. constructor.
  - rewrite in_app_iff. intros [H|H]; [contradiction|]. apply (D x); [now left|exact H].
  - apply IH; auto. intros y Y. apply D. now right.
Qed.
Lemma indices_nodup : forall sz, NoDup (indices sz).
Proof.
  induction sz as [|n sz IH]; [repeat constructor; intros []|]. cbn [indices]. generalize 0%nat as k. revert IH. generalize (indices sz) as L. intros L ND.
  induction n as [|n IHn]; intros k; cbn [seq flat_map]; [constructor|].
  assert (X : forall m, NoDup (map (cons m) L)).
  { intros m. apply FinFun.Injective_map_NoDup; [|exact ND]. intros x y H. now injection H. }
  specialize (IHn (S k)). revert IHn. generalize (flat_map (fun i => map (cons i) L) (seq (S k) n)) (fun x => in_flat_map (fun i => map (cons i) L) (seq (S k) n) x).
  intros R HR NR. apply nodup_app2; auto.
  intros x Hx Kx. apply in_map_iff in Hx as (y & <- & _). apply HR in Kx as (m & M & Kx). apply in_map_iff in Kx as (z & E & _).
  injection E as <- _. apply in_seq in M. lia.
Qed.
Lemma indices_in : forall sz ix, In ix (indices sz) <-> Forall2 lt ix sz.
Proof.
  induction sz as [|n sz IH]; intros ix; cbn [indices].
  - split; [intros [<-|[]]; constructor|intros H; inversion H; now left].
  - rewrite in_flat_map. split.
    + intros (i & I & H). apply in_map_iff in H as (r & <- & H). apply in_seq in I. constructor; [lia|now apply IH].
    + intros H. inversion H as [|i ? r ? L F]; subst. exists i. split; [apply in_seq; lia|]. apply in_map. now apply IH.
Qed.
Lemma add_names_ok : forall l t, (exists o, add_names t l = Ok o) <-> (NoDup l /\ forall x, In x l -> ~ In x t).
Proof.
  induction l as [|n l IH]; intros t; cbn [add_names].
  - split; [intros _; split; [constructor|intros x []]|intros _; eauto].
  - destruct (existsb (String.eqb n) t) eqn:E.
    + split; [intros [o H]; discriminate|]. intros [_ H]. apply existsb_exists in E as (m & M & E). apply String.eqb_eq in E. subst.
      exfalso. apply (H m); [now left|exact M].
    + rewrite IH. assert (Nt : ~ In n t).
      { intros K. apply not_true_iff_false in E. apply E. apply existsb_exists. exists n. split; [exact K|apply String.eqb_refl]. }
      split.
      * intros [D H]. split; [constructor; [|exact D]; intros K; apply (H n K); apply in_app_iff; right; now left|].
        intros x [<-|X]; [exact Nt|]. intros K. apply (H x X). apply in_app_iff. now left.
      * intros [D H]. inversion D as [|? ? Nl D']; subst. split; [exact D'|]. intros x X K. apply in_app_iff in K as [K|[<-|[]]]; [|contradiction].
        apply (H x); [now right|exact K].
Qed.
Lemma add_names_val : forall l t o, add_names t l = Ok o -> o = t ++ l.
Proof.
  induction l as [|n l IH]; intros t o H; cbn [add_names] in H; [injection H as <-; now rewrite app_nil_r|].
  destruct (existsb _ _); [discriminate|]. apply IH in H. now rewrite <- app_assoc in H.
Qed.

(* ---- files ---- *)
Lemma append_last : forall a b c d : string, (a ++ String.String "v" "" = b ++ String.String "h" "")%string -> False.
Proof.
  intros a. induction a as [|x a IH]; intros b c d H.
  - destruct b as [|y [|z b]]; cbn in H; try discriminate.
  - destruct b as [|y b]; cbn in H; injection H as _ H; [destruct a; discriminate|]. eapply IH; eauto.
Qed.
Lemma sv_svh : forall a b, sv a <> svh b.
Proof.
  intros a b H. unfold sv, svh in H. apply (append_last (a ++ ".s") (b ++ ".sv") ""%string ""%string).
  rewrite !append_assoc_s. exact H.
Qed.
Lemma length_append_s : forall a b, String.length (a ++ b) = (String.length a + String.length b)%nat.
Proof. induction a as [|x a IH]; intros b; cbn; [reflexivity|]. now rewrite IH. Qed.
Lemma append_inj_r : forall a b c : string, (a ++ c = b ++ c)%string -> a = b.
Proof.
  induction a as [|x a IH]; intros [|y b] c H; auto; cbn in H.
  - exfalso. apply (f_equal String.length) in H. cbn in H. rewrite length_append_s in H. lia.
  - exfalso. apply (f_equal String.length) in H. cbn in H. rewrite length_append_s in H. lia.
  - injection H as <- H. f_equal. eauto.
Qed.
Lemma sv_inj : forall a b, sv a = sv b -> a = b.
Proof. intros a b. apply append_inj_r. Qed.
Lemma write_spec : forall now fs p t, exists f, write now fs p t p = Some f /\ f_text f = t
  /\ (forall f0, fs p = Some f0 -> f_text f0 = t -> f = f0) /\ ((forall f0, fs p = Some f0 -> f_text f0 <> t) -> f_stamp f = now).
Proof.
  intros now fs p t. unfold write. destruct (fs p) as [f0|] eqn:E.
  - destruct (String.eqb_spec (f_text f0) t) as [X|X].
    + exists f0. split; [exact E|]. split; [exact X|]. split; [congruence|]. intros H. now destruct (H f0 eq_refl).
    + rewrite String.eqb_refl. eexists. split; [reflexivity|]. split; [reflexivity|]. split; [|reflexivity]. intros f1 F G. injection F as <-. contradiction.
  - rewrite String.eqb_refl. eexists. split; [reflexivity|]. split; [reflexivity|]. split; [discriminate|reflexivity].
Qed.
Lemma write_other : forall now fs p t q, q <> p -> write now fs p t q = fs q.
Proof.
  intros now fs p t q N. unfold write. destruct (fs p) as [f0|]; [destruct (String.eqb _ _); [reflexivity|]|];
    destruct (String.eqb_spec q p); congruence.
Qed.
Lemma write_all_other : forall now l fs q, (forall n t, In (n, t) l -> q <> sv n) -> fst (write_all now fs l) q = fs q.
Proof.
  intros now. induction l as [|[n t] l IH]; intros fs q H; [reflexivity|]. cbn [write_all fst]. rewrite IH.
  - apply write_other. apply (H n t). now left.
  - intros m u I. apply (H m u). now right.
Qed.
Lemma write_all_in : forall now l fs n t, NoDup (map fst l) -> In (n, t) l -> exists f, fst (write_all now fs l) (sv n) = Some f /\ f_text f = t
  /\ (forall f0, fs (sv n) = Some f0 -> f_text f0 = t -> f = f0) /\ ((forall f0, fs (sv n) = Some f0 -> f_text f0 <> t) -> f_stamp f = now).
Proof.
  intros now. induction l as [|[m u] l IH]; intros fs n t D H; [destruct H|]. cbn [map fst] in D. inversion D as [|? ? N D']; subst. cbn [write_all fst].
  destruct H as [H|H].
  - injection H as -> ->. rewrite write_all_other; [apply write_spec|]. intros m u I K. apply sv_inj in K. subst. apply N. apply (in_map fst) in I. exact I.
  - destruct (IH (write now fs (sv m) u) n t D' H) as (f & A & B). rewrite write_other in B; [exists f; auto|]. intros K. apply sv_inj in K. subst.
    apply N. apply (in_map fst) in H. exact H.
Qed.
Lemma write_all_ids : forall now l fs n, NoDup (map fst l) ->
  (In n (snd (write_all now fs l)) <-> exists t, In (n, t) l /\ (forall f0, fs (sv n) = Some f0 -> f_text f0 <> t)).
Proof.
  intros now. induction l as [|[m u] l IH]; intros fs n D; [split; [intros []|intros (t & [] & _)]|].
  cbn [map fst] in D. inversion D as [|? ? N D']; subst. cbn [write_all snd].
  assert (W : written fs (sv m) u = true <-> forall f0, fs (sv m) = Some f0 -> f_text f0 <> u).
  { unfold written. destruct (fs (sv m)) as [f0|]; [|split; [discriminate|reflexivity]]. destruct (String.eqb_spec (f_text f0) u) as [X|X]; cbn.
    - split; [discriminate|]. intros H. now destruct (H f0 eq_refl).
    - split; [|reflexivity]. intros _ f1 F. injection F as <-. exact X. }
  assert (R : In n (snd (write_all now (write now fs (sv m) u) l)) <-> exists t, In (n, t) l /\ (forall f0, fs (sv n) = Some f0 -> f_text f0 <> t)).
  { rewrite (IH _ _ D'). split; intros (t & I & K); exists t; (split; [exact I|]);
      (rewrite write_other in * by (intros X; apply sv_inj in X; subst; apply N; apply (in_map fst) in I; exact I)); exact K. }
  split.
  - intros H. assert (K : n = m /\ written fs (sv m) u = true \/ In n (snd (write_all now (write now fs (sv m) u) l))).
    { destruct (written fs (sv m) u); [destruct H; auto|auto]. }
    destruct K as [[-> K]|K]; [exists u; split; [now left|now apply W]|]. apply R in K as (t & I & K). exists t. split; [now right|exact K].
  - intros (t & [I|I] & K).
    + injection I as -> ->. apply W in K. rewrite K. now left.
    + assert (X : In n (snd (write_all now (write now fs (sv m) u) l))) by (apply R; eauto). destruct (written fs (sv m) u); [now right|exact X].
Qed.
(* ---- enums ---- *)
Lemma enum_go : forall (l : list (string * Z)) c,
  (fix go (count : nat) (l0 : list (string * Z)) :=
     match l0 with
     | [] => []
     | e :: r => LItem e :: (if Nat.eqb (S count) (c + List.length l) then [] else [LComma]) ++ go (S count) r
     end) c l = comma_list l.
Proof.
  intros l c. assert (K : forall l c n, n = (c + List.length l)%nat -> (fix go (count : nat) (l0 : list (string * Z)) :=
     match l0 with
     | [] => []
     | e :: r => LItem e :: (if Nat.eqb (S count) n then [] else [LComma]) ++ go (S count) r
     end) c l = comma_list l); [|now apply K].
  clear l c. induction l as [|e l IH]; intros c n ->; [reflexivity|]. cbn [comma_list List.length]. rewrite (IH (S c)) by lia.
  destruct l as [|e' l]; cbn [List.length].
  - rewrite Nat.add_1_r, Nat.eqb_refl. reflexivity.
  - destruct (Nat.eqb_spec (S c) (c + S (S (List.length l)))); [lia|reflexivity].
Qed.
Lemma enum_text_ok : forall vs, enum_text vs = comma_list (ssort (fun a b => snd a <? snd b) vs).
Proof.
  intros vs. unfold enum_text. cbv zeta. rewrite (Permutation_length (ssort_perm (fun a b : string * Z => snd a <? snd b) vs)).
  apply (enum_go _ 0%nat).
Qed.
Lemma header_text : forall l o r, header_ok o (map HText l ++ r) = header_ok o r.
Proof. induction l as [|s l IH]; intros o r; [reflexivity|]. cbn [map app header_ok]. apply IH. Qed.
Lemma header_defs : forall ds o r, header_ok o (flat_map (fun d => map HText d ++ [HText ""]) ds ++ r) = header_ok o r.
Proof.
  induction ds as [|d ds IH]; intros o r; [reflexivity|]. cbn [flat_map]. rewrite <- !app_assoc, header_text. cbn [app header_ok]. apply IH.
Qed.
Lemma port_array_is : forall g, g_size g <> [] -> port_array g = is_array g.
Proof.
  intros g N. unfold port_array, is_array, front. destruct (g_size g) as [|n [|m l]]; [congruence| |]; cbn [List.length Nat.ltb Nat.leb].
  - now rewrite orb_false_r.
  - now rewrite orb_true_r.
Qed.
Lemma StronglySorted_app_r {A} {R : A -> A -> Prop} : forall a b, StronglySorted R (a ++ b) -> StronglySorted R b.
Proof. induction a as [|x a IH]; intros b H; [exact H|]. cbn in H. apply StronglySorted_inv in H as [H _]. auto. Qed.
Lemma Forall2_len {A B} {R : A -> B -> Prop} : forall a b, Forall2 R a b -> List.length a = List.length b.
Proof. induction 1; cbn; congruence. Qed.
Lemma nodup_tail {A} : forall a b : list A, NoDup (a ++ b) -> NoDup b.
Proof. induction a as [|x a IH]; intros b H; [exact H|]. inversion H; auto. Qed.
