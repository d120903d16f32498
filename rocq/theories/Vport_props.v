(* Theorems about reading the ports of a Verilog module: C438 - C443. *)
From Coq Require Import Ascii String.
From Verif Require Import Base Util_spec Util_model Util_proofs Vport_spec Vport_model.
Local Open Scope Z_scope.

(* -- characters --------------------------------------------------------------------------------------------------- *)
Lemma word_iff c : word_b c = true <-> is_word c.
Proof.
  unfold word_b, is_word, is_digit. rewrite !orb_true_iff, !andb_true_iff, !Z.leb_le, !Z.eqb_eq. tauto.
Qed.
Lemma digit_iff c : digit_b c = true <-> is_digit c.
Proof. unfold digit_b, is_digit. rewrite andb_true_iff, !Z.leb_le. tauto. Qed.
Lemma word_class c : is_word c -> class_b c = true.
Proof. intros H. unfold class_b. rewrite (proj2 (word_iff c) H). reflexivity. Qed.
Lemma digit_word c : is_digit c -> is_word c. Proof. left. assumption. Qed.
Lemma word_sep c : is_word c -> ~ In c (chars ", ").
Proof. intros H [E|[E|[]]]; subst c; unfold is_word, is_digit, code in H; cbn in H; lia. Qed.
Lemma digit_sep c : is_digit c -> ~ In c (chars "[:] ").
Proof. intros H I. unfold is_digit, code in H. cbn in I. repeat (destruct I as [I|I]; [subst c; cbn in H; lia|]). exact I. Qed.

(* -- searching ---------------------------------------------------------------------------------------------------- *)
Lemma ap_split t c : forall k y r, ~ In c k -> after_prefix k ((y ++ [c]) ++ t) = Some r -> exists y', y = k ++ y'.
Proof.
  induction k as [|x k IH]; intros y r N H; [exists y; reflexivity|]. destruct y as [|z y]; cbn in H.
  - destruct (Ascii.eqb_spec x c) as [->|]; [|discriminate]. destruct N. left; reflexivity.
  - destruct (Ascii.eqb_spec x z) as [->|]; [|discriminate]. destruct (IH y r (fun I => N (or_intror I)) H) as [y' ->]. exists y'. reflexivity.
Qed.
Lemma ap_occurs : forall k s r, after_prefix k s = Some r -> s = k ++ r.
Proof.
  induction k as [|x k IH]; intros s r H; [injection H as <-; reflexivity|]. destruct s as [|y s]; [discriminate|]. cbn in H.
  destruct (Ascii.eqb_spec x y) as [->|]; [|discriminate]. cbn. f_equal. apply IH, H.
Qed.
Lemma kw_word o c : In c (kw o) -> is_word c.
Proof.
  destruct o; cbn; intros I; repeat (destruct I as [I|I]; [subst c; right; right; left; unfold code; cbn; lia|]); destruct I.
Qed.
Lemma match_none s : (forall o, after_prefix (kw o) s = None) -> match_here s = None.
Proof. intros H. unfold match_here, match_kw. change (chars "input") with (kw false). change (chars "output") with (kw true). rewrite !H. reflexivity. Qed.
Lemma occurs_cons k c s : occurs k s -> occurs k (c :: s).
Proof. intros (a & b & ->). exists (c :: a), b. reflexivity. Qed.
Lemma search_skip c t : ~ is_word c -> forall x, (forall o, ~ occurs (kw o) x) -> search ((x ++ [c]) ++ t) = search t.
Proof.
  intros W. induction x as [|y x IH]; intros N.
  - cbn [app]. cbn [search]. rewrite match_none; [reflexivity|]. intros o. destruct (after_prefix (kw o) (c :: t)) as [r|] eqn:E; [|reflexivity].
    apply (ap_split t c (kw o) [] r) in E; [|intros I; exact (W (kw_word o c I))]. destruct E as [y' E]. destruct o; discriminate.
  - cbn [app search]. rewrite match_none; [apply IH; intros o O; exact (N o (occurs_cons _ _ _ O))|].
    intros o. destruct (after_prefix (kw o) (y :: (x ++ [c]) ++ t)) as [r|] eqn:E; [|reflexivity].
    apply (ap_split t c (kw o) (y :: x) r) in E; [|intros I; exact (W (kw_word o c I))]. destruct E as [y' E].
    destruct (N o). exists [], y'. exact E.
Qed.
Lemma search_none : forall s, (forall o, ~ occurs (kw o) s) -> search s = None.
Proof.
  induction s as [|y s IH]; intros N.
  - reflexivity.
  - cbn [search]. rewrite match_none; [apply IH; intros o O; exact (N o (occurs_cons _ _ _ O))|].
    intros o. destruct (after_prefix (kw o) (y :: s)) as [r|] eqn:E; [|reflexivity]. destruct (N o). exists [], r. exact (ap_occurs _ _ _ E).
Qed.
Lemma run_app : forall x c t, Forall (fun c => class_b c = true) x -> class_b c = false -> take_run (x ++ c :: t) = (x, c :: t).
Proof.
  induction x as [|y x IH]; intros c t F N; cbn.
  - rewrite N. reflexivity.
  - inversion F as [|? ? Fy Fx]; subst. rewrite Fy. rewrite (IH c t Fx N). reflexivity.
Qed.
Lemma run_all : forall x, Forall (fun c => class_b c = true) x -> take_run x = (x, []).
Proof.
  induction x as [|y x IH]; intros F; [reflexivity|]. inversion F as [|? ? Fy Fx]; subst. cbn. rewrite Fy, (IH Fx). reflexivity.
Qed.
Lemma prefix_self : forall k s, after_prefix k (k ++ s) = Some s.
Proof. induction k as [|x k IH]; intros s; [reflexivity|]. cbn. rewrite Ascii.eqb_refl. apply IH. Qed.
Lemma match_at o b c t : white_b b = true -> forall x, x <> [] -> Forall (fun c => class_b c = true) x -> class_b c = false ->
  search (kw o ++ b :: x ++ c :: t) = Some (kw o ++ b :: x, c :: t).
Proof.
  intros Wb x Nx F N.
  assert (M : match_kw (kw o) (kw o ++ b :: x ++ c :: t) = Some (kw o ++ b :: x, c :: t)).
  { unfold match_kw. rewrite prefix_self, Wb. cbn [orb]. rewrite (run_app x c t F N). destruct x; [congruence|reflexivity]. }
  assert (H : match_here (kw o ++ b :: x ++ c :: t) = Some (kw o ++ b :: x, c :: t)).
  { unfold match_here. destruct o; [|change (chars "input") with (kw false); rewrite M; reflexivity].
    change (chars "output") with (kw true). rewrite M. reflexivity. }
  destruct (kw o ++ b :: x ++ c :: t) as [|z s] eqn:E; [destruct o; discriminate|].
  cbn [search]. rewrite H. reflexivity.
Qed.

(* -- tokens ------------------------------------------------------------------------------------------------------- *)
Lemma sep_splits (D : ascii -> Prop) last : last <> [] -> Forall (fun c => ~ D c) last ->
  forall (l : list (list ascii * list ascii)) d, Forall D d ->
  (forall t b, In (t, b) l -> t <> [] /\ Forall (fun c => ~ D c) t /\ b <> [] /\ Forall D b) ->
  splits D (d ++ concat (map (fun p => fst p ++ snd p) l) ++ last) (map fst l ++ [last]).
Proof.
  intros Nl Fl. induction l as [|[t b] l IH]; intros d Fd H; cbn [map concat app fst snd].
  - pose proof (split_tok D d last [] [] Fd Nl Fl I (split_end D [] (Forall_nil _))) as S. rewrite app_nil_r in S. exact S.
  - destruct (H t b (or_introl eq_refl)) as (Nt & Ft & Nb & Fb). rewrite <- !app_assoc. apply split_tok; trivial.
    + destruct b as [|c b]; [congruence|]. inversion Fb; assumption.
    + apply (IH b Fb). intros t' b' I. apply H. right; exact I.
Qed.
Lemma tokens_of (delims last : list ascii) (l : list (list ascii * list ascii)) :
  last <> [] -> Forall (fun c => ~ In c delims) last ->
  (forall t b, In (t, b) l -> t <> [] /\ Forall (fun c => ~ In c delims) t /\ b <> [] /\ Forall (fun c => In c delims) b) ->
  get_tokens (concat (map (fun p => fst p ++ snd p) l) ++ last) delims = map fst l ++ [last].
Proof.
  intros N F H. eapply splits_unique; [apply get_tokens_splits|]. exact (sep_splits (fun c => In c delims) last N F l [] (Forall_nil _) H).
Qed.

(* -- one declaration ---------------------------------------------------------------------------------------------- *)
Lemma name_eqb_eq a b : name_eqb a b = true <-> a = b.
Proof. unfold name_eqb. destruct (list_eq_dec ascii_dec a b); split; congruence. Qed.
Lemma name_neqb a b : a <> b -> name_eqb a b = false.
Proof. intros N. unfold name_eqb. destruct (list_eq_dec ascii_dec a b); congruence. Qed.
Lemma opens_word c s : is_word c -> opens (c :: s) = false.
Proof. intros H. cbn. apply Z.eqb_neq. unfold is_word, is_digit in H. lia. Qed.

Lemma emplace_new r n p : ~ In n (map fst r) -> emplace r n p = r ++ [(n, p)].
Proof.
  intros N. unfold emplace. destruct (existsb _ r) eqn:E; [|reflexivity]. apply existsb_exists in E. destruct E as (x & I & Q).
  apply name_eqb_eq in Q. destruct N. rewrite <- Q. apply in_map, I.
Qed.
Lemma one_name n k d hi lo r : ident n -> one n k d hi lo r = k d hi lo (emplace r n (d, (hi - lo + 1) mod 2 ^ 32)).
Proof.
  intros (Nn & Fw & Ni & No & Nio). unfold one. destruct n as [|c n]; [congruence|]. inversion Fw; subst. rewrite opens_word by assumption.
  cbn [andb]. rewrite !name_neqb by assumption. reflexivity.
Qed.
Lemma loop_name n rest d hi lo r : ident n ->
  token_loop (n :: rest) d hi lo r = token_loop rest d hi lo (emplace r n (d, (hi - lo + 1) mod 2 ^ 32)).
Proof.
  intros I. rewrite <- (one_name n (token_loop rest) d hi lo r I). destruct I as (Nn & Fw & _). destruct n as [|c n]; [congruence|].
  inversion Fw; subst. cbn [token_loop]. rewrite opens_word by assumption. reflexivity.
Qed.
Lemma names_ok d hi lo : forall names r, Forall ident names -> NoDup (map fst r ++ names) ->
  token_loop names d hi lo r = Ok (r ++ map (fun n => (n, (d, (hi - lo + 1) mod 2 ^ 32))) names).
Proof.
  induction names as [|n names IH]; intros r F N; [cbn; rewrite app_nil_r; reflexivity|]. inversion F as [|? ? In_ Fn]; subst.
  rewrite (loop_name _ _ _ _ _ _ In_). rewrite emplace_new.
  - rewrite IH; trivial.
    + cbn [map]. rewrite <- app_assoc. reflexivity.
    + rewrite map_app. cbn [map fst]. rewrite <- app_assoc. exact N.
  - intros I. apply NoDup_remove_2 in N. apply N, in_app_iff. left; exact I.
Qed.
Lemma take_digits_all : forall s, Forall is_digit s -> take_digits s = s.
Proof. induction s as [|c s IH]; intros F; [reflexivity|]. inversion F; subst. cbn. rewrite (proj2 (digit_iff c)) by assumption. f_equal. apply IH; assumption. Qed.
Lemma dec_nonneg : forall s a, Forall is_digit s -> 0 <= a -> 0 <= fold_left (fun a c => 10 * a + (code c - 48)) s a.
Proof. induction s as [|c s IH]; intros a F A; [exact A|]. inversion F as [|? ? D F']; subst. cbn [fold_left]. apply IH; [exact F'|]. unfold is_digit in D. lia. Qed.
Lemma stoi_number s : number s -> stoi s = Ok (dec s) /\ 0 <= dec s.
Proof.
  intros (N & F & B). assert (P : 0 <= dec s) by (apply dec_nonneg; [exact F|lia]). split; [|exact P].
  destruct s as [|c s]; [congruence|]. inversion F as [|? ? D F']; subst. unfold is_digit in D.
  assert (W : white_b c = false). { unfold white_b. apply orb_false_iff. split; [apply Z.eqb_neq; lia|]. apply andb_false_iff. right. apply Z.leb_gt. lia. }
  unfold stoi. cbn [skip_white]. rewrite W. destruct (Z.eqb_spec (code c) 45); [lia|]. destruct (Z.eqb_spec (code c) 43); [lia|].
  rewrite (take_digits_all (c :: s) F).
  assert (L : (- 2 ^ 31 <=? dec (c :: s)) = true) by (apply Z.leb_le; lia).
  assert (U : (dec (c :: s) <? 2 ^ 31) = true) by (apply Z.ltb_lt; exact B).
  rewrite L, U. cbn [andb]. rewrite Z.mod_small by lia. reflexivity.
Qed.
(* [hi:lo] *)
Lemma bracket_ends h l : opens (bracket h l) = true /\ closes (bracket h l) = true.
Proof. split; [reflexivity|]. unfold closes, bracket. rewrite !rev_app_distr. reflexivity. Qed.
Lemma digits_nosep l : Forall is_digit l -> Forall (fun c => ~ In c (chars "[:] ")) l.
Proof. intros F. eapply Forall_impl; [|exact F]. intros c. apply digit_sep. Qed.
Lemma bracket_tokens h l : number h -> number l -> get_tokens (bracket h l) (chars "[:] ") = [h; l].
Proof.
  intros (Nh & Fh & _) (Nl & Fl & _). eapply splits_unique; [apply get_tokens_splits|].
  set (D := fun c => In c (chars "[:] ")).
  assert (S1 : splits D (chars "]") []) by (constructor; constructor; [right; right; left; reflexivity|constructor]).
  assert (S2 : splits D (chars ":" ++ l ++ chars "]") [l]).
  { apply split_tok; trivial.
    - constructor; [right; left; reflexivity|constructor].
    - exact (digits_nosep l Fl).
    - right; right; left; reflexivity. }
  unfold bracket. apply split_tok; trivial.
  - constructor; [left; reflexivity|constructor].
  - exact (digits_nosep h Fh).
  - right; left; reflexivity.
Qed.
Lemma loop_bracket h l rest d hi lo r : number h -> number l -> dec l <= dec h ->
  token_loop (bracket h l :: rest) d hi lo r = token_loop rest d (dec h) (dec l) r.
Proof.
  intros Nh Nl L. destruct (bracket_ends h l) as [O C]. destruct (stoi_number h Nh) as [Sh _]. destruct (stoi_number l Nl) as [Sl _].
  transitivity (one (bracket h l) (token_loop rest) d hi lo r).
  - cbn [token_loop]. destruct (bracket h l) as [|c s] eqn:E; [discriminate|]. rewrite O, C. reflexivity.
  - unfold one. rewrite O, C. cbn [andb]. rewrite (bracket_tokens h l Nh Nl), Sh. cbn [obind]. rewrite Sl. cbn [obind].
    assert (Q : (dec h <? dec l) = false) by (apply Z.ltb_ge; exact L). rewrite Q. reflexivity.
Qed.

Definition range_tokens (r : option (list ascii * list ascii)) : list (list ascii) :=
  match r with None => [] | Some (h, l) => [bracket h l] end.
Lemma commas_concat : forall l x, commas (l ++ [x]) = concat (map (fun p => fst p ++ snd p) (map (fun n => (n, chars ", ")) l)) ++ x.
Proof.
  induction l as [|y l IH]; intros x; [reflexivity|]. cbn [app map concat fst snd].
  rewrite <- !app_assoc. rewrite <- IH. destruct l; reflexivity.
Qed.
Lemma ident_sep n : ident n -> n <> [] /\ Forall (fun c => ~ In c (chars ", ")) n.
Proof. intros (N & F & _). split; [exact N|]. eapply Forall_impl; [|exact F]. intros c. apply word_sep. Qed.
Lemma bracket_sep h l : number h -> number l -> bracket h l <> [] /\ Forall (fun c => ~ In c (chars ", ")) (bracket h l).
Proof.
  intros (_ & Fh & _) (_ & Fl & _). split; [discriminate|]. unfold bracket.
  assert (Dg : forall s, Forall is_digit s -> Forall (fun c => ~ In c (chars ", ")) s).
  { intros s F. eapply Forall_impl; [|exact F]. intros c D. apply word_sep, digit_word, D. }
  assert (Ch : forall c, In c (chars "[:]") -> ~ In c (chars ", ")).
  { intros c I [E|[E|[]]]; subst c; cbn in I; intuition discriminate. }
  repeat (apply Forall_app; split); auto; constructor; try constructor; apply Ch; cbn; auto.
Qed.
Lemma decl_tokens d : decl_ok d -> get_tokens (decl_text d) (chars ", ") = kw (d_out d) :: range_tokens (d_range d) ++ d_names d.
Proof.
  intros (Nn & Fn & R). destruct (exists_last Nn) as (l & x & E).
  set (pre := (kw (d_out d), chars " ") :: map (fun t => (t, chars " ")) (range_tokens (d_range d)) ++ map (fun n => (n, chars ", ")) l).
  assert (T : decl_text d = concat (map (fun p => fst p ++ snd p) pre) ++ x).
  { unfold pre, decl_text. rewrite E, commas_concat. cbn [map concat fst snd]. rewrite map_app, concat_app, <- !app_assoc. f_equal. f_equal.
    destruct (d_range d) as [[h lo]|]; [|reflexivity]. cbn [range_tokens range_text map concat fst snd]. unfold bracket. rewrite ?app_nil_r, <- ?app_assoc. reflexivity. }
  assert (Fx : Forall ident l /\ ident x).
  { rewrite E in Fn. apply Forall_app in Fn. destruct Fn as [A B]. split; [exact A|]. inversion B; assumption. }
  destruct Fx as [Fl Ix]. destruct (ident_sep x Ix) as [Nx Sx].
  rewrite T, tokens_of; trivial.
  - unfold pre. cbn [map fst]. rewrite map_app, !map_map. cbn [fst]. rewrite !map_id, E. cbn [app]. rewrite <- app_assoc. reflexivity.
  - assert (Sp : chars " " <> [] /\ Forall (fun c => In c (chars ", ")) (chars " ")) by (split; [discriminate|repeat constructor; cbn; auto]).
    assert (Sc : chars ", " <> [] /\ Forall (fun c => In c (chars ", ")) (chars ", ")) by (split; [discriminate|repeat constructor; cbn; auto]).
    intros t b I. unfold pre in I. destruct I as [I|I].
    + injection I as <- <-. split; [destruct (d_out d); discriminate|]. split; [|exact Sp].
      apply Forall_forall. intros c J. apply word_sep. exact (kw_word _ _ J).
    + apply in_app_iff in I. destruct I as [I|I]; apply in_map_iff in I; destruct I as (u & Q & J); injection Q as <- <-.
      * split; [|split; [|exact Sp]]; destruct (d_range d) as [[h lo]|]; try destruct J as [<-|[]]; try destruct J; destruct R as (Nh & Nlo & _); apply (bracket_sep h lo Nh Nlo).
      * rewrite Forall_forall in Fl. destruct (ident_sep u (Fl _ J)) as [A B]. split; [exact A|]. split; [exact B|exact Sc].
Qed.
Lemma declaration_ok d r : decl_ok d -> NoDup (map fst r ++ d_names d) -> declaration (decl_text d) r = Ok (r ++ decl_ports d).
Proof.
  intros K N. pose proof K as (Nn & Fn & R). unfold declaration. rewrite (decl_tokens d K).
  assert (B : token_loop (range_tokens (d_range d) ++ d_names d) (decl_dir d) 0 0 r = Ok (r ++ decl_ports d)).
  { unfold decl_ports, decl_width. destruct (d_range d) as [[h l]|]; cbn [range_tokens app].
    - destruct R as (Nh & Nl & L). rewrite loop_bracket by assumption. rewrite names_ok by assumption.
      destruct (stoi_number h Nh) as [_ Ph]. destruct (stoi_number l Nl) as [_ Pl]. destruct Nh as (_ & _ & Bh).
      rewrite Z.mod_small by lia. reflexivity.
    - rewrite names_ok by assumption. reflexivity. }
  destruct (range_tokens (d_range d) ++ d_names d) as [|t ts] eqn:E.
  - destruct (range_tokens (d_range d)); [|discriminate]. cbn in E. congruence.
  - unfold decl_dir in B. destruct (d_out d); exact B.
Qed.
Lemma decl_run d : decl_ok d -> exists x, decl_text d = kw (d_out d) ++ " "%char :: x /\ x <> [] /\ Forall (fun c => class_b c = true) x.
Proof.
  intros (Nn & Fn & R). exists (range_text (d_range d) ++ commas (d_names d)). split; [reflexivity|].
  assert (Wc : forall s, Forall is_word s -> Forall (fun c => class_b c = true) s) by (intros s F; eapply Forall_impl; [|exact F]; apply word_class).
  assert (Dc : forall s, Forall is_digit s -> Forall (fun c => class_b c = true) s) by (intros s F; apply Wc; eapply Forall_impl; [|exact F]; apply digit_word).
  assert (C : commas (d_names d) <> [] /\ Forall (fun c => class_b c = true) (commas (d_names d))).
  { clear R. induction (d_names d) as [|n l IH]; [congruence|]. inversion Fn as [|? ? (Nx & Fw & _) Fl]; subst. destruct l as [|m l].
    - split; [exact Nx|exact (Wc _ Fw)].
    - change (commas (n :: m :: l)) with (n ++ chars ", " ++ commas (m :: l)). split; [destruct n; [congruence|discriminate]|].
      apply Forall_app. split; [exact (Wc _ Fw)|]. apply Forall_app. split; [repeat constructor|]. apply IH; [discriminate|exact Fl]. }
  split.
  - destruct C as [C _]. destruct (range_text (d_range d)); [exact C|discriminate].
  - apply Forall_app. split; [|apply C]. destruct (d_range d) as [[h l]|]; [|constructor]. destruct R as ((_ & Fh & _) & (_ & Fl & _) & _).
    unfold range_text. repeat (apply Forall_app; split); auto; repeat constructor.
Qed.

(* C438: the ports of a module that are declared one after another, each declaration with its direction, possibly a
   range, and names, are all found, with the right directions and widths, and there are no others. *)
Theorem C438_ports : forall header (items : list (decl * list ascii)) rest,
  quiet header -> (forall d g, In (d, g) items -> decl_ok d /\ gap g) -> (forall o, ~ occurs (kw o) rest) ->
  NoDup (flat_map (fun p => d_names (fst p)) items) ->
  get_ports (header ++ concat (map (fun p => decl_text (fst p) ++ snd p) items) ++ rest) = Ok (flat_map (fun p => decl_ports (fst p)) items).
Proof.
  assert (Sk : forall q t, quiet q -> search (q ++ t) = search t).
  { intros q t (x & c & -> & W & N). apply search_skip; assumption. }
  assert (G : forall rest, (forall o, ~ occurs (kw o) rest) -> forall (items : list (decl * list ascii)) fuel q r, (List.length items < fuel)%nat -> quiet q ->
    (forall d g, In (d, g) items -> decl_ok d /\ gap g) -> NoDup (map fst r ++ flat_map (fun p => d_names (fst p)) items) ->
    mod_loop fuel (q ++ concat (map (fun p => decl_text (fst p) ++ snd p) items) ++ rest) r = Ok (r ++ flat_map (fun p => decl_ports (fst p)) items)).
  { intros rest Nr. induction items as [|[d g] items IH]; intros fuel q r Lf Q H N; (destruct fuel as [|fuel]; [cbn in Lf; lia|]); cbn [mod_loop].
    - rewrite (Sk q _ Q). cbn [map concat app flat_map]. rewrite (search_none rest Nr), app_nil_r. reflexivity.
    - rewrite (Sk q _ Q). cbn [map concat fst snd flat_map]. destruct (H d g (or_introl eq_refl)) as (K & Qg & Hg).
      destruct (decl_run d K) as (x & E & Nx & Fx). destruct g as [|c g]; [destruct Hg|].
      assert (Hc : class_b c = false) by (destruct Hg as [->| ->]; reflexivity).
      rewrite <- !app_assoc, E, <- app_assoc. cbn [app]. rewrite (match_at (d_out d) " "%char c _ eq_refl x Nx Fx Hc), <- E.
      cbn [flat_map fst] in N. rewrite (declaration_ok d r K).
      + cbn [obind]. change (c :: g ++ concat (map (fun p : decl * list ascii => decl_text (fst p) ++ snd p) items) ++ rest)
          with ((c :: g) ++ concat (map (fun p : decl * list ascii => decl_text (fst p) ++ snd p) items) ++ rest).
        rewrite IH; trivial.
        * rewrite <- app_assoc. reflexivity.
        * cbn in Lf. lia.
        * intros d' g' I. apply H. right; exact I.
        * rewrite map_app. unfold decl_ports at 1. rewrite map_map. cbn [fst]. rewrite map_id, <- app_assoc. exact N.
      + rewrite app_assoc in N. clear - N. revert N. generalize (map fst r ++ d_names d). intros u N. induction u as [|z u IHu]; [constructor|]. inversion N; subst. constructor; [|apply IHu; assumption]. rewrite in_app_iff in *. tauto. }
  intros header items rest Q H Nr N. unfold get_ports.
  rewrite (G rest Nr items _ header []); trivial.
  assert (L : forall its : list (decl * list ascii), (List.length its <= List.length (concat (map (fun p => decl_text (fst p) ++ snd p) its)))%nat).
  { induction its as [|[d g] its IH]; [cbn; lia|]. cbn [map concat fst snd]. rewrite !app_length. cbn [List.length].
    assert (1 <= List.length (decl_text d))%nat by (unfold decl_text; rewrite app_length; destruct (d_out d); cbn; lia). lia. }
  rewrite !app_length. specialize (L items). lia.
Qed.
Example C438_ex : get_ports (chars "module m(a, f); output [3:0] f; input a, b; endmodule")
  = Ok [(chars "f", (DOut, 4)); (chars "a", (DIn, 1)); (chars "b", (DIn, 1))].
Proof. reflexivity. Qed.
Example C438_applies_ex : quiet (chars "module m(a, f); ") /\ gap (chars "; ") /\ (forall o, ~ occurs (kw o) (chars "endmodule"))
  /\ decl_ok (mkD true (Some (chars "3", chars "0")) [chars "f"]) /\ decl_ok (mkD false None [chars "a"; chars "b"])
  /\ chars "module m(a, f); output [3:0] f; input a, b; endmodule"
     = chars "module m(a, f); " ++ concat (map (fun p => decl_text (fst p) ++ snd p)
         [(mkD true (Some (chars "3", chars "0")) [chars "f"], chars "; "); (mkD false None [chars "a"; chars "b"], chars "; ")])
       ++ chars "endmodule".
Proof.
  assert (T : forall s k, (fix f (s : list ascii) : bool := match after_prefix k s with Some _ => false | None => match s with [] => true | _ :: s' => f s' end end) s = true -> ~ occurs k s).
  { intros s k H (a & b & E). subst s. induction a as [|c a IH]; cbn [app] in H.
    - pose proof (prefix_self k b) as P. destruct (k ++ b); rewrite P in H; discriminate.
    - apply IH. destruct (after_prefix k (c :: a ++ k ++ b)); [discriminate|exact H]. }
  assert (W : ~ is_word " "%char) by (unfold is_word, is_digit, code; cbn; lia).
  split; [|split; [|split; [|split; [|split; [|reflexivity]]]]].
  - exists (chars "module m(a, f);"), " "%char. split; [reflexivity|]. split; [exact W|]. intros []; apply T; reflexivity.
  - split; [|left; reflexivity]. exists (chars ";"), " "%char. split; [reflexivity|]. split; [exact W|]. intros []; apply T; reflexivity.
  - intros []; apply T; reflexivity.
  - split; [discriminate|]. split.
    + constructor; [|constructor]. repeat split; try discriminate. constructor; [|constructor]. apply word_iff. reflexivity.
    + cbn [d_range]. repeat split; try discriminate; try (constructor; [|constructor]; apply digit_iff; reflexivity).
  - split; [discriminate|]. split; [|exact I].
    repeat (constructor; [repeat split; try discriminate; constructor; [|constructor]; apply word_iff; reflexivity|]). constructor.
Qed.

(* -- what is read wrong ------------------------------------------------------------------------------------------- *)
Lemma get_one o b x c : white_b b = true -> x <> [] -> Forall (fun c => class_b c = true) x -> class_b c = false -> ~ is_word c ->
  get_ports (kw o ++ b :: x ++ [c]) = declaration (kw o ++ b :: x) [].
Proof.
  intros Wb Nx F N W. unfold get_ports. cbn [mod_loop]. rewrite (match_at o b c [] Wb x Nx F N).
  destruct (declaration (kw o ++ b :: x) []) as [r| |]; cbn [obind]; try reflexivity.
  destruct (List.length (kw o ++ b :: x ++ [c])) as [|n] eqn:E; [destruct o; discriminate|]. cbn [mod_loop].
  assert (Z : search [c] = None).
  { pose proof (search_skip c [] W []) as S. cbn [app] in S. rewrite S; [reflexivity|]. intros o' (a & e & X). destruct a; destruct o'; discriminate. }
  rewrite Z. reflexivity.
Qed.
Lemma class_word s : Forall is_word s -> Forall (fun c => class_b c = true) s.
Proof. intros F. eapply Forall_impl; [|exact F]. apply word_class. Qed.
Lemma class_ident s : ident s -> Forall (fun c => class_b c = true) s.
Proof. intros (_ & F & _). apply class_word, F. Qed.
Lemma class_number s : number s -> Forall (fun c => class_b c = true) s.
Proof. intros (_ & F & _). apply class_word. eapply Forall_impl; [|exact F]. apply digit_word. Qed.
Lemma class_kw o : Forall (fun c => class_b c = true) (kw o).
Proof. apply class_word. apply Forall_forall. intros c. apply kw_word. Qed.
Lemma not_word_semi : ~ is_word ";"%char. Proof. unfold is_word, is_digit, code; cbn; lia. Qed.
Lemma sep_space : chars " " <> [] /\ Forall (fun c => In c (chars ", ")) (chars " ").
Proof. split; [discriminate|repeat (constructor; [cbn; auto|]); constructor]. Qed.
Lemma sep_comma : chars ", " <> [] /\ Forall (fun c => In c (chars ", ")) (chars ", ").
Proof. split; [discriminate|repeat (constructor; [cbn; auto|]); constructor]. Qed.
Lemma kw_sep o : kw o <> [] /\ Forall (fun c => ~ In c (chars ", ")) (kw o).
Proof. split; [destruct o; discriminate|]. apply Forall_forall. intros c J. apply word_sep. exact (kw_word _ _ J). Qed.
Lemma start_ok m o t ts r : get_tokens m (chars ", ") = kw o :: t :: ts -> declaration m r = token_loop (t :: ts) (dir_of o) 0 0 r.
Proof. intros E. unfold declaration. rewrite E. destruct o; reflexivity. Qed.
Lemma loop_kw o rest d hi lo r : token_loop (kw o :: rest) d hi lo r = token_loop rest (dir_of o) hi lo r.
Proof. destruct o; reflexivity. Qed.

(* C439: a port in a list of declarations need not have the width it is declared with: without a range of its own it has
   the width of the declaration before. *)
Theorem C439_width_refuted :
  (forall o h l a o2 b, number h -> number l -> dec l <= dec h -> ident a -> ident b -> a <> b ->
     get_ports (decl_text (mkD o (Some (h, l)) [a]) ++ chars ", " ++ decl_text (mkD o2 None [b]) ++ chars ";")
     = Ok [(a, (dir_of o, dec h - dec l + 1)); (b, (dir_of o2, dec h - dec l + 1))])
  /\ ~ (forall d1 d2, decl_ok d1 -> decl_ok d2 -> NoDup (d_names d1 ++ d_names d2) ->
          get_ports (decl_text d1 ++ chars ", " ++ decl_text d2 ++ chars ";") = Ok (decl_ports d1 ++ decl_ports d2)).
Proof.
  assert (A : forall o h l a o2 b, number h -> number l -> dec l <= dec h -> ident a -> ident b -> a <> b ->
     get_ports (decl_text (mkD o (Some (h, l)) [a]) ++ chars ", " ++ decl_text (mkD o2 None [b]) ++ chars ";")
     = Ok [(a, (dir_of o, dec h - dec l + 1)); (b, (dir_of o2, dec h - dec l + 1))]).
  { intros o h l a o2 b Nh Nl L Ia Ib Nab.
    set (x := bracket h l ++ chars " " ++ a ++ chars ", " ++ kw o2 ++ chars " " ++ b).
    assert (T : decl_text (mkD o (Some (h, l)) [a]) ++ chars ", " ++ decl_text (mkD o2 None [b]) ++ chars ";" = kw o ++ " "%char :: x ++ [";"%char]).
    { unfold x, decl_text, bracket. cbn [d_out d_range d_names commas range_text]. rewrite <- !app_assoc. reflexivity. }
    rewrite T, get_one; [|reflexivity|discriminate| |reflexivity|apply not_word_semi].
    2:{ unfold x, bracket. repeat (apply Forall_app; split); first [apply class_number; assumption | apply class_ident; assumption | apply class_kw | repeat constructor]. }
    rewrite (start_ok _ o (bracket h l) [a; kw o2; b]).
    - rewrite loop_bracket by assumption. rewrite loop_name by assumption. rewrite loop_kw. rewrite loop_name by assumption.
      destruct (stoi_number h Nh) as [_ Ph]. destruct (stoi_number l Nl) as [_ Pl]. destruct Nh as (_ & _ & Bh).
      rewrite (emplace_new []) by (intros []). cbn [app]. rewrite emplace_new by (intros [X|[]]; cbn [fst] in X; congruence). cbn [app token_loop].
      rewrite Z.mod_small by lia. reflexivity.
    - pose proof (tokens_of (chars ", ") b [(kw o, chars " "); (bracket h l, chars " "); (a, chars ", "); (kw o2, chars " ")]) as Tk.
      cbn [map concat fst snd app] in Tk. rewrite app_nil_r, <- !app_assoc in Tk. unfold x. cbn [app] in *.
      destruct (ident_sep b Ib) as [B1 B2]. destruct (ident_sep a Ia) as [A1 A2]. destruct (bracket_sep h l Nh Nl) as [R1 R2].
      apply (Tk B1 B2). destruct sep_space, sep_comma. pose proof (kw_sep o) as []. pose proof (kw_sep o2) as [].
      intros t s [I|[I|[I|[I|[]]]]]; injection I as <- <-; auto. }
  split; [exact A|]. intros H.
  assert (Ka : ident (chars "a")) by (repeat split; try discriminate; constructor; [|constructor]; apply word_iff; reflexivity).
  assert (Kb : ident (chars "b")) by (repeat split; try discriminate; constructor; [|constructor]; apply word_iff; reflexivity).
  assert (N3 : number (chars "3")) by (repeat split; try discriminate; constructor; [|constructor]; apply digit_iff; reflexivity).
  assert (N0 : number (chars "0")) by (repeat split; try discriminate; constructor; [|constructor]; apply digit_iff; reflexivity).
  specialize (H (mkD false (Some (chars "3", chars "0")) [chars "a"]) (mkD false None [chars "b"])).
  rewrite A in H; trivial; try discriminate.
  assert (X : Ok [(chars "a", (DIn, 4)); (chars "b", (DIn, 4))] = Ok [(chars "a", (DIn, 4)); (chars "b", (DIn, 1))]).
  { apply H.
    - split; [discriminate|]. split; [constructor; [assumption|constructor]|]. cbn. repeat split; try apply N3; try apply N0; try discriminate.
    - split; [discriminate|]. split; [constructor; [assumption|constructor]|exact I].
    - cbn. repeat constructor; cbn; intuition discriminate. }
  discriminate.
Qed.

(* C440: a port declared with a type is not read right: the type is taken for a port. *)
Theorem C440_type_refuted :
  (forall o ty a, ident ty -> ident a -> ty <> a ->
     get_ports (kw o ++ chars " " ++ ty ++ chars " " ++ a ++ chars ";") = Ok [(ty, (dir_of o, 1)); (a, (dir_of o, 1))])
  /\ ~ (forall o a, ident a -> a <> chars "logic" ->
          get_ports (kw o ++ chars " logic " ++ a ++ chars ";") = Ok [(a, (dir_of o, 1))]).
Proof.
  assert (A : forall o ty a, ident ty -> ident a -> ty <> a ->
     get_ports (kw o ++ chars " " ++ ty ++ chars " " ++ a ++ chars ";") = Ok [(ty, (dir_of o, 1)); (a, (dir_of o, 1))]).
  { intros o ty a It Ia Nta. set (x := ty ++ chars " " ++ a).
    assert (T : kw o ++ chars " " ++ ty ++ chars " " ++ a ++ chars ";" = kw o ++ " "%char :: x ++ [";"%char]).
    { unfold x. rewrite <- !app_assoc. reflexivity. }
    destruct (ident_sep ty It) as [T1 T2]. destruct (ident_sep a Ia) as [A1 A2].
    rewrite T, get_one; [|reflexivity| | |reflexivity|apply not_word_semi].
    2:{ unfold x. destruct ty; [congruence|discriminate]. }
    2:{ unfold x. repeat (apply Forall_app; split); first [apply class_number; assumption | apply class_ident; assumption | apply class_kw | repeat constructor]. }
    rewrite (start_ok _ o ty [a]).
    - rewrite !loop_name by assumption. rewrite (emplace_new []) by (intros []). cbn [app]. rewrite emplace_new by (intros [X|[]]; cbn [fst] in X; congruence). reflexivity.
    - pose proof (tokens_of (chars ", ") a [(kw o, chars " "); (ty, chars " ")]) as Tk.
      cbn [map concat fst snd app] in Tk. rewrite app_nil_r, <- !app_assoc in Tk. unfold x. cbn [app] in *.
      apply (Tk A1 A2). destruct sep_space. pose proof (kw_sep o) as [].
      intros t s [I|[I|[]]]; injection I as <- <-; auto. }
  split; [exact A|]. intros H.
  assert (Ka : ident (chars "a")) by (repeat split; try discriminate; constructor; [|constructor]; apply word_iff; reflexivity).
  specialize (H false (chars "a") Ka ltac:(discriminate)). discriminate.
Qed.

(* C441: a port whose width is an expression cannot be read: the program reads past the end of its tokens. *)
Theorem C441_expression_refuted :
  (forall o w rest, ident w -> get_ports (kw o ++ chars " [" ++ w ++ chars "-" ++ rest) = UB)
  /\ ~ (forall o w rest, ident w -> get_ports (kw o ++ chars " [" ++ w ++ chars "-" ++ rest) <> UB).
Proof.
  assert (A : forall o w rest, ident w -> get_ports (kw o ++ chars " [" ++ w ++ chars "-" ++ rest) = UB).
  { intros o w rest Iw. assert (F : Forall (fun c => class_b c = true) ("["%char :: w)) by (constructor; [reflexivity|apply class_ident, Iw]).
    unfold get_ports. cbn [mod_loop].
    assert (S : search (kw o ++ " "%char :: ("["%char :: w) ++ "-"%char :: rest) = Some (kw o ++ " "%char :: "["%char :: w, "-"%char :: rest)).
    { apply match_at; try reflexivity; [discriminate|exact F]. }
    change (kw o ++ chars " [" ++ w ++ chars "-" ++ rest) with (kw o ++ " "%char :: ("["%char :: w) ++ "-"%char :: rest). rewrite S.
    rewrite (start_ok _ o ("["%char :: w) []).
    - destruct Iw as (Nw & Fw & _). destruct (exists_last Nw) as (y & c & ->). apply Forall_app in Fw. destruct Fw as [_ Fw]. inversion Fw as [|? ? Wc _]; subst.
      cbn [token_loop]. assert (O : opens ("["%char :: y ++ [c]) = true) by reflexivity.
      assert (C : closes ("["%char :: y ++ [c]) = false).
      { unfold closes. change ("["%char :: y ++ [c]) with (("["%char :: y) ++ [c]). rewrite rev_app_distr. cbn. apply Z.eqb_neq. unfold is_word, is_digit in Wc. lia. }
      rewrite O, C. reflexivity.
    - pose proof (tokens_of (chars ", ") ("["%char :: w) [(kw o, chars " ")]) as Tk.
      cbn [map concat fst snd app] in Tk. rewrite app_nil_r, <- !app_assoc in Tk. cbn [app] in *.
      apply Tk; [discriminate| |].
      + constructor; [cbn; intuition discriminate|]. exact (proj2 (ident_sep w Iw)).
      + destruct sep_space. pose proof (kw_sep o) as []. intros t s [I|[]]; injection I as <- <-; auto. }
  split; [exact A|]. intros H.
  assert (Ka : ident (chars "W")) by (repeat split; try discriminate; constructor; [|constructor]; apply word_iff; reflexivity).
  exact (H false (chars "W") [] Ka (A _ _ _ Ka)).
Qed.

(* C442: declarations in a list that are on lines of their own are not read right: the line break and the keyword become
   a port, and the port after them has the direction of the one before. *)
Definition nl : ascii := ascii_of_nat 10.
Theorem C442_newline_refuted :
  (forall o a o2 b, ident a -> ident b -> a <> b ->
     get_ports (kw o ++ chars " " ++ a ++ chars "," ++ nl :: kw o2 ++ chars " " ++ b ++ chars ";")
     = Ok [(a, (dir_of o, 1)); (nl :: kw o2, (dir_of o, 1)); (b, (dir_of o, 1))])
  /\ ~ (forall o a o2 b, ident a -> ident b -> a <> b ->
          get_ports (kw o ++ chars " " ++ a ++ chars "," ++ nl :: kw o2 ++ chars " " ++ b ++ chars ";")
          = Ok [(a, (dir_of o, 1)); (b, (dir_of o2, 1))]).
Proof.
  assert (A : forall o a o2 b, ident a -> ident b -> a <> b ->
     get_ports (kw o ++ chars " " ++ a ++ chars "," ++ nl :: kw o2 ++ chars " " ++ b ++ chars ";")
     = Ok [(a, (dir_of o, 1)); (nl :: kw o2, (dir_of o, 1)); (b, (dir_of o, 1))]).
  { intros o a o2 b Ia Ib Nab. set (x := a ++ chars "," ++ nl :: kw o2 ++ chars " " ++ b).
    assert (T : kw o ++ chars " " ++ a ++ chars "," ++ nl :: kw o2 ++ chars " " ++ b ++ chars ";" = kw o ++ " "%char :: x ++ [";"%char]).
    { unfold x. cbn [app]. rewrite <- !app_assoc. cbn [app]. rewrite <- !app_assoc. reflexivity. }
    destruct (ident_sep b Ib) as [B1 B2]. destruct (ident_sep a Ia) as [A1 A2].
    rewrite T, get_one; [|reflexivity| | |reflexivity|apply not_word_semi].
    2:{ unfold x. destruct a; [congruence|discriminate]. }
    2:{ unfold x. apply Forall_app. split; [apply class_ident, Ia|]. constructor; [reflexivity|]. constructor; [reflexivity|].
        repeat (apply Forall_app; split); first [apply class_number; assumption | apply class_ident; assumption | apply class_kw | repeat constructor]. }
    assert (Nb : forall n, ident n -> n <> nl :: kw o2).
    { intros n (_ & F & _) ->. inversion F as [|? ? W _]; subst. unfold is_word, is_digit, code, nl in W. cbn in W. lia. }
    assert (On : forall rest d hi lo r, token_loop ((nl :: kw o2) :: rest) d hi lo r = token_loop rest d hi lo (emplace r (nl :: kw o2) (d, (hi - lo + 1) mod 2 ^ 32))).
    { intros rest d hi lo r. destruct o2; reflexivity. }
    rewrite (start_ok _ o a [nl :: kw o2; b]).
    - rewrite loop_name by assumption. rewrite On. rewrite loop_name by assumption.
      rewrite (emplace_new []) by (intros []). cbn [app]. rewrite (emplace_new [_]) by (intros [X|[]]; exact (Nb a Ia X)). cbn [app].
      rewrite emplace_new by (intros [X|[X|[]]]; cbn [fst] in X; [congruence|exact (Nb b Ib (eq_sym X))]). reflexivity.
    - pose proof (tokens_of (chars ", ") b [(kw o, chars " "); (a, chars ","); (nl :: kw o2, chars " ")]) as Tk.
      cbn [map concat fst snd app] in Tk. rewrite app_nil_r, <- !app_assoc in Tk. unfold x. cbn [app] in *. rewrite <- !app_assoc in Tk.
      apply (Tk B1 B2). destruct sep_space as [S1 S2]. pose proof (kw_sep o) as [K1 K2]. pose proof (kw_sep o2) as [K3 K4].
      intros t s [I|[I|[I|[]]]]; injection I as <- <-; auto.
      + split; [exact A1|]. split; [exact A2|]. split; [discriminate|]. repeat constructor.
      + split; [discriminate|]. split; [|auto]. constructor; [cbn; intuition discriminate|exact K4]. }
  split; [exact A|]. intros H.
  assert (Ka : ident (chars "a")) by (repeat split; try discriminate; constructor; [|constructor]; apply word_iff; reflexivity).
  assert (Kb : ident (chars "b")) by (repeat split; try discriminate; constructor; [|constructor]; apply word_iff; reflexivity).
  specialize (H false (chars "a") true (chars "b") Ka Kb ltac:(discriminate)). rewrite A in H; trivial; discriminate.
Qed.

(* C443: a range that follows the keyword without a blank is not read: the declaration is refused. *)
Theorem C443_no_blank_refuted :
  (forall o h l a, number h -> number l -> ident a -> get_ports (kw o ++ bracket h l ++ chars " " ++ a ++ chars ";") = Throw)
  /\ ~ (forall o h l a, number h -> number l -> dec l <= dec h -> ident a ->
          get_ports (kw o ++ bracket h l ++ chars " " ++ a ++ chars ";") = Ok [(a, (dir_of o, dec h - dec l + 1))]).
Proof.
  assert (A : forall o h l a, number h -> number l -> ident a -> get_ports (kw o ++ bracket h l ++ chars " " ++ a ++ chars ";") = Throw).
  { intros o h l a Nh Nl Ia. set (x := h ++ chars ":" ++ l ++ chars "]" ++ chars " " ++ a).
    assert (T : kw o ++ bracket h l ++ chars " " ++ a ++ chars ";" = kw o ++ "["%char :: x ++ ";"%char :: []).
    { unfold x, bracket. rewrite <- !app_assoc. reflexivity. }
    assert (F : Forall (fun c => class_b c = true) x).
    { unfold x. repeat (apply Forall_app; split); first [apply class_number; assumption | apply class_ident; assumption | apply class_kw | repeat constructor]. }
    assert (Nx : x <> []) by (unfold x; destruct Nh as (Nh & _); destruct h; [congruence|discriminate]).
    assert (M : match_kw (kw o) (kw o ++ "["%char :: x ++ ";"%char :: []) = Some (kw o ++ "["%char :: x, [";"%char])).
    { unfold match_kw. rewrite prefix_self. cbn [white_b]. change (white_b "["%char || (code "["%char =? 91)) with true. cbv iota.
      rewrite (run_app x ";"%char [] F eq_refl). destruct x; [congruence|reflexivity]. }
    assert (S : search (kw o ++ "["%char :: x ++ ";"%char :: []) = Some (kw o ++ "["%char :: x, [";"%char])).
    { assert (Hm : match_here (kw o ++ "["%char :: x ++ ";"%char :: []) = Some (kw o ++ "["%char :: x, [";"%char])).
      { unfold match_here. destruct o; [|change (chars "input") with (kw false); rewrite M; reflexivity]. change (chars "output") with (kw true). rewrite M. reflexivity. }
      destruct (kw o ++ "["%char :: x ++ ";"%char :: []) as [|z s] eqn:E; [destruct o; discriminate|]. cbn [search]. rewrite Hm. reflexivity. }
    rewrite T. unfold get_ports. cbn [mod_loop]. rewrite S.
    assert (D : declaration (kw o ++ "["%char :: x) [] = Throw).
    { assert (Tk : get_tokens (kw o ++ "["%char :: x) (chars ", ") = [kw o ++ bracket h l; a]).
      { pose proof (tokens_of (chars ", ") a [(kw o ++ bracket h l, chars " ")]) as Tk. cbn [map concat fst snd app] in Tk. rewrite app_nil_r in Tk.
        destruct (ident_sep a Ia) as [A1 A2]. destruct (bracket_sep h l Nh Nl) as [R1 R2]. destruct sep_space. pose proof (kw_sep o) as [K1 K2].
        replace (kw o ++ "["%char :: x) with (((kw o ++ bracket h l) ++ chars " ") ++ a) by (unfold x, bracket; rewrite <- !app_assoc; reflexivity).
        apply (Tk A1 A2). intros t s [I|[]]. injection I as <- <-. split; [destruct o; discriminate|]. split; [apply Forall_app; split; assumption|]. auto. }
      unfold declaration. rewrite Tk.
      assert (Nk : forall o', kw o ++ bracket h l <> kw o').
      { intros o' E. assert (I : In "["%char (kw o')) by (rewrite <- E; apply in_app_iff; right; left; reflexivity).
        apply kw_word in I. unfold is_word, is_digit, code in I. cbn in I. lia. }
      rewrite (name_neqb _ (chars "input") (Nk false)), (name_neqb _ (chars "output") (Nk true)). reflexivity. }
    rewrite D. reflexivity. }
  split; [exact A|]. intros H.
  assert (Ka : ident (chars "a")) by (repeat split; try discriminate; constructor; [|constructor]; apply word_iff; reflexivity).
  assert (N3 : number (chars "3")) by (repeat split; try discriminate; constructor; [|constructor]; apply digit_iff; reflexivity).
  specialize (H false (chars "3") (chars "3") (chars "a") N3 N3 ltac:(discriminate) Ka). rewrite A in H by assumption. discriminate.
Qed.
Print Assumptions C438_ports.
Print Assumptions C439_width_refuted.
Print Assumptions C440_type_refuted.
Print Assumptions C441_expression_refuted.
Print Assumptions C442_newline_refuted.
Print Assumptions C443_no_blank_refuted.
