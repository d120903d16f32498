From Coq Require Import String Ascii.
From Verif Require Import Base Const_proofs Num_spec Num_model Num_proofs Covparse_spec Covparse_model.
Local Open Scope Z_scope.

Lemma teqb_iff : forall a b, teqb a b = true <-> a = b.
Proof. intros a b. unfold teqb. destruct (list_eq_dec ascii_dec a b); split; congruence. Qed.
Lemma teqb_refl : forall a, teqb a a = true.
Proof. intros. now apply teqb_iff. Qed.
Lemma teqb_ne : forall a b, a <> b -> teqb a b = false.
Proof. intros a b N. destruct (teqb a b) eqn:E; [|reflexivity]. apply teqb_iff in E. congruence. Qed.

(* ---- verilator lines ---- *)
Lemma fsm_key : forall k key buf data r, ~ In stx k -> fsm 1 key buf data (k ++ stx :: r) = fsm 2 (buf ++ k) [] data r.
Proof.
  induction k as [|c k IH]; intros key buf data r N; cbn [app fsm].
  - rewrite Ascii.eqb_refl, app_nil_r. reflexivity.
  - destruct (Ascii.eqb_spec c stx) as [->|D]; [destruct N; now left|]. rewrite IH by (intros I; apply N; now right). now rewrite <- app_assoc.
Qed.
Lemma fsm_val : forall v key buf data r, ~ In soh v -> ~ In quote v -> fsm 2 key buf data (v ++ r) = fsm 2 key (buf ++ v) data r.
Proof.
  induction v as [|c v IH]; intros key buf data r N M; cbn [app]; [now rewrite app_nil_r|]. cbn [fsm].
  destruct (Ascii.eqb_spec c quote) as [->|D]; [destruct M; now left|]. destruct (Ascii.eqb_spec c soh) as [->|D2]; [destruct N; now left|]. cbn [orb].
  rewrite IH by (intros I; (apply N + apply M); now right). now rewrite <- app_assoc.
Qed.
Definition puts (ps : list (text * text)) (data : list (text * text)) := fold_left (fun d p => put d (fst p) (snd p)) ps data.
Lemma fsm_pairs : forall ps key buf data r, Forall good_pair ps -> key <> [] ->
  fsm 2 key buf data (flat_map vpair ps ++ quote :: r) = Ok (puts ps (put data key buf), Some r).
Proof.
  induction ps as [|[k v] ps IH]; intros key buf data r G K.
  - cbn [flat_map app fsm]. rewrite Ascii.eqb_refl. cbn [orb]. destruct key; [congruence|reflexivity].
  - inversion G as [|? ? (A & B & C & D) G']; subst. cbn [fst snd] in *. cbn [flat_map]. unfold vpair at 1. cbn [fst snd app]. rewrite <- !app_assoc. cbn [app fsm].
    assert (Ascii.eqb soh quote = false) as -> by reflexivity. rewrite Ascii.eqb_refl. cbn [orb]. destruct key as [|c0 key]; [congruence|].
    rewrite fsm_key by assumption. cbn [app]. rewrite fsm_val by assumption. cbn [app]. rewrite IH; auto.
Qed.
Lemma fsm_line : forall p ps r, Forall good_pair (p :: ps) -> fsm 0 [] [] [] (quote :: flat_map vpair (p :: ps) ++ quote :: r) = Ok (puts (p :: ps) [], Some r).
Proof.
  intros [k v] ps r G. inversion G as [|? ? (A & B & C & D) G']; subst. cbn [fst snd] in *. cbn [flat_map fsm]. unfold vpair at 1. cbn [fst snd app]. rewrite <- !app_assoc. cbn [app fsm].
  change (Ascii.eqb quote soh) with false. cbn [fsm]. rewrite Ascii.eqb_refl. rewrite fsm_key by assumption. cbn [app]. rewrite fsm_val by assumption. cbn [app].
  rewrite fsm_pairs by assumption. reflexivity.
Qed.
Lemma get_app : forall a b k, get (a ++ b) k = match get a k with Some v => Some v | None => get b k end.
Proof. induction a as [|[j w] a IH]; intros; cbn [app get]; [reflexivity|]. destruct (teqb k j); auto. Qed.
Lemma get_none : forall d k, ~ In k (map fst d) -> get d k = None.
Proof. induction d as [|[j w] d IH]; cbn; intros k N; [reflexivity|]. rewrite teqb_ne by intuition. apply IH. tauto. Qed.
Lemma get_in : forall d k v, NoDup (map fst d) -> In (k, v) d -> get d k = Some v.
Proof.
  induction d as [|[j w] d IH]; cbn; intros k v N I; [destruct I|]. inversion N as [|? ? N1 N2]; subst. destruct I as [E|I].
  - injection E as -> ->. now rewrite teqb_refl.
  - rewrite teqb_ne; [auto|]. intros ->. apply N1. apply in_map_iff. now exists (j, v).
Qed.
Lemma puts_fresh : forall ps data, NoDup (map fst (data ++ ps)) -> puts ps data = data ++ ps.
Proof.
  induction ps as [|[k v] ps IH]; intros data N; [now rewrite app_nil_r|]. unfold puts. cbn [fold_left fst snd]. unfold put at 2.
  rewrite get_none. 2:{ rewrite map_app in N. cbn in N. apply NoDup_remove_2 in N. intros I. apply N. apply in_or_app. now left. }
  change (puts ps (data ++ [(k, v)]) = data ++ (k, v) :: ps). rewrite IH; rewrite <- app_assoc; auto.
Qed.
Lemma puts_get : forall ps data k, get (puts ps data) k = match get data k with Some v => Some v | None => get ps k end.
Proof.
  induction ps as [|[j v] ps IH]; intros data k; cbn [puts fold_left get]; [now destruct (get data k)|]. fold (puts ps (put data j v)). cbn [fst snd]. rewrite IH. unfold put.
  destruct (get data j) eqn:G.
  - destruct (get data k) eqn:H; [reflexivity|]. rewrite teqb_ne; [reflexivity|congruence].
  - rewrite get_app. destruct (get data k); [reflexivity|]. cbn [get]. destruct (teqb k j); reflexivity.
Qed.

(* ---- numbers ---- *)
Lemma digit_not_space : forall d, 0 <= d < 10 -> isspace (digit_char d) = false /\ Ascii.eqb (digit_char d) "-" = false /\ Ascii.eqb (digit_char d) "+" = false.
Proof. intros d H. assert (exists n, d = Z.of_nat n /\ (n < 10)%nat) as (n & -> & L) by (exists (Z.to_nat d); lia). do 10 (destruct n as [|n]; [repeat split; reflexivity|]). lia. Qed.
Definition plain (c : ascii) : Prop := isspace c = false /\ Ascii.eqb c "-" = false /\ Ascii.eqb c "+" = false.
Lemma digits_plain : forall f n acc, 0 <= n -> Forall plain (chr acc) -> Forall plain (chr (digits f 10 n acc)).
Proof.
  induction f as [|f IH]; intros n acc N A; [exact A|]. cbn [digits].
  assert (Forall plain (chr (String (digit_char (n mod 10)) acc))) as A'. { cbn. constructor; [|exact A]. apply digit_not_space. apply Z.mod_pos_bound. lia. }
  destruct (n / 10 =? 0); [exact A'|]. apply IH; [|exact A']. apply Z.div_pos; lia.
Qed.
Lemma number_plain : forall n, 0 <= n -> Forall plain (number n).
Proof. intros n N. apply digits_plain; [exact N|constructor]. Qed.
Lemma number_ne : forall n, 0 <= n -> exists c r, number n = c :: r.
Proof.
  intros n N. unfold number, dec, print_num. destruct (digits_cons 10 ltac:(lia) (S (Z.to_nat (Z.log2 n))) n EmptyString N ltac:(lia)) as (d & r & _ & E). rewrite E. cbn. eauto.
Qed.
Lemma read_number : forall n, 0 <= n -> read_num 10 (string_of_list_ascii (number n)) = Some (n, EmptyString).
Proof.
  intros n N. unfold number, chr. rewrite string_of_list_ascii_of_string. rewrite <- (append_nil_r (dec n)). apply read_print; [lia|exact N|exact I].
Qed.
Lemma ltrim_plain : forall c r, isspace c = false -> ltrim (c :: r) = c :: r.
Proof. intros c r H. cbn. now rewrite H. Qed.
Lemma sto_number : forall bits n, 0 < bits -> 0 <= n < 2 ^ (bits - 1) -> sto bits (number n) = Ok n.
Proof.
  intros bits n B H. assert (P := number_plain n (proj1 H)). destruct (number_ne n (proj1 H)) as (c & r & E). assert (R := read_number n (proj1 H)). unfold sto. rewrite E in *.
  inversion P as [|? ? (P1 & P2 & P3) _]; subst. rewrite ltrim_plain by exact P1. rewrite P2, P3, R. rewrite Z.mul_1_l.
  assert ((- 2 ^ (bits - 1) <=? n) = true) as -> by (apply Z.leb_le; lia). assert ((n <? 2 ^ (bits - 1)) = true) as -> by (apply Z.ltb_lt; lia). reflexivity.
Qed.

(* ---- trimming ---- *)
Lemma isspace_ws : forall c, isspace c = true <-> ws c.
Proof.
  intros c. unfold isspace, ws. rewrite orb_true_iff, andb_true_iff, Nat.eqb_eq, !Nat.leb_le. split; (intros [H|H]; [left|right; exact H]).
  - rewrite <- (ascii_nat_embedding c), H. reflexivity.
  - now subst.
Qed.
Lemma not_ws : forall c, ~ ws c -> isspace c = false.
Proof. intros c H. destruct (isspace c) eqn:E; [|reflexivity]. apply isspace_ws in E. contradiction. Qed.
Lemma ltrim_spaces : forall n s, ltrim (repeat " "%char n ++ s) = ltrim s.
Proof. induction n as [|n IH]; intros s; [reflexivity|]. exact (IH s). Qed.
Lemma ltrim_tight : forall s, tight s -> ltrim s = s.
Proof. intros [|c r] (N & A & _); [congruence|]. apply ltrim_plain, not_ws. eapply A; reflexivity. Qed.
Lemma rtrim_tight : forall s, tight s -> rtrim s = s.
Proof.
  intros s (N & _ & B). unfold rtrim. destruct (rev s) as [|c r] eqn:E. { apply (f_equal (@rev _)) in E. rewrite rev_involutive in E. now destruct (N E). }
  assert (s = rev r ++ [c]) as S by (rewrite <- (rev_involutive s), E; reflexivity). rewrite ltrim_plain by (apply not_ws; eapply B; exact S). rewrite S. reflexivity.
Qed.
Lemma trim_tight : forall n s, tight s -> trim (repeat " "%char n ++ s) = s.
Proof. intros n s T. unfold trim. rewrite ltrim_spaces, ltrim_tight by exact T. now apply rtrim_tight. Qed.
Lemma tight_plain : forall s, s <> [] -> Forall plain s -> tight s.
Proof.
  intros s N P. split; [exact N|]. rewrite Forall_forall in P. split; intros c r ->; intros W; apply isspace_ws in W;
    (destruct (P c) as (Q & _); [|congruence]); [now left|]. apply in_or_app. right. now left.
Qed.
Lemma number_tight : forall n, 0 <= n -> tight (number n).
Proof. intros n N. apply tight_plain; [|now apply number_plain]. destruct (number_ne n N) as (c & r & ->). discriminate. Qed.

Lemma decode_line : forall pairs count page fn ln, Forall good_pair pairs -> NoDup (map fst pairs) ->
  In (chr "page", page) pairs -> firstn 6 page = chr "v_line" -> In (chr "f", fn) pairs -> In (chr "l", number ln) pairs ->
  0 <= ln < 2 ^ 31 -> 0 <= count < 2 ^ 63 -> decode (vline pairs count) = Ok (Some (fn, ln, count mod 2 ^ 32)).
Proof.
  intros pairs count page fn ln G N P V F L HL HC. unfold decode, vline. change (chr "C '") with ["C"%char; " "%char; quote]. cbn [app Ascii.eqb Bool.eqb skipn].
  change (chr "' " ++ number count) with (quote :: " "%char :: number count). destruct pairs as [|p ps]; [destruct P|].
  change (quote :: flat_map vpair (p :: ps) ++ quote :: " "%char :: number count) with (quote :: flat_map vpair (p :: ps) ++ quote :: (" "%char :: number count)).
  rewrite fsm_line by exact G. cbn [obind fst snd].
  assert (forall k, get (puts (p :: ps) []) k = get (p :: ps) k) as X by (intros k; rewrite puts_get; reflexivity). rewrite !X.
  assert (get (p :: ps) (chr "page") = Some page) as Ep by (now apply get_in).
  assert (get (p :: ps) (chr "f") = Some fn) as Ef by (now apply get_in).
  assert (get (p :: ps) (chr "l") = Some (number ln)) as El by (now apply get_in).
  rewrite Ep, V, teqb_refl. assert (Tn := number_tight count (proj1 HC)).
  assert (trim (" "%char :: number count) = number count) as -> by (apply (trim_tight 1); exact Tn).
  unfold stol. rewrite sto_number by (try lia; exact HC). cbn [obind]. rewrite Ef, El.
  unfold stoi. rewrite sto_number by (try lia; exact HL). cbn [obind]. unfold u32, u64. do 3 f_equal; [|now rewrite Z.mod_small with (b := 2 ^ 64) by lia]. f_equal. apply Z.mod_small. lia.
Qed.

(* a quote in a value ends the line *)
Lemma puts_app : forall a b d, puts (a ++ b) d = puts b (puts a d).
Proof. intros. unfold puts. apply fold_left_app. Qed.
Lemma fsm_cut : forall a k v r, Forall good_pair (a ++ [(k, v)]) ->
  fsm 0 [] [] [] (quote :: flat_map vpair a ++ soh :: k ++ stx :: v ++ quote :: r) = Ok (puts (a ++ [(k, v)]) [], Some r).
Proof.
  intros a k v r G. assert (flat_map vpair a ++ soh :: k ++ stx :: v ++ quote :: r = flat_map vpair (a ++ [(k, v)]) ++ quote :: r) as ->.
  { rewrite flat_map_app. cbn [flat_map]. unfold vpair at 3. cbn [fst snd]. rewrite app_nil_r, <- !app_assoc. cbn [app]. now rewrite <- app_assoc. }
  destruct (a ++ [(k, v)]) eqn:E; [destruct a; discriminate|]. now apply fsm_line.
Qed.

(* ---- base names ---- *)
Lemma base_plain : forall s acc, ~ In "/"%char s -> base_loop acc s = acc ++ s.
Proof.
  induction s as [|c r IH]; intros acc N; cbn [base_loop]; [now rewrite app_nil_r|]. destruct (Ascii.eqb_spec c "/") as [->|D]; [destruct N; now left|].
  rewrite IH by (intros I; apply N; now right). now rewrite <- app_assoc.
Qed.
Lemma base_slash : forall d acc b, ~ In "/"%char b -> base_loop acc (d ++ "/"%char :: b) = b.
Proof.
  induction d as [|c d IH]; intros acc b N; cbn [app base_loop].
  - rewrite Ascii.eqb_refl. now apply base_plain.
  - destruct (Ascii.eqb c "/"); now apply IH.
Qed.
Lemma basename_is : forall s b, base_of s b -> basename s = b.
Proof. intros s b [[N ->]|(d & -> & N)]; [exact (base_plain s [] N)|now apply base_slash]. Qed.
Lemma base_exists : forall s, base_of s (basename s).
Proof.
  intros s. assert (forall s, exists b, base_of s b) as H.
  { clear s. induction s as [|c r [b [[N E]|(d & -> & N)]]].
    - exists []. left. auto.
    - subst b. destruct (ascii_dec c "/") as [->|D]; [exists r; right; exists []; auto|]. exists (c :: r). left. split; [|reflexivity]. intros [E|I]; congruence.
    - exists b. right. exists (c :: d). auto. }
  destruct (H s) as (b & B). now rewrite (basename_is s b B).
Qed.

(* ---- statements from hits ---- *)
Definition written (bs : list block) : list block := filter (fun b => match bfile b with [] => false | _ => true end) bs.
Definition bkey (b : block) : text * Z := (basename (bfile b), snd b).
Definition bentry (b : block) : text * Z * nat := (basename (bfile b), snd b, fst (fst b)).
Lemma same_key_iff : forall f l e, same_key f l e = true <-> (f, l) = fst e.
Proof.
  intros f l [[f' l'] i]. unfold same_key. cbn [fst snd]. rewrite andb_true_iff, teqb_iff, Z.eqb_eq. split; [intros [-> ->]; reflexivity|intros E; injection E; auto].
Qed.
Lemma stmt_map_fresh : forall bs m, NoDup (map fst m ++ map bkey (written bs)) -> fold_left add_block bs m = m ++ map bentry (written bs).
Proof.
  induction bs as [|[[id fn] ln] bs IH]; intros m N; cbn [fold_left]; [now rewrite app_nil_r|]. unfold written in *. cbn [filter] in *. unfold add_block at 2. change (bfile (id, fn, ln)) with fn in *.
  destruct fn as [|c fn]; [now apply IH|]. cbn [map] in N. assert (existsb (same_key (basename (c :: fn)) ln) m = false) as ->.
  { destruct (existsb _ m) eqn:E; [|reflexivity]. apply existsb_exists in E as (e & I & K). apply same_key_iff in K. apply NoDup_remove_2 in N. destruct N. apply in_or_app. left. change (bkey (id, c :: fn, ln)) with (basename (c :: fn), ln). rewrite K. now apply in_map. }
  rewrite IH; [now rewrite <- app_assoc|]. rewrite map_app, <- app_assoc. exact N.
Qed.
Lemma find_entry : forall bs f l, find (same_key f l) (map bentry (written bs)) = None \/
  exists b, find (same_key f l) (map bentry (written bs)) = Some (bentry b) /\ In b bs /\ bfile b <> [] /\ (f, l) = bkey b.
Proof.
  intros bs f l. destruct (find _ _) as [e|] eqn:E; [right|now left]. apply find_some in E as [I K]. apply in_map_iff in I as (b & <- & I). apply filter_In in I as [I W].
  exists b. split; [reflexivity|]. split; [exact I|]. split; [|now apply same_key_iff in K]. intros Z0. cbv beta in W. destruct b as [[i t] n]. cbn in *. subst t. discriminate W.
Qed.
Definition hits_block (h : hit) (b : block) : Prop := let '(fn, ln, count) := h in count <> 0 /\ bfile b <> [] /\ basename fn = basename (bfile b) /\ ln = snd b.
Lemma nodup_find : forall bs b f l, NoDup (map bkey (written bs)) -> In b bs -> bfile b <> [] -> (f, l) = bkey b -> find (same_key f l) (map bentry (written bs)) = Some (bentry b).
Proof.
  induction bs as [|a bs IH]; intros b f l N I W K; [destruct I|]. unfold written in *. cbn [filter] in *.
  destruct I as [->|I].
  - destruct (bfile b) eqn:E; [congruence|]. cbn [map find]. assert (same_key f l (bentry b) = true) as -> by now apply same_key_iff. reflexivity.
  - destruct (bfile a) eqn:E; [now apply IH|]. cbn [map find] in *. inversion N as [|? ? N1 N2]; subst. destruct (same_key f l (bentry a)) eqn:S; [|now apply IH].
    apply same_key_iff in S. change (fst (bentry a)) with (bkey a) in S. destruct N1. rewrite <- S, K. apply in_map, filter_In. split; [exact I|]. destruct (bfile b); congruence.
Qed.
Lemma reverse_ok : forall bs hits, NoDup (map bkey (written bs)) ->
  NoDup (map fst (reverse_map bs hits)) /\
  (forall id c, In (id, c) (reverse_map bs hits) -> exists b fn ln, fst (fst b) = id /\ In b bs /\ In (fn, ln, c) hits /\ hits_block (fn, ln, c) b) /\
  (forall b h, In b bs -> In h hits -> hits_block h b -> In (fst (fst b)) (map fst (reverse_map bs hits))).
Proof.
  intros bs hits N. unfold reverse_map, stmt_map. rewrite (stmt_map_fresh bs []) by exact N. cbn [app]. set (m := map bentry (written bs)).
  induction hits as [|[[fn ln] c] hits (A & B & C)] using rev_ind.
  { cbn. repeat split; [constructor|tauto|]. intros b h _ []. }
  rewrite fold_left_app. cbn [fold_left]. set (res := fold_left (add_hit m) hits []) in *. clearbody res. unfold add_hit.
  assert (forall b h, In b bs -> In h hits -> hits_block h b -> In (fst (fst b)) (map fst res)) as C0 by exact C.
  destruct (Z.eqb_spec c 0) as [->|Nz].
  { repeat split; auto.
    - intros id c I. destruct (B id c I) as (b & f & l & E & Ib & Ih & Hb). exists b, f, l. repeat split; auto; try apply in_or_app; auto; apply Hb.
    - intros b h Ib Ih Hb. apply in_app_or in Ih as [Ih|[<-|[]]]; [now apply (C b h)|]. destruct Hb as [Hb _]. congruence. }
  destruct (find_entry bs (basename fn) ln) as [F|(b0 & F & Ib0 & W0 & K0)]; fold m in F; rewrite F.
  { repeat split; auto.
    - intros id c' I. destruct (B id c' I) as (b & f & l & E & Ib & Ih & Hb). exists b, f, l. repeat split; auto; try apply in_or_app; auto; apply Hb.
    - intros b h Ib Ih Hb. apply in_app_or in Ih as [Ih|[<-|[]]]; [now apply (C b h)|]. destruct Hb as (_ & W & E & ->). 
      assert (find (same_key (basename fn) (snd b)) m = Some (bentry b)) as F2 by (apply nodup_find; auto; unfold bkey; now rewrite E). congruence. }
  cbn [bentry]. unfold bentry. destruct (existsb (fun e => Nat.eqb (fst (fst b0)) (fst e)) res) eqn:X.
  - repeat split; auto.
    + intros id c' I. destruct (B id c' I) as (b & f & l & E & Ib & Ih & Hb). exists b, f, l. repeat split; auto; try apply in_or_app; auto; apply Hb.
    + intros b h Ib Ih Hb. apply in_app_or in Ih as [Ih|[<-|[]]]; [now apply (C b h)|]. destruct Hb as (_ & W & E & ->).
      assert (find (same_key (basename fn) (snd b)) m = Some (bentry b)) as F2 by (apply nodup_find; auto; unfold bkey; now rewrite E). rewrite F2 in F. injection F as _ _ F. rewrite F. apply existsb_exists in X as (e & Ie & Q). apply Nat.eqb_eq in Q. rewrite Q. now apply in_map.
  - repeat split.
    + rewrite map_app. cbn [map fst]. apply (NoDup_Add (a := fst (fst b0)) (l := map fst res)); [rewrite <- (app_nil_r (map fst res)) at 1; apply Add_app|]. split; [exact A|].
      intros I. apply in_map_iff in I as (e & E & I). enough (existsb (fun e => Nat.eqb (fst (fst b0)) (fst e)) res = true) by congruence. apply existsb_exists. exists e. split; [exact I|]. apply Nat.eqb_eq. congruence.
    + intros id c' I. apply in_app_or in I as [I|[E|[]]].
      * destruct (B id c' I) as (b & f & l & E & Ib & Ih & Hb). exists b, f, l. repeat split; auto; try apply in_or_app; auto; apply Hb.
      * injection E as <- <-. exists b0, fn, ln. injection K0 as K1 K2. repeat split; auto. apply in_or_app. right. now left.
    + intros b h Ib Ih Hb. rewrite map_app. apply in_or_app. apply in_app_or in Ih as [Ih|[<-|[]]]; [left; now apply (C b h)|]. right. destruct Hb as (_ & W & E & ->).
      assert (find (same_key (basename fn) (snd b)) m = Some (bentry b)) as F2 by (apply nodup_find; auto; unfold bkey; now rewrite E). rewrite F2 in F. injection F as _ _ F. rewrite F. now left.
Qed.

(* ---- block coverage text ---- *)
Definition nodouble (s : text) : Prop := forall a b, s <> a ++ " "%char :: " "%char :: b.
Lemma icc_step : forall buf res c d r, icc_loop buf res (c :: d :: r) = if Ascii.eqb c " " && Ascii.eqb d " "
  then icc_loop [] (match trim buf with [] => res | b => res ++ [b] end) (d :: r) else icc_loop (buf ++ [c]) res (d :: r).
Proof. reflexivity. Qed.
Lemma eat : forall s buf res r, s <> [] -> nodouble s -> (forall a c, s = a ++ [c] -> c <> " "%char) -> icc_loop buf res (s ++ r) = icc_loop (buf ++ s) res r.
Proof.
  induction s as [|c s IH]; intros buf res r N D L; [congruence|]. destruct s as [|d s].
  - cbn [app]. assert (c <> " "%char) as Nc by (apply (L [] c); reflexivity). destruct r as [|d r]; [reflexivity|]. rewrite icc_step.
    assert (Ascii.eqb c " " = false) as -> by (apply Ascii.eqb_neq; exact Nc). reflexivity.
  - change ((c :: d :: s) ++ r) with (c :: d :: s ++ r). rewrite icc_step.
    assert (Ascii.eqb c " " && Ascii.eqb d " " = false) as ->.
    { destruct (Ascii.eqb_spec c " ") as [->|]; [|reflexivity]. destruct (Ascii.eqb_spec d " ") as [->|]; [|reflexivity]. destruct (D [] s). reflexivity. }
    change (d :: s ++ r) with ((d :: s) ++ r). rewrite IH; [now rewrite <- app_assoc|discriminate| |].
    + intros a b E. apply (D (c :: a) b). now rewrite E.
    + intros a x E. apply (L (c :: a) x). now rewrite E.
Qed.
Definition tok (buf : text) : list text := match trim buf with [] => [] | b => [b] end.
Lemma flush : forall n buf res c s, c <> " "%char -> icc_loop buf res (gap n ++ c :: s) = icc_loop [" "%char] (res ++ tok buf) (c :: s).
Proof.
  assert (forall n res c s, c <> " "%char -> icc_loop [] res (repeat " "%char (S n) ++ c :: s) = icc_loop [" "%char] res (c :: s)) as H.
  { induction n as [|n IH]; intros res c s N.
    - cbn [repeat app]. rewrite icc_step. assert (Ascii.eqb c " " = false) as -> by (apply Ascii.eqb_neq; exact N). rewrite andb_false_r. reflexivity.
    - change (repeat " "%char (S (S n)) ++ c :: s) with (" "%char :: repeat " "%char (S n) ++ c :: s). exact (IH res c s N). }
  intros n buf res c s N. unfold gap. change (repeat " "%char (S (S n)) ++ c :: s) with (" "%char :: repeat " "%char (S n) ++ c :: s).
  change (icc_loop buf res (" "%char :: repeat " "%char (S n) ++ c :: s)) with (icc_loop [] (match trim buf with [] => res | b => res ++ [b] end) (repeat " "%char (S n) ++ c :: s)).
  rewrite H by exact N. unfold tok. destruct (trim buf); [now rewrite app_nil_r|reflexivity].
Qed.
Lemma col_parts : forall s, column s -> s <> [] /\ nodouble s /\ (forall a c, s = a ++ [c] -> c <> " "%char) /\ exists c r, s = c :: r /\ c <> " "%char.
Proof.
  intros s ((N & A & B) & D). split; [exact N|]. split; [exact D|]. split.
  - intros a c E ->. apply (B _ _ E). now left.
  - destruct s as [|c r]; [congruence|]. exists c, r. split; [reflexivity|]. intros ->. apply (A _ _ eq_refl). now left.
Qed.
Lemma tok_col : forall k s, tight s -> tok (repeat " "%char k ++ s) = [s].
Proof. intros k s T. unfold tok. rewrite trim_tight by exact T. destruct T as (N & _). destruct s; [congruence|reflexivity]. Qed.
Fixpoint lastsp (k : nat) (f : text) (rest : list (nat * text)) : list text :=
  match rest with [] => [repeat " "%char k ++ f] | (_, c) :: r => f :: lastsp 1 c r end.
Lemma row_tokens : forall rest k f res, column f -> Forall column (map snd rest) ->
  icc_loop (repeat " "%char k) res (row f rest) = res ++ lastsp k f rest.
Proof.
  induction rest as [|[n c] rest IH]; intros k f res F R; cbn [row lastsp].
  - rewrite <- (app_nil_r f) at 1. destruct (col_parts f F) as (A & B & C & _). rewrite eat by assumption. cbn [icc_loop].
    destruct (repeat " "%char k ++ f) eqn:E; [|reflexivity]. apply app_eq_nil in E as [_ ->]. congruence.
  - destruct (col_parts f F) as (A & B & C & _). rewrite eat by assumption. inversion R as [|? ? Rc Rr]; subst. cbn [snd] in Rc.
    assert (exists x y, row c rest = x :: y /\ x <> " "%char) as (x & y & E & Nx).
    { destruct (col_parts c Rc) as (_ & _ & _ & x & y & -> & Nx). destruct rest as [|[n' c'] rest]; cbn [row app]; eauto. }
    rewrite E, flush by exact Nx. rewrite <- E, tok_col by apply F. change [" "%char] with (repeat " "%char 1). rewrite IH by assumption. now rewrite <- app_assoc.
Qed.
Lemma row_tight : forall rest f, column f -> Forall column (map snd rest) -> tight (row f rest).
Proof.
  induction rest as [|[n c] rest IH]; intros f F R; cbn [row]; [apply F|]. inversion R as [|? ? Rc Rr]; subst. destruct (IH c Rc Rr) as (N & _ & B). destruct F as ((Nf & A & _) & _).
  split; [destruct f; discriminate || congruence|]. split.
  - intros x y E. destruct f as [|z f]; [congruence|]. injection E as <- _. now apply (A z f).
  - intros x y E. destruct (exists_last N) as (w & z & Ez). rewrite Ez, app_assoc, app_assoc in E. apply app_inj_tail in E as [_ <-]. exact (B _ _ Ez).
Qed.
Lemma icc_tokens_row : forall f rest, column f -> Forall column (map snd rest) -> icc_tokens (row f rest) = lastsp 0 f rest.
Proof.
  intros f rest F R. unfold icc_tokens. assert (trim (row f rest) = row f rest) as -> by (apply (trim_tight 0); now apply row_tight). exact (row_tokens rest 0 f [] F R).
Qed.
Lemma number_column : forall n, 0 <= n -> column (number n).
Proof.
  intros n N. split; [now apply number_tight|]. intros a b E. assert (P := number_plain n N). rewrite E in P. apply Forall_app in P as [_ P]. inversion P as [|? ? [Q _] _]; subst. discriminate.
Qed.
Definition row_hits (file : text) (rs : list brow) : list hit := flat_map (fun r => if allowed_kind (b_kind r) then [(file, b_line r, b_count r)] else []) rs.
Lemma allowed_iff : forall k, allowed_kind k = true <-> branch_kind k.
Proof. intros k. unfold allowed_kind, branch_kind. rewrite !orb_true_iff, !teqb_iff. tauto. Qed.
Lemma head_not_dash : forall n s, 0 <= n -> exists c r, number n ++ s = c :: r /\ c <> "-"%char.
Proof.
  intros n s N. destruct (number_ne n N) as (c & r & E). assert (P := number_plain n N). rewrite E in *. inversion P as [|? ? (_ & Q & _) _]; subst. exists c, (r ++ s). split; [reflexivity|]. intros ->. discriminate.
Qed.
Lemma rows_ok : forall rs file rest hs, file <> [] -> Forall good_row rs -> icc 0 [] rest = Ok hs -> icc 2 file (map brow_text rs ++ [] :: rest) = Ok (row_hits file rs ++ hs).
Proof.
  intros rs file rest hs Nf G E0. induction G as [|r rs (A & B & C & D & E & F) _ IH].
  - cbn [map app row_hits flat_map]. cbn [icc]. change (trim []) with (@nil ascii). cbn [icc]. exact E0.
  - cbn [map app]. cbn [icc]. assert (T := row_tokens). assert (Cn := number_column _ (proj1 A)). assert (Cl := number_column _ (proj1 B)).
    assert (Forall column (map snd [(b_gaps r, b_block r); (b_gaps r, number (b_line r)); (b_gaps r, b_kind r); (b_gaps r, b_origin r); (b_gaps r, b_source r)])) as R
      by (cbn [map snd]; repeat constructor; assumption || apply Cl || apply C || apply D || apply E || apply F).
    assert (trim (brow_text r) = brow_text r) as -> by (apply (trim_tight 0); now apply row_tight).
    destruct (head_not_dash (b_count r) (gap (b_gaps r) ++ row (b_block r) [(b_gaps r, number (b_line r)); (b_gaps r, b_kind r); (b_gaps r, b_origin r); (b_gaps r, b_source r)]) (proj1 A)) as (c & s & Ec & Nc).
    change (number (b_count r) ++ gap (b_gaps r) ++ row (b_block r) [(b_gaps r, number (b_line r)); (b_gaps r, b_kind r); (b_gaps r, b_origin r); (b_gaps r, b_source r)]) with (brow_text r) in Ec.
    assert (icc_tokens (brow_text r) = [number (b_count r); b_block r; number (b_line r); b_kind r; b_origin r; " "%char :: b_source r]) as Et by exact (icc_tokens_row _ _ Cn R).
    rewrite Ec in *. assert (starts_dash (c :: s) = false) as -> by (apply Ascii.eqb_neq; exact Nc). rewrite Et. cbn [row_hits flat_map].
    destruct (allowed_kind (b_kind r)); [|exact IH].
    unfold stoi. rewrite !sto_number by lia. cbn [obind]. fold (row_hits file rs). destruct file as [|f0 file]; [congruence|]. rewrite IH. cbn [obind app]. unfold u32. rewrite !Z.mod_small by lia. reflexivity.
Qed.
Lemma prefix_app : forall p s, is_prefix p (p ++ s) = true.
Proof. induction p as [|c p IH]; intros s; [destruct s; reflexivity|]. cbn [app is_prefix]. rewrite Ascii.eqb_refl. apply IH. Qed.
Lemma after_app : forall p s, after p (p ++ s) = Some s.
Proof.
  intros p s. assert (skipn (List.length p) (p ++ s) = s) as K by (induction p; cbn; auto). assert (B := prefix_app p s).
  destruct (p ++ s) eqn:E; cbn [after]; rewrite B, K; reflexivity.
Qed.
Lemma name_line_tight : forall fn, tight fn -> tight (chr "File name:" ++ chr "  " ++ fn).
Proof.
  intros fn (N & _ & B). split; [discriminate|]. split.
  - intros c r E. injection E as <- _. intros W. apply isspace_ws in W. discriminate.
  - intros c r E. destruct (exists_last N) as (w & z & Ez). rewrite Ez, !app_assoc in E. apply app_inj_tail in E as [_ <-]. exact (B _ _ Ez).
Qed.
Lemma icc_unfold : forall state file line0 rest, icc state file (line0 :: rest) =
      let line := trim line0 in
      if starts_dash line then icc state file rest
      else
          match state with
          | 0%nat => match after (chr "File name:") line with Some f => icc 1 (trim f) rest | None => icc 0 file rest end
          | 1%nat => match after (chr "Count  Block") line with Some _ => icc 2 file rest | None => icc 1 file rest end
          | _ =>
              match line with
              | [] => icc 0 [] rest
              | _ =>
                  match icc_tokens line with
                  | count :: _ :: ln :: kind :: _ :: _ :: _ =>
                      if allowed_kind kind then
                        olet c := stoi count in
                        olet l := stoi ln in
                        match file with
                        | [] => Throw
                        | _ => olet hs := icc 2 file rest in Ok ((file, u32 l, u32 c) :: hs)
                        end
                      else icc 2 file rest
                  | _ => Throw
                  end
              end
          end.
Proof. reflexivity. Qed.
Lemma icc_head : forall file rest, icc 1 file ([] :: chr "Count  Block  Line  Kind  Origin  Source Code" :: repeat "-"%char 40 :: rest) = icc 2 file rest.
Proof. reflexivity. Qed.
Lemma file_ok : forall fn rs rest hs, tight fn -> Forall good_row rs -> icc 0 [] rest = Ok hs -> icc 0 [] (file_text (fn, rs) ++ rest) = Ok (row_hits fn rs ++ hs).
Proof.
  intros fn rs rest hs T G E. assert (T' := name_line_tight fn T). unfold file_text. cbn [fst snd]. rewrite <- !app_assoc. cbn [app].
  change ((chr "File name:" ++ chr "  " ++ fn) :: [] :: chr "Count  Block  Line  Kind  Origin  Source Code" :: repeat "-"%char 40 :: map brow_text rs ++ [] :: rest)
    with ((chr "File name:" ++ chr "  " ++ fn) :: ([] :: chr "Count  Block  Line  Kind  Origin  Source Code" :: repeat "-"%char 40 :: map brow_text rs ++ [] :: rest)).
  rewrite icc_unfold. cbv zeta. assert (trim (chr "File name:" ++ chr "  " ++ fn) = chr "File name:" ++ chr "  " ++ fn) as -> by exact (trim_tight 0 _ T').
  change (starts_dash (chr "File name:" ++ chr "  " ++ fn)) with false. cbv iota. rewrite after_app.
  assert (trim (chr "  " ++ fn) = fn) as -> by exact (trim_tight 2 _ T).
  rewrite icc_head.
  apply rows_ok; auto. apply T.
Qed.
Lemma report_ok : forall fs, Forall (fun f => tight (fst f) /\ Forall good_row (snd f)) fs -> icc 0 [] (flat_map file_text fs) = Ok (flat_map (fun f => row_hits (fst f) (snd f)) fs).
Proof.
  induction 1 as [|[fn rs] fs [T G] _ IH]; [reflexivity|]. cbn [flat_map]. now apply file_ok.
Qed.
Lemma lastsp_last : forall rest k f n c, lastsp k f (rest ++ [(n, c)]) = f :: map snd rest ++ [" "%char :: c].
Proof. induction rest as [|[m d] rest IH]; intros k f n c; [reflexivity|]. cbn [app lastsp map snd]. now rewrite IH. Qed.
