From Verif Require Import Base Const_proofs Xml_spec Xml_model.
From Coq Require Import String Ascii.
Local Open Scope string_scope.

Lemma sf_app : forall x s y t, stands_for x s -> stands_for y t -> stands_for (x ++ y) (s ++ t).
Proof.
  induction 1 as [|c x s N _ IH|e c x s E _ IH]; intros Y; cbn [append].
  - exact Y. - apply sf_char; auto. - rewrite append_assoc. apply sf_entity; auto.
Qed.
Lemma markup_dec : forall c, Ascii.eqb c "&" = false -> Ascii.eqb c "<" = false -> Ascii.eqb c ">" = false -> Ascii.eqb c "'" = false -> Ascii.eqb c """" = false -> ~ markup c.
Proof. intros c A B C D E [->|[->|[->|[->| ->]]]]; rewrite Ascii.eqb_refl in *; discriminate. Qed.
Lemma escape_ok : forall s, stands_for (write_escape s) s.
Proof.
  induction s as [|c r IH]; [constructor|]. cbn [write_escape].
  destruct (Ascii.eqb_spec c "&") as [->|N1]; [apply (sf_entity _ "&"); [constructor|exact IH]|].
  destruct (Ascii.eqb_spec c "<") as [->|N2]; [apply (sf_entity _ "<"); [constructor|exact IH]|].
  destruct (Ascii.eqb_spec c ">") as [->|N3]; [apply (sf_entity _ ">"); [constructor|exact IH]|].
  destruct (Ascii.eqb_spec c "'") as [->|N4]; [apply (sf_entity _ "'"); [constructor|exact IH]|].
  destruct (Ascii.eqb_spec c """") as [->|N5]; [apply (sf_entity _ """"); [constructor|exact IH]|].
  cbn [append]. apply sf_char; [|exact IH]. unfold markup. intuition.
Qed.
(* escaped text stands for one text only *)
Lemma entity_head : forall e c, entity e c -> exists t, e = String "&" t.
Proof. intros e c []; eexists; reflexivity. Qed.
Lemma entity_det : forall e c e' c' x y, entity e c -> entity e' c' -> e ++ x = e' ++ y -> e = e' /\ c = c' /\ x = y.
Proof. intros e c e' c' x y [] [] H; cbn in H; try discriminate; injection H as ->; auto. Qed.
Lemma sf_fun : forall x s, stands_for x s -> forall t, stands_for x t -> s = t.
Proof.
  induction 1 as [|c x s N S IH|e c x s E S IH]; intros t T.
  - inversion T as [| |e c x s E S H]; [reflexivity|]. destruct (entity_head _ _ E) as [q ->]. discriminate.
  - inversion T as [|c' x' s' N' S'|e c' x' s' E S' H]; subst; [f_equal; now apply IH|].
    destruct (entity_head _ _ E) as [q ->]. injection H as <- _. destruct N. now left.
  - remember (e ++ x) as z eqn:Z. destruct T as [|c' x' s' N' S'|e' c' x' s' E' S'].
    + destruct (entity_head _ _ E) as [q ->]. discriminate.
    + destruct (entity_head _ _ E) as [q ->]. injection Z as -> _. destruct N'. now left.
    + symmetry in Z. destruct (entity_det _ _ _ _ _ _ E E' Z) as (_ & -> & ->). f_equal. now apply IH.
Qed.
(* the characters of an escaped text *)
Fixpoint chars_in (P : ascii -> Prop) (s : string) : Prop := match s with EmptyString => True | String c r => P c /\ chars_in P r end.
Lemma chars_app : forall P a b, chars_in P a -> chars_in P b -> chars_in P (a ++ b).
Proof. induction a as [|c a IH]; cbn; intros b A B; [exact B|]. destruct A; split; auto. Qed.
Lemma sf_chars : forall x s, stands_for x s -> chars_in (fun c => c <> "<"%char /\ c <> ">"%char /\ c <> "'"%char /\ c <> """"%char) x.
Proof.
  induction 1 as [|c x s N _ IH|e c x s E _ IH]; cbn; auto.
  - split; [|assumption]. unfold markup in N. tauto.
  - apply chars_app; [|assumption]. destruct E; cbn; repeat split; discriminate.
Qed.

(* ---- documents ---- *)
Lemma content_app : forall k b, Xml_spec.content k b -> forall c a, Xml_spec.content c a -> Xml_spec.content (c ++ k) (a ++ b).
Proof.
  induction 1 as [|k b s x K IH S|k b tag l la q qa K IH X A Q _]; intros c a C.
  - rewrite app_nil_r, append_nil_r. exact C.
  - rewrite app_assoc, <- append_assoc. apply ct_text; auto.
  - rewrite app_assoc. rewrite <- (append_assoc a b). apply ct_elem; auto.
Qed.
Lemma content_one : forall s x, stands_for x s -> Xml_spec.content [Text s] x.
Proof. intros s x S. apply (ct_text [] "" s x); [constructor|assumption]. Qed.
Inductive partial : bool -> list frame -> list xml -> string -> Prop :=
| pa_top top out : Xml_spec.content top out -> partial false [] top out
| pa_open fr top out t l a : partial false fr top out -> xname t -> attrs l a -> partial true ((t, l, []) :: fr) top (out ++ "<" ++ t ++ a)
| pa_in fr top out t l c x : partial true ((t, l, []) :: fr) top out -> Xml_spec.content c x -> partial false ((t, l, c) :: fr) top (out ++ ">" ++ x).
Definition puts (k : list xml) (st : list frame * list xml) : list frame * list xml :=
  match st with
  | ((t, l, c) :: r, top) => ((t, l, (c ++ k)%list) :: r, top)
  | ([], top) => ([], (top ++ k)%list)
  end.
Lemma partial_add : forall fr top out k x, partial false fr top out -> Xml_spec.content k x ->
  partial false (fst (puts k (fr, top))) (snd (puts k (fr, top))) (out ++ x).
Proof.
  intros fr top out k x P K. inversion P; subst; cbn [puts fst snd].
  - apply pa_top. now apply content_app.
  - rewrite append_assoc. cbn [append]. apply pa_in; [assumption|]. now apply content_app.
Qed.
Lemma partial_close_tag : forall b fr top out, partial b fr top out -> partial false fr top (if b then out ++ ">" else out).
Proof.
  intros b fr top out P. destruct b; [|assumption]. inversion P; subst. 
  match goal with |- partial false _ _ (?o ++ ">") => change (o ++ ">") with (o ++ ">" ++ "") end. apply pa_in; [assumption|constructor].
Qed.
Lemma partial_close : forall t l c fr top out, partial false ((t, l, c) :: fr) top out ->
  partial false (fst (puts [Elem t l c] (fr, top))) (snd (puts [Elem t l c] (fr, top))) (out ++ "</" ++ t ++ ">").
Proof.
  intros t l c fr top out P. inversion P as [| |? ? out0 ? ? ? x P1 C]; subst. inversion P1 as [|? ? out1 ? ? a P2 X A|]; subst.
  match goal with |- partial _ _ _ ?o => assert (o = out1 ++ ("" ++ "<" ++ t ++ a ++ ">" ++ x ++ "</" ++ t ++ ">")) as -> by (repeat (rewrite append_assoc; cbn [append]); reflexivity) end.
  apply partial_add; [assumption|]. apply (ct_elem [] ""); auto. constructor.
Qed.
Definition strip (l : list xml) : list xml := flat_map strip_blanks l.
Definition sim_frame (f g : frame) : Prop := fst f = fst g /\ strip (snd f) = strip (snd g).
Lemma strip_app : forall a b, strip (a ++ b) = (strip a ++ strip b)%list.
Proof. intros. unfold strip. apply flat_map_app. Qed.
Definition sim (w : writer) (st : list frame * list xml) : Prop :=
  exists fr top, partial (w_tag_open w) fr top (w_out w) /\ Forall2 sim_frame (fst st) fr /\ strip (snd st) = strip top
    /\ w_stack w = map (fun f => fst (fst f)) fr /\ (w_tag_open w = true -> match fst st with (_, _, c) :: _ => c = [] | [] => False end).
Lemma sf_blank : forall s, blanks s = true -> stands_for s s.
Proof.
  induction s as [|c r IH]; cbn; intros H; [constructor|]. apply andb_true_iff in H as [B H]. apply sf_char; [|auto].
  unfold blank in B. apply orb_true_iff in B as [B|B]; apply Ascii.eqb_eq in B; subst; intros [M|[M|[M|[M|M]]]]; discriminate.
Qed.
Lemma blanks_app : forall a b, blanks (a ++ b) = blanks a && blanks b.
Proof. induction a; cbn; intros; [reflexivity|]. now rewrite IHa, andb_assoc. Qed.
Lemma blanks_spaces : forall n, blanks (spaces n) = true.
Proof. induction n; cbn; auto. Qed.
(* blank text and the closing of the tag keep the relation *)
Lemma sim_tag : forall w st, sim w st -> sim (close_tag w) st.
Proof.
  intros w st (fr & top & P & F & T & S & _). apply partial_close_tag in P. exists fr, top. unfold close_tag.
  destruct (w_tag_open w) eqn:O; cbn [w_tag_open w_out w_stack]; rewrite ?O; repeat split; auto; discriminate.
Qed.
Definition out_app (w : writer) (x : string) (nl : bool) : writer := {| w_out := w_out w ++ x; w_tag_open := w_tag_open w; w_new_line := nl; w_stack := w_stack w |}.
Lemma sim_puts : forall w st k k' x nl, w_tag_open w = false -> sim w st -> Xml_spec.content k' x -> strip k = strip k' -> sim (out_app w x nl) (puts k st).
Proof.
  intros w st k k' x nl O (fr & top & P & F & T & S & _) C E. rewrite O in P. apply (partial_add _ _ _ k' x) in P; [|assumption].
  destruct st as [fr0 top0]. cbn [fst snd] in *. exists (fst (puts k' (fr, top))), (snd (puts k' (fr, top))). cbn [out_app w_out w_tag_open w_stack]. rewrite O.
  split; [exact P|]. destruct F as [|[[t l] c] [[t' l'] c'] r r' [F1 F2] F].
  - cbn [puts fst snd]. repeat split; auto; [|discriminate]. now rewrite !strip_app, T, E.
  - cbn [puts fst snd] in *. injection F1 as -> ->. repeat split; auto; [|discriminate]. constructor; [|assumption]. split; [reflexivity|]. cbn [snd] in *. now rewrite !strip_app, F2, E.
Qed.
Lemma sim_blank : forall w st x nl, w_tag_open w = false -> sim w st -> blanks x = true -> sim (out_app w x nl) st.
Proof.
  intros w st x nl O S B. assert (puts [] st = st) as <- by (destruct st as [[|[[t l] c] r] top]; cbn; now rewrite app_nil_r).
  apply (sim_puts w st [] [Text x]); auto; [apply content_one; now apply sf_blank|]. cbn. now rewrite B.
Qed.
Lemma tag_closed : forall w, w_tag_open (close_tag w) = false.
Proof. intros w. unfold close_tag. destruct (w_tag_open w) eqn:E; [reflexivity|exact E]. Qed.
Lemma tag_stack : forall w, w_stack (close_tag w) = w_stack w.
Proof. intros w. unfold close_tag. destruct (w_tag_open w); reflexivity. Qed.
Lemma sim_open : forall w st t, sim w st -> xname t -> sim (open_elt w t) (describe st (OpenElt t)).
Proof.
  intros w st t S X. apply sim_tag in S. assert (O := tag_closed w). unfold open_elt. set (v := close_tag w) in *. clearbody v.
  set (ws := (match w_stack v with [] => "" | _ => endl end ++ indent v)).
  assert (blanks ws = true) as B by (unfold ws, indent; rewrite blanks_app, blanks_spaces; destruct (w_stack v); reflexivity).
  apply (sim_blank _ _ ws true O) in S; [|exact B]. destruct S as (fr & top & P & F & T & St & _). cbn [out_app w_out w_tag_open w_stack] in *. rewrite O in P.
  destruct st as [fr0 top0]. cbn [describe fst snd] in *. exists ((t, [], []) :: fr), top. cbn [w_out w_tag_open w_stack fst snd map].
  split; [|split; [constructor; [split; reflexivity|exact F]|split; [exact T|split; [now rewrite St|reflexivity]]]].
  assert (w_out v ++ (match w_stack v with [] => "" | _ => endl end) ++ indent v ++ "<" ++ t = (w_out v ++ ws) ++ "<" ++ t ++ "") as ->
    by (unfold ws; rewrite append_nil_r, !append_assoc; reflexivity).
  apply pa_open; [exact P|exact X|constructor].
Qed.
Lemma sim_attr : forall w st k v, sim w st -> w_tag_open w = true -> xname k -> sim (attr w k v) (describe st (Attr k v)).
Proof.
  intros w st k v (fr & top & P & F & T & St & E) O X. rewrite O in P. inversion P as [|fr1 top1 out1 t l a P1 X1 A|]; subst.
  destruct st as [fr0 top0]. cbn [fst snd] in *. specialize (E O). destruct fr0 as [|[[t0 l0] c0] fr0]; [destruct E|]. subst c0.
  inversion F as [|? ? ? ? [F1 F2] F3]; subst. cbn [fst snd] in *. injection F1 as -> ->. cbn [describe].
  exists ((t, (l ++ [(k, v)])%list, []) :: fr1), top. cbn [attr w_out w_tag_open w_stack fst snd map]. rewrite O.
  split; [|split; [constructor; [split; reflexivity|exact F3]|split; [exact T|split; [rewrite St; reflexivity|reflexivity]]]].
  match goal with H : _ = w_out w |- _ => rewrite <- H end.
  match goal with |- partial _ _ _ ?o => assert (o = out1 ++ "<" ++ t ++ (a ++ " " ++ k ++ "=""" ++ write_escape v ++ """")) as -> by (repeat (rewrite append_assoc; cbn [append]); reflexivity) end.
  apply pa_open; auto. apply at_add; auto. apply escape_ok.
Qed.
Lemma sim_content : forall w st s, sim w st -> sim (content w s) (describe st (Content s)).
Proof.
  intros w st s S. apply sim_tag in S. apply (sim_puts _ _ [Text s] [Text s] (write_escape s) (w_new_line (close_tag w)) (tag_closed w)) in S; [|apply content_one, escape_ok|reflexivity].
  destruct st as [[|[[t l] c] r] top]; exact S.
Qed.
Lemma sim_close : forall w st, sim w st -> fst st <> [] -> exists w', close_elt w = Ok w' /\ sim w' (describe st CloseElt) /\ w_tag_open w' = false.
Proof.
  intros w st S N. apply sim_tag in S. assert (O := tag_closed w). unfold close_elt. set (v := close_tag w) in *. clearbody v.
  destruct S as (fr & top & P & F & T & St & E). destruct st as [fr0 top0]. cbn [fst snd] in *. destruct fr0 as [|[[t0 l0] c0] fr0]; [congruence|].
  inversion F as [|? [[t1 l1] c1] ? fr1 [F1 F2] F3]; subst. cbn [fst snd] in *. injection F1 as <- <-. rewrite St. cbn [map fst].
  set (ws := if w_new_line v then endl ++ spaces (List.length (map (fun f : frame => fst (fst f)) fr1)) else "").
  assert (blanks ws = true) as B by (unfold ws; destruct (w_new_line v); [rewrite blanks_app, blanks_spaces; reflexivity|reflexivity]).
  eexists. split; [reflexivity|]. split; [|exact O]. rewrite O in P.
  assert (partial false ((t0, l0, (c1 ++ [Text ws])%list) :: fr1) top (w_out v ++ ws)) as P2.
  { apply (partial_add _ _ _ [Text ws] ws) in P; [exact P|]. apply content_one. now apply sf_blank. }
  apply partial_close in P2. exists (fst (puts [Elem t0 l0 (c1 ++ [Text ws])] (fr1, top))), (snd (puts [Elem t0 l0 (c1 ++ [Text ws])] (fr1, top))).
  cbn [w_out w_tag_open w_stack]. rewrite O. cbn [describe]. rewrite append_assoc in P2. split; [exact P2|].
  assert (strip [Elem t0 l0 c0] = strip [Elem t0 l0 (c1 ++ [Text ws])]) as Se.
  { cbn [strip flat_map strip_blanks app]. do 2 f_equal. change (strip c0 = strip (c1 ++ [Text ws])). rewrite strip_app, F2. assert (strip [Text ws] = []) as -> by (unfold strip; cbn [flat_map strip_blanks]; rewrite B; reflexivity). now rewrite app_nil_r. }
  destruct F3 as [|[[t l] c] [[t' l'] c'] r r' [G1 G2] F3]; cbn [put puts fst snd] in *.
  - repeat split; auto; [|discriminate]. now rewrite !strip_app, T, Se.
  - injection G1 as -> ->. repeat split; auto; [|discriminate]. constructor; [|assumption]. split; [reflexivity|]. cbn [snd] in *. now rewrite !strip_app, G2, Se.
Qed.
Lemma describe_depth : forall st o, List.length (fst (describe st o)) = match o with OpenElt _ => S (List.length (fst st)) | CloseElt => Nat.pred (List.length (fst st)) | _ => List.length (fst st) end.
Proof. intros [[|[[t l] c] r] top] [tg|k v|s|]; try reflexivity. destruct r as [|[[t' l'] c'] r]; reflexivity. Qed.
Lemma run_ok : forall ops w st, sim w st -> sensible (w_tag_open w) (List.length (fst st)) ops ->
  exists w', do_wops w ops = Ok w' /\ sim w' (fold_left describe ops st).
Proof.
  induction ops as [|o r IH]; intros w st S H; [exists w; auto|]. cbn [do_wops fold_left].
  assert (D := describe_depth st o). destruct o as [t|k v|s|]; cbn [sensible do_wop obind] in *.
  - destruct H as [X H]. apply IH; [now apply sim_open|]. cbn [open_elt w_tag_open]. rewrite D. exact H.
  - destruct H as (O & X & H). apply IH; [now apply sim_attr|]. cbn [attr w_tag_open]. rewrite D, O. exact H.
  - apply IH; [now apply sim_content|]. rewrite D. unfold content. cbn [w_tag_open]. rewrite tag_closed. exact H.
  - destruct (fst st) as [|f fr] eqn:E; [destruct H|]. destruct (sim_close w st S) as (w' & -> & S' & O'); [congruence|]. cbn [obind].
    apply IH; [exact S'|]. rewrite D, O'. exact H.
Qed.
Lemma close_ok : forall n w st, sim w st -> List.length (fst st) = n -> (n = O -> w_tag_open w = false) -> exists w', close_n n w = Ok w' /\ exists d, Xml_spec.content d (w_out w') /\ strip d = strip (close_frames n st).
Proof.
  induction n as [|n IH]; intros w st S L O.
  - exists w. split; [reflexivity|]. destruct S as (fr & top & P & F & T & St & _). rewrite (O eq_refl) in P. destruct (fst st); [|discriminate]. inversion F; subst.
    inversion P; subst. exists top. split; [assumption|]. cbn [close_frames]. now rewrite T.
  - destruct (sim_close w st S) as (w' & E & S' & O'); [intros Z; rewrite Z in L; discriminate|]. cbn [close_n close_frames]. rewrite E. cbn [obind].
    apply IH; [exact S'|rewrite describe_depth, L; reflexivity|auto].
Qed.
Lemma document_ok : forall ops, sensible false 0 ops -> exists out d, write_document ops = Ok out /\ Xml_spec.content d out /\ strip d = strip (described ops).
Proof.
  intros ops H. destruct (run_ok ops new_writer ([], [])) as (w & E & S).
  - exists [], []. cbn. repeat split; auto; [|discriminate]. apply pa_top. constructor.
  - exact H.
  - unfold write_document, described, close_all. rewrite E. cbn [obind].
    assert (List.length (w_stack w) = List.length (fst (fold_left describe ops ([], [])))) as L.
    { destruct S as (fr & top & _ & F & _ & St & _). rewrite St, map_length. clear -F. induction F; cbn [List.length]; congruence. }
    rewrite L. destruct (close_ok (List.length (fst (fold_left describe ops ([], [])))) w _ S eq_refl) as (w' & Ec & d & C & D).
    + intros Z. destruct (w_tag_open w) eqn:O; [|reflexivity]. destruct S as (fr & top & _ & _ & _ & _ & T). specialize (T O). destruct (fst (fold_left describe ops ([], []))); [destruct T|discriminate].
    + rewrite Ec. cbn [obind]. exists (w_out w'), d. auto.
Qed.

(* ---- the report ---- *)
Ltac xn := repeat split; try discriminate; cbv; intuition discriminate.
Lemma sensible_mono : forall r n op, sensible false n r -> sensible op n r.
Proof. intros [|[t|k v|s|] r] n op H; cbn [sensible] in *; auto. destruct H; discriminate. Qed.
Lemma xn_all : xname "line" /\ xname "number" /\ xname "hits" /\ xname "branch" /\ xname "class" /\ xname "name" /\ xname "filename" /\ xname "line-rate" /\ xname "branch-rate" /\ xname "complexity" /\ xname "methods" /\ xname "lines"
  /\ xname "sources" /\ xname "source" /\ xname "packages" /\ xname "package" /\ xname "classes" /\ xname "coverage".
Proof. xn. Qed.
Ltac sn := repeat match goal with |- _ /\ _ => split end; try reflexivity; try tauto.
Lemma sensible_lines : forall lines op n r, sensible false n r -> sensible op n (flat_map (fun l => report_line (fst l) (snd l)) lines ++ r).
Proof.
  induction lines as [|l ls IH]; intros op n r H; [now apply sensible_mono|]. cbn [flat_map]. rewrite <- app_assoc. cbn [report_line app sensible].
  assert (X := xn_all). assert (Y := IH false n r H). sn.
Qed.
Lemma sensible_classes : forall cs op n, sensible op n (flat_map report_class cs).
Proof.
  induction cs as [|[[name file] lines] cs IH]; intros op n; [exact I|]. cbn [flat_map report_class]. rewrite <- !app_assoc. cbn [app sensible].
  assert (X := xn_all). assert (Y := sensible_lines lines true (S (S n)) ([CloseElt; CloseElt] ++ flat_map report_class cs) (IH false n)). sn.
Qed.
Lemma sensible_stats : forall stats n r, Forall (fun s => xname (fst s)) stats -> sensible true n r -> sensible true n (map (fun s => Attr (fst s) (snd s)) stats ++ r).
Proof. induction 1 as [|s l X _ IH]; intros H; [exact H|]. cbn [map app sensible]. auto. Qed.
Lemma report_sensible : forall stats root cs, Forall (fun s => xname (fst s)) stats -> sensible false 0 (report_ops stats root cs).
Proof.
  intros stats root cs F. unfold report_ops. cbn [app sensible]. assert (X := xn_all). split; [tauto|]. apply sensible_stats; [exact F|].
  cbn [sensible]. assert (Y := sensible_classes cs true 4%nat). sn.
Qed.
Lemma fold_stats : forall stats t l c fr top, fold_left describe (map (fun s => Attr (fst s) (snd s)) stats) ((t, l, c) :: fr, top) = ((t, (l ++ stats)%list, c) :: fr, top).
Proof.
  induction stats as [|[k v] r IH]; intros; cbn [map fold_left describe fst snd]; [now rewrite app_nil_r|]. now rewrite IH, <- app_assoc.
Qed.
Lemma fold_lines : forall lines t l c fr top, fold_left describe (flat_map (fun l => report_line (fst l) (snd l)) lines) ((t, l, c) :: fr, top) = ((t, l, (c ++ map line_elem lines)%list) :: fr, top).
Proof.
  induction lines as [|x r IH]; intros; cbn [flat_map]; [cbn; now rewrite app_nil_r|]. rewrite fold_left_app. cbn [report_line fold_left describe put app map]. rewrite IH, <- app_assoc. reflexivity.
Qed.
Lemma fold_classes : forall cs t l c fr top, fold_left describe (flat_map report_class cs) ((t, l, c) :: fr, top) = ((t, l, (c ++ map class_elem cs)%list) :: fr, top).
Proof.
  induction cs as [|[[n f] ls] r IH]; intros; cbn [flat_map]; [cbn; now rewrite app_nil_r|]. rewrite fold_left_app. cbn [report_class]. rewrite !fold_left_app. cbn [fold_left describe put app map].
  rewrite fold_lines. cbn [fold_left describe put app]. rewrite IH, <- app_assoc. reflexivity.
Qed.
Lemma report_described : forall stats root cs, described (report_ops stats root cs) = [report_tree stats root cs].
Proof.
  intros. unfold described, report_ops. rewrite !fold_left_app. cbn [fold_left describe put app]. rewrite fold_stats. cbn [app fold_left describe put]. rewrite fold_classes. reflexivity.
Qed.
(* ---- the lines listed ---- *)
Lemma same_refl : forall a, same_line a a = true.
Proof. intros a. unfold same_line. now rewrite String.eqb_refl, Z.eqb_refl. Qed.
Lemma same_iff : forall a b, same_line a b = true <-> e_file a = e_file b /\ e_line a = e_line b.
Proof. intros. unfold same_line. now rewrite andb_true_iff, String.eqb_eq, Z.eqb_eq. Qed.
Lemma listed_in : forall l e, In e (listed l) -> In e l.
Proof. induction l as [|a r IH]; cbn; intros e H; [exact H|]. destruct (existsb (same_line a) r); [auto|]. destruct H; auto. Qed.
Lemma listed_all : forall l e, In e l -> exists e', In e' (listed l) /\ e_file e' = e_file e /\ e_line e' = e_line e.
Proof.
  induction l as [|a r IH]; cbn; intros e H; [destruct H|]. destruct H as [->|H].
  - destruct (existsb (same_line e) r) eqn:X; [|exists e; cbn; auto]. apply existsb_exists in X as (b & B & S). apply same_iff in S as [S1 S2].
    destruct (IH b B) as (e' & I & F & L). exists e'. split; [exact I|]. split; congruence.
  - destruct (IH e H) as (e' & I & F & L). exists e'. destruct (existsb (same_line a) r); cbn; auto.
Qed.
Lemma listed_nodup : forall l, NoDup (map (fun e => (e_file e, e_line e)) (listed l)).
Proof.
  induction l as [|a r IH]; cbn; [constructor|]. destruct (existsb (same_line a) r) eqn:X; [exact IH|]. cbn. constructor; [|exact IH].
  intros I. apply in_map_iff in I as (b & E & B). injection E as E1 E2. enough (existsb (same_line a) r = true) by congruence.
  apply existsb_exists. exists b. split; [now apply listed_in|]. apply same_iff. split; congruence.
Qed.
Lemma get_app : forall e x i, (i < String.length e)%nat -> String.get i (e ++ x) = String.get i e.
Proof. induction e as [|c e IH]; intros x i L; [inversion L|]. destruct i; [reflexivity|]. cbn [append String.get]. apply IH. cbn in L. lia. Qed.
Lemma get_app_r : forall e x i, String.get (String.length e + i) (e ++ x) = String.get i x.
Proof. induction e; intros; cbn; auto. Qed.
Lemma sub_app_r : forall e x i n, String.substring (String.length e + i) n (e ++ x) = String.substring i n x.
Proof. induction e; intros; cbn; auto. Qed.
Lemma sub_app_l : forall e x, String.substring 0 (String.length e) (e ++ x) = e.
Proof. induction e as [|c e IH]; intros x; [destruct x; reflexivity|]. cbn. now rewrite IH. Qed.
Lemma sf_amp : forall x s, stands_for x s -> forall i, String.get i x = Some "&"%char -> exists e c, entity e c /\ String.substring i (String.length e) x = e.
Proof.
  induction 1 as [|c x s N _ IH|e c x s E _ IH]; intros i G.
  - destruct i; discriminate.
  - destruct i; [injection G as ->; destruct N; now left|]. cbn in G. destruct (IH i G) as (e & c' & E & S). exists e, c'. split; [exact E|exact S].
  - destruct (Nat.lt_ge_cases i (String.length e)) as [L|L].
    + rewrite get_app in G by exact L. assert (i = O) as ->. { destruct E; cbn in L; do 7 (destruct i as [|i]; [try reflexivity; discriminate|]); lia. }
      exists e, c. split; [exact E|]. apply sub_app_l.
    + assert (exists j, i = String.length e + j)%nat as [j ->] by (exists (i - String.length e)%nat; lia). rewrite get_app_r in G. destruct (IH j G) as (e' & c' & E' & S).
      exists e', c'. split; [exact E'|]. now rewrite sub_app_r.
Qed.
Lemma chars_get : forall P s i c, chars_in P s -> String.get i s = Some c -> P c.
Proof. induction s as [|d s IH]; intros [|i] c H G; try discriminate; cbn in *; [injection G as <-; tauto|]. eapply IH; [apply H|exact G]. Qed.
