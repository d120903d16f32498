From Verif Require Import Base Emit_spec Emit_model.

Section Ind.
  Variable P : st -> Prop.
  Definition of_case (c : option (nat * bool * list st)) : Prop := match c with Some (_, _, b) => Forall P b | None => True end.
  Definition of_opt (c : option st) : Prop := match c with Some s => P s | None => True end.
  Hypothesis hAssign : forall i c w, P (SAssign i c w).
  Hypothesis hReturn : forall i, P (SReturn i).
  Hypothesis hCall : forall i, P (SCall i).
  Hypothesis hPlain : forall i, P (SPlain i).
  Hypothesis hLines : forall i n, P (SLines i n).
  Hypothesis hScope : forall i b, Forall P b -> P (SScope i b).
  Hypothesis hIf : forall i ti t ei e, Forall P t -> Forall P e -> P (SIf i ti t ei e).
  Hypothesis hFor : forall i bi b, Forall P b -> P (SFor i bi b).
  Hypothesis hCase : forall i cs, Forall of_case cs -> P (SCase i cs).
  Hypothesis hAssert : forall i o, of_opt o -> P (SAssert i o).
  Hypothesis hProp : forall i a o, of_opt o -> P (SProperty i a o).
  Fixpoint st_ind2 (s : st) : P s :=
    let all := fix all (l : list st) : Forall P l := match l with [] => Forall_nil P | x :: r => Forall_cons x (st_ind2 x) (all r) end in
    match s with
    | SAssign i c w => hAssign i c w
    | SReturn i => hReturn i
    | SCall i => hCall i
    | SPlain i => hPlain i
    | SLines i n => hLines i n
    | SScope i b => hScope i b (all b)
    | SIf i ti t ei e => hIf i ti t ei e (all t) (all e)
    | SFor i bi b => hFor i bi b (all b)
    | SCase i cs => hCase i cs ((fix go (l : list (option (nat * bool * list st))) : Forall of_case l :=
        match l with
        | [] => Forall_nil of_case
        | c :: r => Forall_cons c (match c return of_case c with Some (_, _, b) => all b | None => I end) (go r)
        end) cs)
    | SAssert i o => hAssert i o (match o return of_opt o with Some x => st_ind2 x | None => I end)
    | SProperty i a o => hProp i a o (match o return of_opt o with Some x => st_ind2 x | None => I end)
    end.
End Ind.

Definition off (x : node) : nat := match x with NFf _ => 1 | NConn _ k => k | _ => 0 end.
Definition placed (es : list ev) : Prop := forall a x b, es = a ++ Note x :: b -> exists c d, b = c ++ Key x :: d /\ newlines c = off x.
Definition is_case (x : node) : Prop := match x with NCase _ => True | _ => False end.
Definition keyed (es : list ev) : Prop := forall a x b, es = a ++ Key x :: b -> is_case x \/ exists c d, a = c ++ Note x :: d /\ newlines d = off x.
Definition plain_case (es : list ev) : Prop := forall i, ~ In (Note (NCase i)) es.
Definition good (es : list ev) : Prop := placed es /\ keyed es /\ plain_case es.

Lemma newlines_app : forall a b, newlines (a ++ b) = newlines a + newlines b.
Proof. intros. unfold newlines. now rewrite filter_app, app_length. Qed.
Lemma counted_app : forall a b, counted (a ++ b) = counted a + counted b.
Proof. intros. unfold counted. now rewrite filter_app, app_length. Qed.
Lemma app_split {A} : forall (a1 a2 a : list A) y b, a1 ++ a2 = a ++ y :: b ->
  (exists m, a1 = a ++ y :: m /\ b = m ++ a2) \/ (exists m, a = a1 ++ m /\ a2 = m ++ y :: b).
Proof.
  induction a1 as [|z a1 IH]; intros a2 a y b H; cbn in H; [right; exists a; auto|].
  destruct a as [|w a]; cbn in H; injection H as -> H; [left; exists a1; auto|].
  apply IH in H as [(m & -> & ->)|(m & -> & ->)]; [left|right]; exists m; auto.
Qed.
Lemma good_nil : good [].
Proof. split; [|split]; intros a; try intros x b H; try (destruct a; discriminate). intros []. Qed.
Lemma good_app : forall a b, good a -> good b -> good (a ++ b).
Proof.
  intros a b (Pa & Ka & Ca) (Pb & Kb & Cb). split; [|split].
  - intros u x v H. apply app_split in H as [(m & -> & ->)|(m & -> & ->)].
    + destruct (Pa u x m eq_refl) as (c & d & -> & N). exists c, (d ++ b). rewrite <- app_assoc. auto.
    + destruct (Pb m x v eq_refl) as (c & d & -> & N). eauto.
  - intros u x v H. apply app_split in H as [(m & -> & ->)|(m & -> & ->)].
    + apply (Ka u x m eq_refl).
    + destruct (Kb m x v eq_refl) as [C|(c & d & -> & N)]; [auto|]. right. exists (a ++ c), d. rewrite <- app_assoc. auto.
  - intros i I. apply in_app_iff in I as [I|I]; [exact (Ca i I)|exact (Cb i I)].
Qed.
Definition blank (e : ev) : Prop := match e with Text | Nl | Std_nl => True | Key (NCase _) => True | _ => False end.
Lemma good_blank : forall e, blank e -> good [e].
Proof.
  intros e B. split; [|split].
  - intros [|? [|]] x b H; try discriminate. injection H as -> _. destruct B.
  - intros [|? [|]] x b H; try discriminate. injection H as -> _. left. destruct x; try destruct B. exact I.
  - intros i [->|[]]. destruct B.
Qed.
Lemma good_blanks : forall l, Forall blank l -> good l.
Proof. induction 1 as [|e l B F IH]; [apply good_nil|]. change (e :: l) with ([e] ++ l). apply good_app; [now apply good_blank|exact IH]. Qed.
Lemma good_times : forall n l, good l -> good (times n l).
Proof. induction n as [|n IH]; intros l H; cbn; [apply good_nil|]. apply good_app; auto. Qed.
Lemma good_flat {A} (f : A -> list ev) : forall l, Forall (fun x => good (f x)) l -> good (flat_map f l).
Proof. induction 1 as [|x l H F IH]; cbn; [apply good_nil|]. apply good_app; auto. Qed.
Definition void (e : ev) : Prop := match e with Text | Nl | Std_nl => True | _ => False end.
Lemma good_pair : forall x c, Forall void c -> newlines c = off x -> ~ is_case x -> good (Note x :: c ++ [Key x]).
Proof.
  intros x c V N C.
  assert (X : forall a y b, c ++ [Key x] = a ++ y :: b -> void y \/ (a = c /\ y = Key x /\ b = [])).
  { intros a y b H. apply app_split in H as [(m & E & _)|(m & -> & H)].
    - left. rewrite Forall_forall in V. apply V. rewrite E. apply in_app_iff. right. now left.
    - destruct m as [|? [|]]; try discriminate. injection H as <- <-. right. rewrite app_nil_r. auto. }
  split; [|split].
  - intros [|e a] y b H; cbn in H; injection H as E H.
    + subst y b. exists c, []. auto.
    + apply X in H as [[]|(_ & H & _)]. discriminate.
  - intros [|e a] y b H; cbn in H; injection H as E H; [discriminate|]. subst e. apply X in H as [[]|(-> & H & _)]. injection H as ->. right. exists [], c. auto.
  - intros i [H|H]; [injection H as ->; apply C; exact I|]. apply in_app_iff in H as [H|[H|[]]]; [|discriminate]. rewrite Forall_forall in V. apply (V _ H).
Qed.
Lemma good_conn : forall i n, good (map (fun k => Note (NConn i k)) (seq 0 n) ++ flat_map (fun k => [Text; Key (NConn i k); Text; Nl]) (seq 0 n)).
Proof.
  intros i n. set (g := fun k => [Text; Key (NConn i k); Text; Nl]).
  assert (M : forall l a y b, map (fun k => Note (NConn i k)) l = a ++ y :: b ->
    exists l1 k l2, l = l1 ++ k :: l2 /\ a = map (fun k => Note (NConn i k)) l1 /\ y = Note (NConn i k) /\ b = map (fun k => Note (NConn i k)) l2).
  { induction l as [|k l IH]; intros [|z a] y b H; try discriminate; cbn in H; injection H as E H.
    - exists [], k, l. auto.
    - apply IH in H as (l1 & k' & l2 & -> & -> & -> & ->). subst z. exists (k :: l1), k', l2. auto. }
  assert (F : forall l a x b, flat_map g l = a ++ Key x :: b -> exists l1 k l2, l = l1 ++ k :: l2 /\ a = flat_map g l1 ++ [Text] /\ x = NConn i k).
  { induction l as [|k l IH]; intros a x b H; cbn [flat_map] in H; [destruct a; discriminate|].
    apply app_split in H as [(m & E & _)|(m & -> & H)].
    - unfold g in E. destruct a as [|? [|? [|? [|? [|]]]]]; cbn in E; inversion E; subst. exists [], k, l. auto.
    - apply IH in H as (l1 & k' & l2 & -> & -> & ->). exists (k :: l1), k', l2. split; [reflexivity|]. split; [|reflexivity]. cbn [flat_map]. now rewrite app_assoc. }
  assert (FN : forall l a x b, flat_map g l = a ++ Note x :: b -> False).
  { intros l a x b H. assert (I : In (Note x) (flat_map g l)) by (rewrite H; apply in_app_iff; right; now left).
    apply in_flat_map in I as (k & _ & I). cbn in I. intuition discriminate. }
  assert (Sq : forall l1 k l2, seq 0 n = l1 ++ k :: l2 -> k = List.length l1 /\ k < n).
  { intros l1 k l2 H. assert (L : List.length l1 < n).
    { rewrite <- (seq_length n 0), H, app_length. cbn. lia. }
    assert (E : nth (List.length l1) (seq 0 n) 0 = k) by (rewrite H, app_nth2, Nat.sub_diag by lia; reflexivity). rewrite seq_nth in E by exact L. split; lia. }
  assert (NM : forall l, newlines (map (fun k => Note (NConn i k)) l) = 0) by (induction l; auto).
  assert (NF : forall l, newlines (flat_map g l) = List.length l).
  { induction l as [|k l IH]; [reflexivity|]. cbn [flat_map]. rewrite newlines_app, IH. reflexivity. }
  split; [|split].
  - intros a x b H. apply app_split in H as [(m & H & ->)|(m & _ & H)]; [|now apply FN in H].
    apply M in H as (l1 & k & l2 & E & _ & Ex & ->). injection Ex as ->. destruct (Sq _ _ _ E) as [Ek _]. rewrite E.
    exists (map (fun k => Note (NConn i k)) l2 ++ flat_map g l1 ++ [Text]), ([Text; Nl] ++ flat_map g l2). split.
    + rewrite flat_map_app. cbn [flat_map]. rewrite <- !app_assoc. reflexivity.
    + rewrite !newlines_app, NM, NF. cbn. lia.
  - intros a x b H. right. apply app_split in H as [(m & H & _)|(m & -> & H)]; [apply M in H as (? & ? & ? & _ & _ & H & _); discriminate|].
    apply F in H as (l1 & k & l2 & E & -> & ->). destruct (Sq _ _ _ E) as [Ek _].
    exists (map (fun k => Note (NConn i k)) l1), (map (fun k => Note (NConn i k)) l2 ++ flat_map g l1 ++ [Text]). split.
    + rewrite E, map_app. cbn [map]. rewrite <- app_assoc. reflexivity.
    + rewrite !newlines_app, NM, NF. cbn. lia.
  - intros j I. apply in_app_iff in I as [I|I].
    + apply in_map_iff in I as (k & H & _). discriminate.
    + apply in_flat_map in I as (k & _ & I). cbn in I. intuition discriminate.
Qed.
Lemma good_cons : forall e l, blank e -> good l -> good (e :: l).
Proof. intros e l B H. change (e :: l) with ([e] ++ l). apply good_app; [now apply good_blank|exact H]. Qed.
Lemma good_now : forall x l, off x = 0 -> ~ is_case x -> good l -> good (Note x :: Key x :: l).
Proof. intros x l O C H. change (Note x :: Key x :: l) with ((Note x :: [] ++ [Key x]) ++ l). apply good_app; [apply good_pair; auto|exact H]. Qed.
Lemma good_soon : forall x l, off x = 0 -> ~ is_case x -> good l -> good (Note x :: Text :: Key x :: l).
Proof. intros x l O C H. change (Note x :: Text :: Key x :: l) with ((Note x :: [Text] ++ [Key x]) ++ l). apply good_app; [apply good_pair; auto; repeat constructor|exact H]. Qed.
Lemma good_ff : forall i l, good l -> good (Note (NFf i) :: Nl :: Key (NFf i) :: l).
Proof. intros i l H. change (Note (NFf i) :: Nl :: Key (NFf i) :: l) with ((Note (NFf i) :: [Nl] ++ [Key (NFf i)]) ++ l). apply good_app; [apply good_pair; auto; repeat constructor|exact H]. Qed.
Lemma good_comment : forall c, good (comment c).
Proof. intros []; apply good_blanks; repeat constructor. Qed.
Lemma good_attr : forall src i, good (attr src i).
Proof. intros src i. unfold attr. destruct (src i); apply good_blanks; repeat constructor. Qed.
Ltac gd := repeat (cbn [app]; first
  [ apply good_nil | apply good_comment | apply good_attr | assumption
  | apply good_times
  | apply good_cons; [exact I|]
  | apply good_now; [reflexivity|intros []|]
  | apply good_soon; [reflexivity|intros []|]
  | apply good_ff
  | apply good_app ]).
Lemma code_good : forall src s, good (code src s).
Proof.
  intros src. apply (st_ind2 (fun s => good (code src s))); intros; cbn [code st_id]; unfold assign_code; try solve [gd].
  - apply good_app; [gd|]. gd. now apply good_flat.
  - apply good_app; [gd|]. pose proof (good_flat _ _ H) as Ht. pose proof (good_flat _ _ H0) as He.
    gd. destruct e as [|s1 [|s2 r]]; gd. inversion H0; subst. destruct (direct s1); gd.
  - pose proof (good_flat _ _ H). gd.
  - apply good_app; [gd|]. gd. apply good_flat. eapply Forall_impl; [|exact H]. intros [[[bi lb] b]|] Hb; [|gd]. cbn [of_case] in Hb.
    pose proof (good_flat _ _ Hb) as Hf. destruct b as [|s1 [|s2 r]]; gd; inversion Hb; subst. destruct (negb lb && is_assign s1); gd.
  - gd. destruct o; gd; exact H.
  - gd. destruct a; gd. destruct o; gd; exact H.
Qed.
Lemma good_codes : forall src l, good (flat_map (code src) l).
Proof. intros src l. apply good_flat. apply Forall_forall. intros s _. apply code_good. Qed.
Lemma good_conns : forall i n, good (conn_code i n).
Proof.
  intros i n. unfold conn_code. destruct n as [|n]; [gd|]. cbn [app]. apply good_cons; [exact I|]. apply good_cons; [exact I|]. rewrite app_assoc.
  apply good_app; [apply good_conn|gd].
Qed.
Lemma top_good : forall src t, good (top_code src t).
Proof.
  intros src [s|i c b|i c b|i c p n]; cbn [top_code]; [apply code_good| | |]; pose proof (good_codes src) as H; unfold inst_code; gd; try apply H.
  - destruct p; gd.
  - apply good_conns.
Qed.
Lemma func_good : forall src f, good (func_code src f).
Proof.
  intros src f. unfold func_code. destruct (f_extern f); [gd|]. pose proof (good_codes src (f_body f)) as H.
  assert (Q : good (flat_map (fun p => [Note (NDecl p); Key (NDecl p); Text; Nl]) (f_ports f))) by (apply good_flat; apply Forall_forall; intros; gd).
  destruct (f_ports f) as [|p ps]; [gd|]. revert Q. generalize (flat_map (fun p => [Note (NDecl p); Key (NDecl p); Text; Nl]) (p :: ps)) as q. intros q Q. gd.
Qed.
Lemma header_good : forall src m, good (header_code src m).
Proof.
  intros src m. unfold header_code. apply good_app; [destruct (m_pkg m); gd|]. gd.
  - destruct (m_imports m); gd.
  - destruct (m_params m); gd.
  - apply good_flat, Forall_forall. intros; gd.
  - apply good_flat, Forall_forall. intros ls _. gd. apply good_flat, Forall_forall. intros; gd.
  - apply good_flat, Forall_forall. intros; gd.
  - apply good_flat, Forall_forall. intros; gd. apply good_conns.
Qed.
Lemma module_good : forall src m, good (module_code src m).
Proof.
  intros src m. unfold module_code. apply good_app; [apply header_good|]. apply good_app; [apply good_flat, Forall_forall; intros; apply func_good|].
  apply good_app; [apply good_flat, Forall_forall; intros; apply top_good|]. gd.
Qed.
(* lines that are not counted *)
Definition uncounted (l : list ev) : nat := List.length (filter (fun e => match e with Std_nl => true | _ => false end) l).
Lemma newlines_split : forall l, newlines l = counted l + uncounted l.
Proof. induction l as [|[] l IH]; unfold newlines, counted, uncounted in *; cbn; lia. Qed.
Lemma uncounted_app : forall a b, uncounted (a ++ b) = uncounted a + uncounted b.
Proof. intros. unfold uncounted. now rewrite filter_app, app_length. Qed.
Lemma uncounted_0 : forall l, ~ In Std_nl l -> uncounted l = 0.
Proof. induction l as [|e l IH]; intros H; [reflexivity|]. unfold uncounted in *. cbn. destruct e; try (apply IH; intros K; apply H; now right). exfalso. apply H. now left. Qed.
Lemma noted_line : forall es a x b, good es -> es = a ++ Note x :: b -> on_line es x (S (counted a) + off x + uncounted a).
Proof.
  intros es a x b (P & _ & _) E. destruct (P a x b E) as (c & d & -> & N). exists (a ++ Note x :: c), d. split.
  - rewrite <- app_assoc. exact E.
  - rewrite newlines_app, newlines_split. change (newlines (Note x :: c)) with (newlines c). lia.
Qed.
(* where the uncounted lines are *)
Fixpoint no_std (l : list ev) : bool := match l with [] => true | Std_nl :: _ => false | _ :: r => no_std r end.
Lemma no_std_app : forall a b, no_std (a ++ b) = no_std a && no_std b.
Proof. induction a as [|[] a IH]; intros b; cbn; auto. Qed.
Lemma no_std_0 : forall l, no_std l = true -> uncounted l = 0.
Proof. induction l as [|[] l IH]; cbn; auto; try discriminate. Qed.
Lemma no_std_flat {A} (f : A -> list ev) : forall l, Forall (fun x => no_std (f x) = true) l -> no_std (flat_map f l) = true.
Proof. induction 1 as [|x l H F IH]; cbn; [reflexivity|]. rewrite no_std_app, H. exact IH. Qed.
Lemma no_std_times : forall n l, no_std l = true -> no_std (times n l) = true.
Proof. induction n as [|n IH]; intros l H; cbn; [reflexivity|]. now rewrite no_std_app, H, IH. Qed.
Lemma no_std_comment : forall c, no_std (comment c) = true.
Proof. now intros []. Qed.
Lemma no_std_attr : forall src i, no_std (attr src i) = true.
Proof. intros. unfold attr. now destruct (src i). Qed.
Ltac ns := repeat (cbn [app no_std]; first [reflexivity | assumption | apply no_std_comment | apply no_std_attr | apply no_std_times
  | rewrite no_std_app; apply andb_true_iff; split ]).
Lemma code_no_std : forall src s, no_std (code src s) = true.
Proof.
  intros src. apply (st_ind2 (fun s => no_std (code src s) = true)); intros; cbn [code st_id]; unfold assign_code; try solve [ns].
  - ns. now apply no_std_flat.
  - pose proof (no_std_flat _ _ H) as Ht. pose proof (no_std_flat _ _ H0) as He.
    ns. destruct e as [|s1 [|s2 r]]; ns. inversion H0; subst. destruct (direct s1); ns.
  - pose proof (no_std_flat _ _ H). ns.
  - ns. apply no_std_flat. eapply Forall_impl; [|exact H]. intros [[[bi lb] b]|] Hb; [|ns]. cbn [of_case] in Hb.
    pose proof (no_std_flat _ _ Hb) as Hf. destruct b as [|s1 [|s2 r]]; ns; inversion Hb; subst. destruct (negb lb && is_assign s1); ns.
  - ns. destruct o; ns; exact H.
  - ns. destruct a; ns. destruct o; ns; exact H.
Qed.
Lemma codes_no_std : forall src l, no_std (flat_map (code src) l) = true.
Proof. intros src l. apply no_std_flat. apply Forall_forall. intros s _. apply code_no_std. Qed.
Lemma conn_no_std : forall i n, no_std (conn_code i n) = true.
Proof.
  intros i n. unfold conn_code. destruct n as [|n]; [reflexivity|]. ns.
  - generalize (seq 0 (S n)). induction l as [|k l IH]; [reflexivity|exact IH].
  - apply no_std_flat, Forall_forall. intros. reflexivity.
Qed.
Lemma top_no_std : forall src t, no_std (top_code src t) = true.
Proof.
  intros src [s|i c b|i c b|i c p n]; cbn [top_code]; [apply code_no_std| | |]; pose proof (codes_no_std src) as H; unfold inst_code; ns; try apply H.
  - destruct p; ns.
  - apply conn_no_std.
Qed.
Lemma header_no_std : forall src m, no_std (header_code src m) = true.
Proof.
  intros src m. unfold header_code. rewrite no_std_app. apply andb_true_iff. split; [now destruct (m_pkg m)|]. ns.
  - destruct (m_imports m); ns.
  - destruct (m_params m); ns.
  - apply no_std_flat, Forall_forall. intros; ns.
  - apply no_std_flat, Forall_forall. intros ls _. ns. apply no_std_flat, Forall_forall. intros; ns.
  - apply no_std_flat, Forall_forall. intros; ns.
  - apply no_std_flat, Forall_forall. intros; ns. apply conn_no_std.
Qed.
Definition bare (f : func) : bool := negb (f_extern f) && match f_ports f with [] => true | _ => false end.
Lemma func_uncounted : forall src f, uncounted (func_code src f) = if bare f then 1 else 0.
Proof.
  intros src f. unfold func_code, bare. destruct (f_extern f); [reflexivity|]. cbn [negb andb].
  pose proof (no_std_0 _ (codes_no_std src (f_body f))) as H.
  destruct (f_ports f) as [|p ps]; rewrite !uncounted_app, H.
  - reflexivity.
  - rewrite (no_std_0 (flat_map _ (p :: ps))) by (apply no_std_flat, Forall_forall; intros; reflexivity). reflexivity.
Qed.
Lemma funcs_uncounted : forall src l, uncounted (flat_map (func_code src) l) = List.length (filter bare l).
Proof.
  induction l as [|f l IH]; [reflexivity|]. cbn [flat_map filter]. rewrite uncounted_app, func_uncounted, IH. destruct (bare f); reflexivity.
Qed.
(* computing lines, for the examples *)
Definition ev_dec (a b : ev) : {a = b} + {a <> b}.
Proof. repeat decide equality. Defined.
Fixpoint lines_of (e : ev) (count : ev -> bool) (n : nat) (es : list ev) : list nat :=
  match es with
  | [] => []
  | y :: r => let rest := lines_of e count (if count y then S n else n) r in if ev_dec y e then n :: rest else rest
  end.
Lemma lines_of_ok : forall e count es n k, In k (lines_of e count n es) -> exists a b, es = a ++ e :: b /\ k = n + List.length (filter count a).
Proof.
  intros e count. induction es as [|y es IH]; intros n k H; [destruct H|]. cbn [lines_of] in H.
  assert (R : In k (lines_of e count (if count y then S n else n) es) -> exists a b, y :: es = a ++ e :: b /\ k = n + List.length (filter count a)).
  { intros K. apply IH in K as (a & b & -> & ->). exists (y :: a), b. split; [reflexivity|]. cbn [filter]. destruct (count y); cbn; lia. }
  destruct (ev_dec y e) as [->|]; [|now apply R]. destruct H as [<-|H]; [|now apply R]. exists [], es. cbn. split; [reflexivity|lia].
Qed.
Lemma on_line_of : forall es x n, In n (lines_of (Key x) ends_line 1 es) -> on_line es x n.
Proof. intros es x n H. apply lines_of_ok in H as (a & b & E & ->). exists a, b. auto. Qed.
Lemma noted_of : forall es x n, In n (lines_of (Note x) (fun e => match e with Nl => true | _ => false end) 1 es) -> noted es x n.
Proof. intros es x n H. apply lines_of_ok in H as (a & b & E & ->). exists a, b. auto. Qed.
