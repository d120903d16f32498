(* C311-C324: assignments and casts. *)
From Verif Require Import Base Const_model Assign_spec Assign_model.
Local Open Scope Z_scope.

Lemma assign_stmt_parts st l r st' q : assign_stmt st l r = Ok (st', q) -> q_left q = l /\ q_right q = r.
Proof.
  unfold assign_stmt. destruct (negb _); [discriminate|]. unfold obind at 1.
  match goal with |- context [match ?m with Ok _ => _ | Throw => _ | UB => _ end] => destruct m as [s| |] end; try discriminate.
  destruct (_ && _); [discriminate|]. intros H; inversion H; subst. now split.
Qed.
Lemma set_width_spec k w d : set_width k w = Ok d -> c_value d = c_value k /\ c_width d = w /\ c_signed d = c_signed k.
Proof. unfold set_width. destruct (is_legal _ _ _) as [[]| |]; cbn; intros H; inversion H; subst; now split. Qed.
Lemma upd_same st c k : upd st c k c = k. Proof. unfold upd. now rewrite Nat.eqb_refl. Qed.
Lemma upd_other st c k x : x <> c -> upd st c k x = st x. Proof. unfold upd. intros H. destruct (Nat.eqb_spec x c); now subst. Qed.

(* what is there after an assignment is made *)
Lemma assign_stmt_spec st l r st' q : (forall c e, l <> Lit c e) -> assign_stmt st l r = Ok (st', q) ->
  q = {| q_left := l; q_right := r |} /\
  width st' l = width st' r /\ signed st' l = signed st' r /\
  (forall c, c_value (st' c) = c_value (st c) /\ c_signed (st' c) = c_signed (st c)) /\
  (forall c, ~ In c (consts r) -> st' c = st c).
Proof.
  intros NL. unfold assign_stmt.
  destruct (Bool.eqb (signed st l) (signed st r)) eqn:SG; cbn [negb]; [|discriminate]. apply eqb_prop in SG.
  destruct (Z.eqb_spec (width st l) (width st r)) as [W|W]; cbn [obind].
  - destruct (_ && _); [discriminate|]. intros H; inversion H; subst. repeat split; trivial.
  - destruct r as [| |c e| | | |]; try discriminate.
    destruct (is_legal _ _ _) as [[]| |]; cbn [obind]; try discriminate.
    destruct (set_width (st c) (width st l)) as [d| |] eqn:SW; cbn [obind]; try discriminate.
    destruct (set_width_spec _ _ _ SW) as [V [WD SD]].
    destruct (_ && _); [discriminate|]. intros H; inversion H; subst.
    assert (LA : attr_of (upd st c d) l = attr_of st l) by (destruct l; trivial; exfalso; eapply NL; reflexivity).
    repeat split.
    + unfold width in *. rewrite LA. cbn. rewrite upd_same. lia.
    + unfold signed in *. rewrite LA. cbn in *. rewrite upd_same. congruence.
    + destruct (Nat.eqb_spec c0 c); [subst; rewrite upd_same; trivial | rewrite upd_other; trivial].
    + destruct (Nat.eqb_spec c0 c); [subst; rewrite upd_same; trivial | rewrite upd_other; trivial].
    + intros x NI. apply upd_other. intros ->. apply NI. now left.
Qed.
Lemma assign_under st l r x : assign st l r = Ok x -> assign_stmt st (under l) r = Ok x /\ (forall c e, under l <> Lit c e).
Proof.
  induction l; cbn; intros H; try discriminate; auto.
  - destruct (enum_check e r); [|discriminate]. split; trivial; discriminate.
  - destruct (enum_check e r && port_ok t r); [|discriminate]. split; trivial; discriminate.
  - split; trivial; discriminate.
  - destruct (all_concat l1 && all_concat l2); [|discriminate]. split; trivial; discriminate.
Qed.
Lemma assign_stmt_fits st l r : width st l = width st r -> signed st l = signed st r ->
  a_array (attr_of st l) = false -> a_array (attr_of st r) = false ->
  assign_stmt st l r = Ok (st, {| q_left := l; q_right := r |}).
Proof.
  intros W S A B. unfold assign_stmt. rewrite S, eqb_reflx. cbn [negb]. rewrite W, Z.eqb_refl. cbn [obind]. rewrite A, B. reflexivity.
Qed.

(* C311 *)
Theorem C311_typed_ports st a n t e r x : t <> PData -> assign st (Pt a n t e) r = Ok x -> is_port r \/ is_const r \/ cast_to t r.
Proof.
  intros T. cbn. destruct (enum_check e r); [|discriminate]. cbn [andb].
  destruct (port_ok t r) eqn:P; [|discriminate]. intros _.
  destruct r as [| | | | | |b c s f]; cbn in P; try (destruct t; congruence).
  - left. now exists a0, n0, t0, e0.
  - right; left. now exists c, e0.
  - right; right. exists b, c, s, f. split; trivial. destruct t, c; cbn in P |- *; congruence.
Qed.
Theorem C311_accepted st a n t r : is_port r \/ is_const r \/ cast_to t r \/ t = PData ->
  a_width a = width st r -> a_signed a = signed st r -> a_array a = false -> a_array (attr_of st r) = false ->
  assign st (Pt a n t None) r = Ok (st, {| q_left := Pt a n t None; q_right := r |}).
Proof.
  intros K W S A B. cbn.
  assert (P : port_ok t r = true).
  { destruct K as [[b [m [u [f ->]]]] | [[c [f ->]] | [[b [c [s [f [-> C]]]]] | ->]]]; trivial.
    - destruct t; cbn in C; inversion C; reflexivity.
    - destruct r; trivial. }
  rewrite P. apply assign_stmt_fits; trivial.
Qed.
Definition flat (w : Z) : attr := {| a_width := w; a_signed := false; a_array := false; a_packed := true |}.
Definition no_const : store := fun _ => {| c_value := 0; c_width := 1; c_signed := false |}.
Example C311_ex :
  assign no_const (Pt (flat 1) 0 PClock None) (Vr (flat 1) 1 None) = Throw /\
  assign no_const (Pt (flat 1) 0 PClock None) (Cast (flat 1) CAsync (Vr (flat 1) 1 None) None) = Throw /\
  (exists x, assign no_const (Pt (flat 1) 0 PClock None) (Cast (flat 1) CClock (Vr (flat 1) 1 None) None) = Ok x) /\
  (exists x, assign no_const (Pt (flat 1) 0 PAsync None) (Cast (flat 1) CAsync (Vr (flat 1) 1 None) None) = Ok x).
Proof. repeat split; try (eexists; reflexivity). Qed.

(* C312: what drives a clock is a clock *)
Definition is_clock (s : sig) : Prop := (exists a n e, s = Pt a n PClock e) \/ (exists a x e, s = Cast a CClock x e).
Theorem C312_data_port_refuted :
  ~ (forall st a n e r x, drive st (Pt a n PClock e) r = Ok x -> is_clock r \/ is_const r).
Proof.
  intros H. destruct (H no_const (flat 1) 0%nat None (Pt (flat 1) 1 PData None) _ eq_refl) as [[[a [n [e E]]] | [a [x [e E]]]] | [c [e E]]]; discriminate.
Qed.
(* C313: bits of a typed port are as the port *)
Theorem C313_bits_refuted :
  ~ (forall st a b n t e r x, t <> PData -> drive st (Bits b (Pt a n t e)) r = Ok x -> is_port r \/ is_const r \/ cast_to t r).
Proof.
  intros H.
  destruct (H no_const (flat 1) (flat 1) 0%nat PClock None (Vr (flat 1) 1 None) _ ltac:(discriminate) eq_refl)
    as [[a [n [t [e E]]]] | [[c [e E]] | [a [c [x [e [E _]]]]]]]; discriminate.
Qed.

(* C314 *)
Theorem C314_enum st l e r x : enum_of l = Some e -> under l = l -> assign st l r = Ok x ->
  exists d, enum_of r = Some d /\ en_name d = en_name e.
Proof.
  intros E U A.
  assert (K : enum_ok e r = true).
  { destruct l; cbn in E, A; try discriminate; subst.
    - cbn in A. destruct (enum_ok e r); [trivial | discriminate].
    - cbn in A. destruct (enum_ok e r); [trivial | discriminate].
    - exfalso. cbn in U. clear - U. assert (L : forall s y, under s = y -> match y with Cast _ _ _ _ => False | _ => True end).
      { induction s; cbn; intros y <-; trivial. exact (IHs _ eq_refl). }
      apply (L _ _ U). }
  destruct r as [? ? [d|]|? ? ? [d|]|? [d|]| | | |? [] ? [d|]]; cbn in K; try discriminate; exists d; split; trivial; now apply String.eqb_eq.
Qed.
Definition colour : enum := {| en_id := 0; en_name := "colour" |}.
Definition shape : enum := {| en_id := 1; en_name := "shape" |}.
Example C314_ex :
  assign no_const (Vr (flat 2) 0 (Some colour)) (Vr (flat 2) 1 (Some shape)) = Throw /\
  assign no_const (Vr (flat 2) 0 (Some colour)) (Vr (flat 2) 1 None) = Throw /\
  (exists x, assign no_const (Vr (flat 2) 0 (Some colour)) (Cast (flat 2) CEnum (Vr (flat 2) 1 None) (Some colour)) = Ok x) /\
  (exists x, assign no_const (Pt (flat 2) 0 PData (Some colour)) (Vr (flat 2) 1 (Some colour)) = Ok x).
Proof. repeat split; try (eexists; reflexivity). Qed.
(* C315: it is the same enumeration *)
Theorem C315_same_name_refuted :
  ~ (forall st l e r x d, enum_of l = Some e -> under l = l -> drive st l r = Ok x -> enum_of r = Some d -> en_id d = en_id e).
Proof.
  intros H. specialize (H no_const (Vr (flat 2) 0 (Some colour)) colour (Vr (flat 2) 1 (Some {| en_id := 7; en_name := "colour" |})) _ _ eq_refl eq_refl eq_refl eq_refl).
  cbn in H. lia.
Qed.

(* C316 *)
Theorem C316_sides st l r st' q : assign st l r = Ok (st', q) ->
  q = {| q_left := under l; q_right := r |} /\
  width st' (under l) = width st' r /\ signed st' (under l) = signed st' r /\
  (forall c, c_value (st' c) = c_value (st c) /\ c_signed (st' c) = c_signed (st c)) /\
  (forall c, ~ In c (consts r) -> st' c = st c).
Proof. intros A. destruct (assign_under _ _ _ _ A) as [B N]. exact (assign_stmt_spec _ _ _ _ _ N B). Qed.
Theorem C316_mismatch st l r : width st (under l) <> width st r \/ signed st (under l) <> signed st r -> ~ is_const r -> forall x, assign st l r <> Ok x.
Proof.
  intros D NC [st' q] A. destruct (C316_sides _ _ _ _ _ A) as [_ [W [S [_ K]]]].
  assert (SAME : forall s, ~ is_const s -> attr_of st' s = attr_of st s) by (intros s N; destruct s; trivial; destruct N; now eexists _, _).
  assert (NU : ~ is_const (under l)).
  { intros [c [e U]]. destruct (assign_under _ _ _ _ A) as [_ N]. now apply (N c e). }
  unfold width, signed in *. rewrite (SAME _ NC), (SAME _ NU) in *. destruct D; congruence.
Qed.
Definition five : store := fun _ => {| c_value := 5; c_width := 8; c_signed := false |}.
Example C316_ex :
  (exists st q, assign five (Vr (flat 4) 0 None) (Lit 3 None) = Ok (st, q) /\ c_width (st 3%nat) = 4 /\ c_width (st 2%nat) = 8) /\
  assign five (Vr (flat 2) 0 None) (Lit 3 None) = Throw /\
  assign five (Vr (flat 4) 0 None) (Vr (flat 3) 0 None) = Throw.
Proof. split; [eexists; eexists; split; [vm_compute; reflexivity | split; reflexivity] | split; reflexivity]. Qed.

(* C317 *)
Lemma drive_parts st l r st' q : drive st l r = Ok (st', q) -> assign st l r = Ok (st', q) /\ add_source (q_left q) = Ok tt.
Proof.
  unfold drive. destruct (assign st l r) as [[s p]| |]; cbn [obind]; try discriminate. cbn [snd].
  destruct (add_source (q_left p)) as [[]| |] eqn:E; cbn [obind]; try discriminate. intros H; inversion H; subst. now split.
Qed.
Lemma drive_all_keeps l : forall st st' qs, drive_all st l = Ok (st', qs) ->
  forall c, ~ In c (flat_map (fun x => consts (snd x)) l) -> st' c = st c.
Proof.
  induction l as [|[a b] l IH]; cbn; intros st st' qs H c NI. { inversion H; now subst. }
  destruct (drive st a b) as [[s q]| |] eqn:D; cbn [obind fst snd] in H; try discriminate.
  destruct (drive_all s l) as [[u ps]| |] eqn:R; cbn [obind fst snd] in H; try discriminate. inversion H; subst.
  rewrite in_app_iff in NI. rewrite (IH _ _ _ R c) by tauto.
  destruct (drive_parts _ _ _ _ _ D) as [A _]. destruct (C316_sides _ _ _ _ _ A) as [_ [_ [_ [_ K]]]]. apply K. tauto.
Qed.
Lemma attr_keeps st st' s : (forall c, In c (consts s) -> st' c = st c) -> attr_of st' s = attr_of st s.
Proof. intros H. destruct s; trivial. cbn. rewrite H; [trivial | now left]. Qed.
Lemma nodup_app_r {X} (l m : list X) : NoDup (l ++ m) -> NoDup m.
Proof. induction l; cbn; intros H; trivial. inversion H; auto. Qed.
Lemma nodup_apart {X} (l m : list X) x : NoDup (l ++ m) -> In x l -> ~ In x m.
Proof.
  induction l as [|a l IH]; cbn; intros H I; [destruct I|]. inversion H as [|? ? NI ND]; subst.
  destruct I as [-> | I]; [intros J; apply NI, in_app_iff; now right | auto].
Qed.
Theorem C317_sides_stay l : forall st st' qs, NoDup (flat_map (fun x => consts (snd x)) l) -> drive_all st l = Ok (st', qs) ->
  forall q, In q qs -> width st' (q_left q) = width st' (q_right q) /\ signed st' (q_left q) = signed st' (q_right q).
Proof.
  induction l as [|[a b] l IH]; cbn [drive_all flat_map snd]; intros st st' qs ND H q I. { inversion H; subst; destruct I. }
  destruct (drive st a b) as [[s p]| |] eqn:D; cbn [obind fst snd] in H; try discriminate.
  destruct (drive_all s l) as [[u ps]| |] eqn:R; cbn [obind fst snd] in H; try discriminate. inversion H; subst.
  destruct I as [-> | I]; [|exact (IH _ _ _ (nodup_app_r _ _ ND) R q I)].
  destruct (drive_parts _ _ _ _ _ D) as [A _]. destruct (C316_sides _ _ _ _ _ A) as [-> [W [S _]]]. cbn [q_left q_right].
  assert (KR : attr_of st' b = attr_of s b) by (apply attr_keeps; intros c J; apply (drive_all_keeps _ _ _ _ R); now apply (nodup_apart _ _ _ ND)).
  assert (KL : attr_of st' (under a) = attr_of s (under a)).
  { apply attr_keeps. intros c J. destruct (assign_under _ _ _ _ A) as [_ N]. destruct (under a); cbn in J; try easy. now destruct (N c0 e). }
  unfold width, signed in *. rewrite KR, KL. now split.
Qed.
Example C317_ex : exists st qs,
  drive_all five [(Vr (flat 4) 0 None, Lit 3 None); (Vr (flat 6) 1 None, Lit 4 None)] = Ok (st, qs) /\
  map (fun q => width st (q_right q)) qs = [4; 6].
Proof. do 2 eexists. split; [vm_compute; reflexivity | reflexivity]. Qed.
(* C318: one constant used twice *)
Theorem C318_shared_constant_refuted :
  ~ (forall l st st' qs, drive_all st l = Ok (st', qs) -> forall q, In q qs -> width st' (q_left q) = width st' (q_right q)).
Proof.
  intros H.
  assert (exists st qs, drive_all five [(Vr (flat 8) 0 None, Lit 3 None); (Vr (flat 4) 1 None, Lit 3 None)] = Ok (st, qs) /\
    exists q r, qs = q :: r /\ width st (q_left q) <> width st (q_right q)) as [st [qs [E [q [r [-> B]]]]]].
  { do 2 eexists. split; [vm_compute; reflexivity|]. do 2 eexists. split; [reflexivity|]. vm_compute. discriminate. }
  apply B. apply (H _ _ _ _ E). now left.
Qed.

(* C319 *)
Lemma add_source_written s : add_source s = Ok tt -> Forall (fun x => ~ is_const x) (written s).
Proof.
  induction s; cbn; intros H; auto.
  - constructor; trivial. intros [? [? ?]]; discriminate.
  - constructor; trivial. intros [? [? ?]]; discriminate.
  - discriminate.
  - destruct (add_source s1) as [[]| |] eqn:E; cbn in H; try discriminate. apply Forall_app. split; auto.
  - constructor; trivial. intros [? [? ?]]; discriminate.
Qed.
Lemma under_written s : written (under s) = written s.
Proof. induction s; cbn; auto. Qed.
Theorem C319_constants st l r x : drive st l r = Ok x -> Forall (fun y => ~ is_const y) (written l).
Proof.
  destruct x as [st' q]. intros D. destruct (drive_parts _ _ _ _ _ D) as [A S]. destruct (C316_sides _ _ _ _ _ A) as [-> _].
  cbn in S. rewrite <- under_written. now apply add_source_written.
Qed.
Theorem C319_results st l a e r x : under l = Res a e -> drive st l r <> Ok x.
Proof.
  destruct x as [st' q]. intros U D. destruct (drive_parts _ _ _ _ _ D) as [A _].
  revert A U. clear. induction l; cbn; intros A U; try discriminate; auto.
Qed.
(* nor is a concatenation with such a result in it *)
Inductive part : sig -> sig -> Prop :=
| pa_self s : part s s
| pa_left a l r s : part s l -> part s (Cat a l r)
| pa_right a l r s : part s r -> part s (Cat a l r).
Theorem C319_results_in st l r x a e : drive st l r = Ok x -> ~ part (Res a e) (under l).
Proof.
  destruct x as [st' q]. intros D. destruct (drive_parts _ _ _ _ _ D) as [A _]. clear D.
  assert (AC : forall s, all_concat s = true -> ~ part (Res a e) s).
  { induction s; cbn; intros H P; inversion P; subst; try discriminate; apply andb_prop in H; destruct H; [now apply IHs1 | now apply IHs2]. }
  revert A. induction l; cbn; intros A P; try (inversion P; subst; discriminate); auto.
  destruct (all_concat l1 && all_concat l2) eqn:H; [|discriminate]. apply andb_prop in H. destruct H. inversion P; subst; [now apply (AC l1) | now apply (AC l2)].
  now apply IHl.
Qed.
Example C319_ex :
  drive five (Bits (flat 1) (Lit 3 None)) (Vr (flat 1) 0 None) = Throw /\
  drive five (Cat (flat 9) (Vr (flat 1) 0 None) (Lit 3 None)) (Vr (flat 9) 1 None) = Throw /\
  (exists x, drive five (Cat (flat 2) (Vr (flat 1) 0 None) (Bits (flat 1) (Vr (flat 4) 2 None))) (Vr (flat 2) 1 None) = Ok x).
Proof. repeat split; try (eexists; reflexivity). Qed.
(* C320: results of operators are not assigned *)
Theorem C320_bits_of_result_refuted :
  ~ (forall st l r x, drive st l r = Ok x -> Forall (fun y => forall a e, y <> Res a e) (written l)).
Proof.
  intros H. specialize (H no_const (Bits (flat 1) (Res (flat 4) false)) (Vr (flat 1) 1 None) _ eq_refl).
  cbn in H. inversion H; subst. now apply (H2 (flat 4) false).
Qed.

(* C321: casts read as they were asked for *)
Section Casts.
Context (var_signed : nat -> bool).

Lemma ctype_eqb_eq a b : ctype_eqb a b = true <-> a = b.
Proof. split; [destruct a, b; cbn; congruence | intros ->; now destruct b]. Qed.
Lemma find_cell_spec h v c : forall i j, find_cell i v c h = Some j ->
  exists k, nth_error h (j - i) = Some k /\ (i <= j)%nat /\ k_of k = v /\ k_type k = c.
Proof.
  induction h as [|k h IH]; cbn; intros i j H; [discriminate|].
  destruct (Nat.eqb_spec (k_of k) v); cbn [andb] in H.
  - destruct (ctype_eqb (k_type k) c) eqn:E; cbn in H.
    + apply ctype_eqb_eq in E. inversion H; subst. exists k. rewrite Nat.sub_diag. now repeat split.
    + destruct (IH _ _ H) as [k' [N [L [A B]]]]. exists k'. replace (j - i)%nat with (S (j - S i)) by lia. cbn. repeat split; trivial; lia.
  - destruct (IH _ _ H) as [k' [N [L [A B]]]]. exists k'. replace (j - i)%nat with (S (j - S i)) by lia. cbn. repeat split; trivial; lia.
Qed.
Lemma on_nth h i f j : nth_error (on h (HCast i) f) j = if Nat.eqb i j then option_map f (nth_error h i) else nth_error h j.
Proof.
  cbn. revert i j. induction h as [|k h IH]; intros i j; destruct i, j; cbn; trivial.
  all: try (destruct (Nat.eqb _ _); destruct i; trivial; fail).
Qed.
(* a cell and what was asked of it *)
Definition good_cell (asked : list (nat * ask)) (k : cell) : Prop :=
  (k_type k = CEnum -> exists e, In (k_of k, AEnum e) asked /\ k_enum k = Some e).
Definition reads (h : list cell) (x : handle) (vq : nat * ask) : Prop :=
  match snd vq, x with
  | ASigned, HVar v => v = fst vq /\ var_signed v = true
  | _, HVar _ => False
  | q, HCast i => exists k, nth_error h i = Some k /\ k_of k = fst vq /\ k_type k = type_of q /\
                    (q = ASigned -> var_signed (fst vq) = false) /\
                    match q with AWidth w => k_width k = w | AEnum _ => exists e, k_enum k = Some e | _ => True end
  end.
(* a later request leaves an earlier cast, but for the enumeration *)
Definition kept (k k' : cell) : Prop :=
  k_of k' = k_of k /\ k_type k' = k_type k /\ (k_type k = CResize -> k_width k' = k_width k) /\ (k_enum k <> None -> k_enum k' <> None).
Lemma request_spec h vq : let '(h', x) := request var_signed h vq in
  (forall i k, nth_error h i = Some k -> exists k', nth_error h' i = Some k' /\ kept k k') /\ reads h' x vq.
Proof.
  destruct vq as [v q]. unfold request. cbn [fst snd]. unfold cast.
  destruct (ctype_eqb (type_of q) CSigned && var_signed v) eqn:S.
  - apply andb_prop in S. destruct S as [S1 S2]. apply ctype_eqb_eq in S1. cbn [fst snd on].
    split; [intros i k N; exists k; split; trivial; repeat split; trivial|]. destruct q; try discriminate. cbn. now split.
  - assert (SG : q = ASigned -> var_signed v = false) by (intros ->; exact S).
    destruct (ctype_eqb (type_of q) CResize) eqn:Z; cbn [fst snd].
    + apply ctype_eqb_eq in Z. destruct q; try discriminate. split.
      * intros i k N. rewrite on_nth. assert (i < List.length h)%nat by (apply nth_error_Some; congruence).
        destruct (Nat.eqb_spec (List.length h) i); [lia|]. exists k. rewrite nth_error_app1 by trivial. split; trivial. now repeat split.
      * cbn [reads snd fst]. eexists. rewrite on_nth, Nat.eqb_refl, nth_error_app2, Nat.sub_diag by trivial. cbn. split; [reflexivity|]. cbn. repeat split. discriminate.
    + assert (NR : type_of q <> CResize) by (intros E; rewrite E in Z; discriminate).
      destruct (find_cell 0 v (type_of q) h) as [i|] eqn:F; cbn [fst snd].
      * destruct (find_cell_spec _ _ _ _ _ F) as [k [N [_ [A B]]]]. rewrite Nat.sub_0_r in N. split.
        -- intros j k' N'. rewrite on_nth. destruct (Nat.eqb_spec i j).
           ++ subst j. rewrite N in N'. inversion N'; subst k'. rewrite N. cbn. eexists. split; [reflexivity|].
              destruct q; cbn; repeat split; trivial; try discriminate; intros; try congruence.
           ++ exists k'. split; trivial. now repeat split.
        -- assert (G : reads (on h (HCast i) (settle q)) (HCast i) (v, q)); [|exact G].
           unfold reads. cbn [snd fst].
           assert (EX : exists k', nth_error (on h (HCast i) (settle q)) i = Some k' /\ k_of k' = v /\ k_type k' = type_of q /\
                     (q = ASigned -> var_signed v = false) /\ match q with AWidth w => k_width k' = w | AEnum _ => exists e, k_enum k' = Some e | _ => True end).
           { rewrite on_nth, Nat.eqb_refl, N. cbn. eexists. split; [reflexivity|]. destruct q; cbn in *; repeat split; trivial; try congruence. now eexists. }
           destruct q; exact EX.
      * split.
        -- intros j k N. rewrite on_nth. assert (j < List.length h)%nat by (apply nth_error_Some; congruence).
           destruct (Nat.eqb_spec (List.length h) j); [lia|]. exists k. rewrite nth_error_app1 by trivial. split; trivial. now repeat split.
        -- assert (EX : exists k', nth_error (on (h ++ [{| k_of := v; k_type := type_of q; k_enum := None; k_width := 0 |}]) (HCast (List.length h)) (settle q)) (List.length h) = Some k' /\ k_of k' = v /\ k_type k' = type_of q /\
                     (q = ASigned -> var_signed v = false) /\ match q with AWidth w => k_width k' = w | AEnum _ => exists e, k_enum k' = Some e | _ => True end).
           { rewrite on_nth, Nat.eqb_refl, nth_error_app2, Nat.sub_diag by trivial. cbn. eexists. split; [reflexivity|]. destruct q; cbn in *; repeat split; trivial; try congruence. now eexists. }
           unfold reads. cbn [snd fst]. destruct q; exact EX.
Qed.
Lemma kept_reads h h' x vq : (forall i k, nth_error h i = Some k -> exists k', nth_error h' i = Some k' /\ kept k k') -> reads h x vq -> reads h' x vq.
Proof.
  intros K. destruct vq as [v q]. unfold reads. cbn [fst snd].
  assert (G : forall i, (exists k, nth_error h i = Some k /\ k_of k = v /\ k_type k = type_of q /\ (q = ASigned -> var_signed v = false) /\
       match q with AWidth w => k_width k = w | AEnum _ => exists e, k_enum k = Some e | _ => True end) ->
     (exists k, nth_error h' i = Some k /\ k_of k = v /\ k_type k = type_of q /\ (q = ASigned -> var_signed v = false) /\
       match q with AWidth w => k_width k = w | AEnum _ => exists e, k_enum k = Some e | _ => True end)).
  { intros i [k [N [A [B [C D]]]]]. destruct (K _ _ N) as [k' [N' [E1 [E2 [E3 E4]]]]]. exists k'. split; trivial. split; [congruence|]. split; [congruence|].
    split; trivial. destruct q; trivial.
    - destruct D as [e' D]. destruct (k_enum k') as [d|] eqn:X; [now exists d|]. rewrite D in E4. now destruct E4.
    - rewrite E3; trivial. }
  destruct x; destruct q; try (intros H; exact H); apply G.
Qed.
Lemma requests_read l : forall h, let '(h', xs) := requests var_signed h l in
  (forall i k, nth_error h i = Some k -> exists k', nth_error h' i = Some k' /\ kept k k') /\ Forall2 (reads h') xs l.
Proof.
  induction l as [|vq l IH]; intros h; cbn [requests].
  - split; [intros i k N; exists k; split; trivial; now repeat split | constructor].
  - pose proof (request_spec h vq) as R. destruct (request var_signed h vq) as [h1 x]. cbn [fst snd].
    specialize (IH h1). destruct (requests var_signed h1 l) as [h2 xs]. cbn [fst snd]. destruct R as [K R], IH as [K2 R2]. split.
    + intros i k N. destruct (K _ _ N) as [k1 [N1 [A1 [B1 [C1 D1]]]]]. destruct (K2 _ _ N1) as [k2 [N2 [A2 [B2 [C2 D2]]]]].
      exists k2. split; trivial. split; [congruence|]. split; [congruence|]. split; [intros E; rewrite C2 by congruence; auto | auto].
    + constructor; trivial. eapply kept_reads; eassumption.
Qed.
Lemma forall2_impl {X Y} (P Q : X -> Y -> Prop) l m : (forall x y, In y m -> P x y -> Q x y) -> Forall2 P l m -> Forall2 Q l m.
Proof. intros I F. induction F; constructor; [apply I; trivial; now left | apply IHF; intros; apply I; trivial; now right]. Qed.
(* every cast of an enumeration comes from a request *)
Lemma request_enums asked h vq : Forall (good_cell asked) h -> In vq asked -> Forall (good_cell asked) (fst (request var_signed h vq)).
Proof.
  intros F I. destruct vq as [v q]. unfold request. cbn [fst snd].
  assert (ST : forall k, k_type k = type_of q -> k_of k = v -> good_cell asked (settle q k)).
  { intros k T O E. destruct q; cbn in *; try congruence. exists e. split; congruence. }
  assert (ON : forall h' i, (forall j k, nth_error h' j = Some k -> j <> i -> good_cell asked k) ->
            (forall k, nth_error h' i = Some k -> k_type k = type_of q /\ k_of k = v) -> Forall (good_cell asked) (on h' (HCast i) (settle q))).
  { intros h' i A B. apply Forall_forall. intros k J. apply In_nth_error in J. destruct J as [j J]. rewrite on_nth in J.
    destruct (Nat.eqb_spec i j); [|apply (A _ _ J); congruence]. destruct (nth_error h' i) as [k0|] eqn:N; cbn in J; inversion J; subst.
    destruct (B _ eq_refl). now apply ST. }
  assert (NTH : forall j k, nth_error h j = Some k -> good_cell asked k).
  { intros j k N. apply nth_error_In in N. rewrite Forall_forall in F. auto. }
  unfold cast. destruct (_ && _); cbn [fst snd on]; trivial.
  assert (NEW : Forall (good_cell asked) (on (h ++ [{| k_of := v; k_type := type_of q; k_enum := None; k_width := 0 |}]) (HCast (List.length h)) (settle q))).
  { apply ON.
    - intros j k N D. destruct (Nat.lt_ge_cases j (List.length h)); [rewrite nth_error_app1 in N by trivial; eauto|].
      rewrite nth_error_app2 in N by trivial. destruct (j - List.length h)%nat eqn:X; [lia|]. cbn in N. destruct n; discriminate.
    - intros k N. rewrite nth_error_app2, Nat.sub_diag in N by trivial. inversion N; now subst. }
  destruct (ctype_eqb (type_of q) CResize); cbn [fst snd]; trivial.
  destruct (find_cell 0 v (type_of q) h) as [i|] eqn:X; cbn [fst snd]; trivial.
  apply ON; [eauto|]. destruct (find_cell_spec _ _ _ _ _ X) as [k0 [N [_ [A B]]]]. rewrite Nat.sub_0_r in N.
  intros k N'. rewrite N in N'. inversion N'; now subst.
Qed.
Lemma requests_enums asked l : forall h, Forall (good_cell asked) h -> incl l asked -> Forall (good_cell asked) (fst (requests var_signed h l)).
Proof.
  induction l as [|vq l IH]; intros h F I; cbn [requests fst]; trivial.
  apply IH; [apply request_enums; trivial; apply I; now left | intros x J; apply I; now right].
Qed.
Lemma reads_text h x vq asked : Forall (good_cell asked) h -> reads h x vq ->
  exists t, text_of h x = Ok t /\
    match snd vq with AEnum _ => exists e, In (fst vq, AEnum e) asked /\ t = TEnum e (fst vq) | q => t = wanted var_signed (fst vq) q end.
Proof.
  intros G. destruct vq as [v q]. unfold reads. cbn [fst snd]. intros R.
  destruct x as [w|i].
  - destruct q; try contradiction. destruct R as [-> S]. exists (TVar v). cbn. rewrite S. now split.
  - assert (R' : exists k, nth_error h i = Some k /\ k_of k = v /\ k_type k = type_of q /\ (q = ASigned -> var_signed v = false) /\
       match q with AWidth w => k_width k = w | AEnum _ => exists e, k_enum k = Some e | _ => True end) by (destruct q; exact R).
    destruct R' as [k [N [A [B [C D]]]]]. cbn [text_of]. rewrite N. unfold cell_text. rewrite B.
    destruct q; cbn [type_of wanted].
    + rewrite C by trivial. eexists; split; [reflexivity|]. congruence.
    + eexists; split; [reflexivity|]. congruence.
    + eexists; split; [reflexivity|]. congruence.
    + eexists; split; [reflexivity|]. congruence.
    + eexists; split; [reflexivity|]. congruence.
    + eexists; split; [reflexivity|]. congruence.
    + rewrite Forall_forall in G. specialize (G k (nth_error_In _ _ N) B). destruct G as [d [I E]]. rewrite E. eexists. split; [reflexivity|].
      exists d. rewrite A in *. now split.
    + eexists; split; [reflexivity|]. congruence.
Qed.
Theorem C321_cast_text l : (forall v e d, In (v, AEnum e) l -> In (v, AEnum d) l -> e = d) ->
  let '(h, xs) := requests var_signed [] l in Forall2 (fun x vq => text_of h x = Ok (wanted var_signed (fst vq) (snd vq))) xs l.
Proof.
  intros U. pose proof (requests_read l []) as R. pose proof (requests_enums l l [] (Forall_nil _) (incl_refl _)) as G.
  destruct (requests var_signed [] l) as [h xs]. cbn [fst] in G. destruct R as [_ R].
  apply (forall2_impl _ _ _ _ (fun x vq I => fun r => r)) in R. revert R. apply forall2_impl. intros x [v q] I R.
  destruct (reads_text _ _ _ _ G R) as [t [-> T]]. cbn [fst snd] in *. destruct q; try now subst t.
  destruct T as [d [J ->]]. cbn. now rewrite (U _ _ _ I J).
Qed.
(* without the condition: everything but the name of the enumeration *)
Theorem C321_other_casts l :
  let '(h, xs) := requests var_signed [] l in
  Forall2 (fun x vq => (forall e, snd vq <> AEnum e) -> text_of h x = Ok (wanted var_signed (fst vq) (snd vq))) xs l.
Proof.
  pose proof (requests_read l []) as R. pose proof (requests_enums l l [] (Forall_nil _) (incl_refl _)) as G.
  destruct (requests var_signed [] l) as [h xs]. cbn [fst] in G. destruct R as [_ R].
  revert R. apply forall2_impl. intros x [v q] I R NE.
  destruct (reads_text _ _ _ _ G R) as [t [-> T]]. cbn [fst snd] in *. destruct q; try now subst t. now destruct (NE e).
Qed.
End Casts.
Example C321_ex :
  let '(h, xs) := requests (fun v => Nat.eqb v 1) [] [(0%nat, AWidth 8); (0%nat, AEnum "colour"); (1%nat, ASigned); (0%nat, AWidth 4); (0%nat, ASigned)] in
  map (text_of h) xs = [Ok (TWidth 8 0); Ok (TEnum "colour" 0); Ok (TVar 1); Ok (TWidth 4 0); Ok (TSigned 0)].
Proof. reflexivity. Qed.
(* C322: casts to two enumerations *)
Theorem C322_two_enums_refuted :
  ~ (forall var_signed l, let '(h, xs) := requests var_signed [] l in
       Forall2 (fun x vq => text_of h x = Ok (wanted var_signed (fst vq) (snd vq))) xs l).
Proof.
  intros H. specialize (H (fun _ => false) [(0%nat, AEnum "colour"); (0%nat, AEnum "shape")]). cbn in H. inversion H; subst. cbn in *. discriminate.
Qed.

(* C323: a clock, or what is cast to one, is one bit *)
Theorem C323_one_bit_refuted :
  (exists p, make_port PClock 1 [4] = Ok p /\ snd p = 4) /\
  (exists p, make_port PData 8 [1] = Ok p /\ set_port_type p PClock = (PClock, 8)) /\
  ~ (forall w sizes x, clock_cast w sizes = Ok x -> x = 1).
Proof.
  split; [eexists; split; reflexivity|]. split; [eexists; split; reflexivity|].
  intros H. specialize (H 8 [1] _ eq_refl). discriminate.
Qed.
(* C324: the width of a cast *)
Lemma fold_ones sizes w : Forall (fun s => s = 1) sizes -> fold_left Z.mul sizes w = w.
Proof. intros F. revert w. induction F as [|s l E F IH]; intros w; cbn; trivial. rewrite IH. lia. Qed.
Theorem C324_one_element sizes w : Forall (fun s => s = 1) sizes ->
  cast_width sizes w = w /\ forall u, resize_width sizes u = Ok u.
Proof.
  intros F. unfold cast_width, var_width. rewrite !fold_ones by trivial. split; trivial. intros u. unfold resize_width.
  rewrite fold_ones by trivial. destruct F as [|s l -> F]; cbn [hd]; rewrite Z.eqb_refl, andb_false_r; trivial.
Qed.
Example C324_ex : cast_width [1] 8 = 8 /\ resize_width [1] 4 = Ok 4. Proof. split; reflexivity. Qed.
Theorem C325_array_refuted :
  ~ (forall sizes w, cast_width sizes w = var_width sizes w) /\
  ~ (forall sizes w x, resize_width sizes w = Ok x -> x = w).
Proof.
  split.
  - intros H. specialize (H [3] 4). discriminate.
  - intros H. specialize (H [3] 4 _ eq_refl). discriminate.
Qed.
Print Assumptions C311_typed_ports.
Print Assumptions C311_accepted.
Print Assumptions C312_data_port_refuted.
Print Assumptions C313_bits_refuted.
Print Assumptions C314_enum.
Print Assumptions C315_same_name_refuted.
Print Assumptions C316_sides.
Print Assumptions C316_mismatch.
Print Assumptions C317_sides_stay.
Print Assumptions C318_shared_constant_refuted.
Print Assumptions C319_constants.
Print Assumptions C319_results.
Print Assumptions C319_results_in.
Print Assumptions C320_bits_of_result_refuted.
Print Assumptions C321_cast_text.
Print Assumptions C321_other_casts.
Print Assumptions C322_two_enums_refuted.
Print Assumptions C323_one_bit_refuted.
Print Assumptions C324_one_element.
Print Assumptions C325_array_refuted.
