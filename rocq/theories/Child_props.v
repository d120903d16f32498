(* C350-C357: the children of generators. *)
From Verif Require Import Base Child_model.
Local Open Scope string_scope.
Local Open Scope list_scope.

(* trees built by calls in which a generator that is added has no parent, and a generator that is removed or renamed is a child; a call that throws is not the end *)
Inductive built : tree -> Prop :=
| b_new names : built {| t_name := names; t_parent := fun _ => None; k_map := fun _ => []; k_order := fun _ => [] |}
| b_add t p n c : built t -> t_parent t c = None -> built (fst (add t p n c))
| b_remove t p c : built t -> t_parent t c = Some p -> built (remove t p c)
| b_rename t p c n : built t -> t_parent t c = Some p -> built (fst (rename t p c n)).

(* ---- *)
Lemma lookup_in n l c : NoDup (map fst l) -> (lookup n l = Some c <-> In (n, c) l).
Proof.
  unfold lookup. induction l as [|[m d] l IH]; intros ND; cbn [find fst map] in *; [split; [discriminate|intros []]|]. inversion ND as [|? ? NI ND']; subst.
  destruct (String.eqb_spec m n) as [->|D]; cbn.
  - split; [intros E; inversion E; now left|]. intros [E|I]; [inversion E; reflexivity|]. destruct NI. apply in_map_iff. now exists (n, c).
  - rewrite IH by trivial. split; [now right|]. intros [E|I]; [inversion E; congruence|trivial].
Qed.
Lemma lookup_none n l : lookup n l = None <-> ~ In n (map fst l).
Proof.
  unfold lookup. induction l as [|[m d] l IH]; cbn; [split; auto|]. destruct (String.eqb_spec m n) as [->|D]; cbn; [split; [discriminate|intros X; destruct X; now left]|].
  rewrite IH. intuition.
Qed.
Lemma listed_in n l : listed n l = true <-> In n l.
Proof.
  unfold listed. rewrite existsb_exists. split; [intros [x [I E]]; apply String.eqb_eq in E; now subst|]. intros I. exists n. split; trivial. apply String.eqb_refl.
Qed.
Lemma erase_first_in n l x : NoDup l -> (In x (erase_first n l) <-> In x l /\ x <> n).
Proof.
  induction 1 as [|y l NI ND IH]; cbn; [tauto|]. destruct (String.eqb_spec y n) as [->|D]; cbn; [|rewrite IH; intuition congruence].
  split; [intros I; split; [now right|intros ->; contradiction]|]. intros [[->|I] N]; [now destruct N|trivial].
Qed.
Lemma erase_first_nodup n l : NoDup l -> NoDup (erase_first n l).
Proof.
  induction 1 as [|y l NI ND IH]; cbn; [constructor|]. destruct (String.eqb y n); trivial. constructor; trivial. intros I. apply erase_first_in in I; [|trivial]. now destruct I.
Qed.
Lemma put_first_in n m l x : NoDup l -> In n l -> (In x (put_first n m l) <-> x = m \/ (In x l /\ x <> n)).
Proof.
  induction 1 as [|y l NI ND IH]; intros I; cbn; [destruct I|]. destruct (String.eqb_spec y n) as [->|D]; cbn.
  - split; [intros [->|J]; [now left|right; split; [now right|intros ->; contradiction]]|]. intros [->|[[->|J] N]]; [now left|now destruct N|now right].
  - destruct I as [->|I]; [now destruct D|]. rewrite IH by trivial. intuition congruence.
Qed.
Lemma put_first_nodup n m l : NoDup l -> ~ In m l -> NoDup (put_first n m l).
Proof.
  induction 1 as [|y l NI ND IH]; intros NM; cbn; [constructor|]. destruct (String.eqb_spec y n) as [->|D]; [constructor; trivial; intros I; apply NM; now right|].
  constructor; [|apply IH; intros I; apply NM; now right]. intros I. destruct (in_dec string_dec n l) as [J|J].
  - apply put_first_in in I; trivial. destruct I as [->|[I _]]; [apply NM; now left|contradiction].
  - assert (E : put_first n m l = l). { clear - J. induction l as [|z l IH]; cbn; trivial. destruct (String.eqb_spec z n) as [->|]; [destruct J; now left|]. f_equal. apply IH. intros X; apply J; now right. }
    rewrite E in I. contradiction.
Qed.
Lemma erase_in n l m c : In (m, c) (erase n l) <-> In (m, c) l /\ m <> n.
Proof.
  unfold erase. rewrite filter_In. cbn. destruct (String.eqb_spec m n); cbn; intuition congruence.
Qed.
Lemma erase_nodup n l : NoDup (map fst l) -> NoDup (map fst (erase n l)).
Proof.
  induction l as [|[m c] l IH]; cbn; intros ND; [constructor|]. inversion ND as [|? ? NI ND']; subst. destruct (String.eqb m n); cbn; [now apply IH|]. constructor; [|now apply IH].
  intros I. apply NI. apply in_map_iff in I. destruct I as [[x y] [E I]]. cbn in E. subst. apply erase_in in I. apply in_map_iff. exists (m, y). tauto.
Qed.
Lemma snoc_nodup {A} (l : list A) x : NoDup l -> ~ In x l -> NoDup (l ++ [x]).
Proof.
  induction 1 as [|y l NI ND IH]; intros N; cbn; [repeat constructor; auto|]. constructor; [|apply IH; intros I; apply N; now right].
  intros I. apply in_app_iff in I. destruct I as [I|[->|[]]]; [contradiction|]. apply N. now left.
Qed.
Record good (t : tree) : Prop := {
  g_keys : forall p, NoDup (map fst (k_map t p)); g_order : forall p, NoDup (k_order t p);
  g_same : forall p n, In n (k_order t p) <-> In n (map fst (k_map t p));
  g_kids : forall p n c, In (n, c) (k_map t p) <-> t_parent t c = Some p /\ t_name t c = n }.
Lemma keys_in (l : list (string * nat)) n : In n (map fst l) <-> exists c : nat, In (n, c) l.
Proof. rewrite in_map_iff. split; [intros [[m c] [E I]]; cbn in E; subst; now exists c|intros [c I]; now exists (n, c)]. Qed.
Lemma built_good t : built t -> good t.
Proof.
  induction 1 as [names|t p n c B IH N|t p c B IH P|t p c m B IH P].
  - constructor; cbn; intros; try constructor; try tauto; try (intros []; discriminate); try (intros [E _]; discriminate).
  - destruct IH as [K O S Q]. unfold add. destruct (lookup n (k_map t p)) eqn:L; cbn [fst].
    + constructor; cbn [t_name t_parent k_map k_order]; trivial. intros q m d. rewrite Q. unfold set. destruct (Nat.eqb_spec d c) as [->|D]; [|tauto]. rewrite N. intuition discriminate.
    + apply lookup_none in L. constructor; cbn [t_name t_parent k_map k_order]; unfold set.
      * intros q. destruct (Nat.eqb q p); trivial. rewrite map_app. cbn. now apply snoc_nodup.
      * intros q. destruct (Nat.eqb q p); trivial. apply snoc_nodup; trivial. now rewrite S.
      * intros q m. destruct (Nat.eqb q p); trivial. rewrite map_app, !in_app_iff, S. cbn. tauto.
      * intros q m d. destruct (Nat.eqb_spec q p) as [->|D].
        -- rewrite in_app_iff, Q. cbn [In]. destruct (Nat.eqb_spec d c) as [->|E]; [rewrite N|]; split.
           ++ intros [[X _]|[X|[]]]; [discriminate|inversion X; now split].
           ++ intros [_ ->]. right. now left.
           ++ intros [X|[X|[]]]; [exact X|inversion X; congruence].
           ++ now left.
        -- rewrite Q. destruct (Nat.eqb_spec d c) as [->|E]; [rewrite N|tauto]. split; [intros [X _]; discriminate|intros [X _]; congruence].
  - destruct IH as [K O S Q]. unfold remove. destruct (listed (t_name t c) (k_order t p)) eqn:L; [|now constructor].
    constructor; cbn [t_name t_parent k_map k_order]; unfold set.
    + intros q. destruct (Nat.eqb q p); trivial. now apply erase_nodup.
    + intros q. destruct (Nat.eqb q p); trivial. now apply erase_first_nodup.
    + intros q m. destruct (Nat.eqb q p); trivial. rewrite erase_first_in, S, !keys_in by trivial. split.
      * intros [[d I] N]. exists d. now apply erase_in.
      * intros [d I]. apply erase_in in I. destruct I as [I N]. split; [now exists d|trivial].
    + intros q m d. destruct (Nat.eqb_spec q p) as [->|D].
      * rewrite erase_in, Q. destruct (Nat.eqb_spec d c) as [->|E]; split.
        -- intros [[_ X] Y]. congruence.
        -- intros [X _]. discriminate.
        -- intros [X _]. exact X.
        -- intros [X Y]. split; [now split|]. intros ->. apply E.
           assert (I1 : In (t_name t d, d) (k_map t p)) by (apply Q; now split). assert (I2 : In (t_name t c, c) (k_map t p)) by (apply Q; now split).
           rewrite Y in I1. apply (lookup_in _ _ _ (K p)) in I1, I2. congruence.
      * rewrite Q. destruct (Nat.eqb_spec d c) as [->|E]; [|tauto]. split; [intros [X _]; congruence|intros [X _]; discriminate].
  - destruct IH as [K O S Q]. unfold rename.
    assert (I0 : In (t_name t c, c) (k_map t p)) by (apply Q; now split). pose proof (proj2 (lookup_in _ _ c (K p)) I0) as L0. rewrite L0.
    destruct (lookup m (k_map t p)) as [x|] eqn:L; [now constructor|]. apply lookup_none in L.
    assert (LI : listed (t_name t c) (k_order t p) = true) by (apply listed_in; apply S; apply keys_in; now exists c). rewrite LI. cbn [fst]. apply listed_in in LI.
    constructor; cbn [t_name t_parent k_map k_order]; unfold set.
    + intros q. destruct (Nat.eqb q p); trivial. rewrite map_app. cbn. apply snoc_nodup; [now apply erase_nodup|]. intros I. apply L. apply keys_in in I. destruct I as [d I]. apply erase_in in I. apply keys_in. exists d. tauto.
    + intros q. destruct (Nat.eqb q p); trivial. apply put_first_nodup; trivial. now rewrite S.
    + intros q n. destruct (Nat.eqb q p); trivial. rewrite put_first_in, map_app, in_app_iff, S by trivial. cbn [In map fst]. rewrite !keys_in. split.
      * intros [->|[[d I] N]]; [right; now left|left; exists d; now apply erase_in].
      * intros [[d I]|[->|[]]]; [right; apply erase_in in I; split; [exists d; tauto|tauto]|now left].
    + intros q n d. destruct (Nat.eqb_spec q p) as [->|D].
      * rewrite in_app_iff, erase_in, Q. cbn [In]. destruct (Nat.eqb_spec d c) as [->|E]; split.
        -- intros [[[_ X] Y]|[X|[]]]; [congruence|inversion X; now split].
        -- intros [_ ->]. right. now left.
        -- intros [[X _]|[X|[]]]; [exact X|inversion X; congruence].
        -- intros [X Y]. left. split; [now split|]. intros ->. apply E.
           assert (I1 : In (t_name t d, d) (k_map t p)) by (apply Q; now split).
           rewrite Y in I1. apply (lookup_in _ _ _ (K p)) in I1. congruence.
      * rewrite Q. destruct (Nat.eqb_spec d c) as [->|E]; [|tauto]. split; [intros [X _]; congruence|intros [X _]; congruence].
Qed.
Lemma get_all_spec l ns : NoDup (map fst l) -> (forall n, In n ns -> In n (map fst l)) -> exists cs, get_all l ns = Ok cs /\ Forall2 (fun n c => In (n, c) l) ns cs.
Proof.
  intros ND. induction ns as [|n ns IH]; intros S; cbn; [exists []; now split|]. destruct (lookup n l) as [c|] eqn:L.
  - destruct IH as [cs [-> F]]; [intros x I; apply S; now right|]. exists (c :: cs). split; trivial. constructor; trivial. now apply lookup_in.
  - apply lookup_none in L. destruct L. apply S. now left.
Qed.

(* C350: the children of a generator are the generators whose parent it is, under their names, which are different *)
Theorem C350_children t p : built t -> exists cs, children t p = Ok cs /\ NoDup cs /\ (forall c, In c cs <-> t_parent t c = Some p) /\
  map (t_name t) cs = k_order t p /\ NoDup (map (t_name t) cs).
Proof.
  intros B. destruct (built_good _ B) as [K O S Q]. destruct (get_all_spec (k_map t p) (k_order t p) (K p)) as [cs [E F]]; [intros n; apply S|].
  assert (M : map (t_name t) cs = k_order t p).
  { clear E. specialize (Q p). induction F as [|n c ns cs I F IH]; cbn; trivial. rewrite IH. f_equal. apply Q in I. tauto. }
  exists cs. split; [exact E|]. assert (NM : NoDup (map (t_name t) cs)) by (rewrite M; apply O). split; [now apply NoDup_map_inv in NM|]. split; [|split; trivial].
  intros c. split.
  - intros I. assert (X : exists n, In (n, c) (k_map t p)); [|destruct X as [n X]; apply Q in X; tauto].
    clear - F I. induction F as [|n d ns cs J F IH]; [destruct I|]. destruct I as [->|I]; [now exists n|now apply IH].
  - intros P. assert (J : In (t_name t c, c) (k_map t p)) by (apply Q; now split). assert (L : In (t_name t c) (k_order t p)) by (apply S; apply keys_in; now exists c).
    clear M NM E. induction F as [|n d ns cs X F IH]; [destruct L|]. destruct L as [->|L]; [|right; now apply IH]. left. apply (lookup_in _ _ _ (K p)) in J, X. congruence.
Qed.
Theorem C350_by_name t p c : built t -> (t_parent t c = Some p <-> get_child t p (t_name t c) = Some c).
Proof.
  intros B. destruct (built_good _ B) as [K O S Q]. unfold get_child. rewrite (lookup_in _ _ _ (K p)), Q. tauto.
Qed.
(* what the calls do *)
Theorem C350_calls t p : built t ->
  (forall n c, t_parent t c = None -> get_child t p n = None -> exists t', add t p n c = (t', Ok tt) /\ get_child t' p n = Some c /\ k_order t' p = k_order t p ++ [n]) /\
  (forall n c x, get_child t p n = Some x -> snd (add t p n c) = Throw) /\
  (forall c n, t_parent t c = Some p -> get_child t p n = None -> exists t', rename t p c n = (t', Ok tt) /\ get_child t' p n = Some c /\ get_child t' p (t_name t c) = None) /\
  (forall c n x, get_child t p n = Some x -> rename t p c n = (t, Throw)) /\
  (forall c, t_parent t c = Some p -> t_parent (remove t p c) c = None /\ get_child (remove t p c) p (t_name t c) = None /\ forall d, d <> c -> t_parent (remove t p c) d = t_parent t d).
Proof.
  intros B. pose proof (built_good _ B) as [K O S Q]. split; [|split; [|split; [|split]]].
  - intros n c N L. unfold get_child in *. pose proof (b_add t p n c B N) as B'. revert B'. unfold add. rewrite L. cbn [fst]. intros B'. eexists. split; [reflexivity|].
    destruct (built_good _ B') as [K' _ _ Q']. split; [|cbn; unfold set; now rewrite Nat.eqb_refl]. apply (lookup_in _ _ _ (K' p)). apply Q'. cbn. unfold set. rewrite Nat.eqb_refl. now split.
  - intros n c x L. unfold get_child in L. unfold add. now rewrite L.
  - intros c n P L. pose proof (b_rename t p c n B P) as B'. revert B'. unfold get_child in *. unfold rename. rewrite L.
    assert (I0 : In (t_name t c, c) (k_map t p)) by (apply Q; now split). rewrite (proj2 (lookup_in _ _ c (K p)) I0).
    assert (LI : listed (t_name t c) (k_order t p) = true) by (apply listed_in; apply S; apply keys_in; now exists c). rewrite LI. cbn [fst]. intros B'. eexists. split; [reflexivity|].
    destruct (built_good _ B') as [K' _ _ Q']. split.
    + apply (lookup_in _ _ _ (K' p)). apply Q'. cbn. unfold set. rewrite Nat.eqb_refl. now split.
    + cbn [k_map]. unfold set. rewrite Nat.eqb_refl. apply lookup_none. rewrite map_app, in_app_iff. cbn. intros [I|[E|[]]].
      * apply keys_in in I. destruct I as [d I]. apply erase_in in I. tauto.
      * subst n. apply lookup_none in L. apply L. apply keys_in. now exists c.
  - intros c n x L. unfold get_child in L. unfold rename. rewrite L. now destruct (lookup (t_name t c) (k_map t p)).
  - intros c P. assert (LI : listed (t_name t c) (k_order t p) = true) by (apply listed_in; apply S; apply keys_in; exists c; apply Q; now split).
    unfold remove, get_child. rewrite LI. cbn [t_parent k_map]. unfold set. rewrite !Nat.eqb_refl. split; trivial. split.
    + apply lookup_none. intros I. apply keys_in in I. destruct I as [d I]. apply erase_in in I. tauto.
    + intros d D. destruct (Nat.eqb_spec d c); [contradiction|reflexivity].
Qed.
Definition new : tree := {| t_name := fun _ => "x"; t_parent := fun _ => None; k_map := fun _ => []; k_order := fun _ => [] |}.
Definition three : tree := fst (rename (fst (add (fst (add (fst (add new 0 "a" 1)) 0 "b" 2)) 1 "a" 3)) 0 1 "c").
Example C350_ex : built three /\ children three 0 = Ok [1; 2] /\ k_order three 0 = ["c"; "b"] /\ get_child three 1 "a" = Some 3.
Proof. split; [|repeat split]. apply b_rename; [|reflexivity]. repeat (apply b_add; [|reflexivity]). constructor. Qed.

(* C351: a call that throws changes nothing.  A child of 1 gets a name under which its parent does not know it *)
Theorem C351_failed_add_refuted : ~ (forall t p n c, built t -> snd (add t p n c) = Throw -> forall q, t_parent t c = Some q -> get_child (fst (add t p n c)) q (t_name (fst (add t p n c)) c) = Some c).
Proof.
  intros H. specialize (H three 0 "c" 3 (proj1 C350_ex) eq_refl 1 eq_refl). discriminate.
Qed.
(* C352: a generator that is not a child *)
Theorem C352_not_a_child_refuted : ~ (forall t p c, built t -> t_parent t c <> Some p -> forall d, t_parent t d = Some p -> get_child (remove t p c) p (t_name t d) = Some d).
Proof.
  intros H. pose (t := fst (add (fst (add (fst (add new 0 "a" 1)) 0 "b" 2)) 1 "a" 3)).
  assert (B : built t) by (repeat (apply b_add; [|reflexivity]); constructor). assert (N : t_parent t 3 <> Some 0) by discriminate.
  specialize (H t 0 3 B N 1 eq_refl). discriminate.
Qed.
(* C353: a generator with two parents *)
Theorem C353_two_parents_refuted : ~ (forall t p n c, built t -> snd (add t p n c) = Ok tt -> forall q cs, children (fst (add t p n c)) q = Ok cs -> In c cs -> q = p).
Proof.
  intros H. assert (B : built (fst (add new 0 "a" 1))) by (apply b_add; [constructor|reflexivity]).
  specialize (H _ 2 "b" 1 B eq_refl 0 [1] eq_refl (or_introl eq_refl)). discriminate.
Qed.

(* ports: wires that go into inputs and out of outputs *)
Definition mentions (g : nat) (e : endpoint) : Prop := exists n, e = PortOf g n.
Definition directed (ports : nat -> list (string * port)) (g : nat) (w : wire) : Prop :=
  (forall n, fst w = PortOf g n -> exists q, In (n, q) (ports g) /\ p_dir q = DirIn) /\
  (forall n, snd w = PortOf g n -> exists q, In (n, q) (ports g) /\ p_dir q = DirOut).
Definition mentionsb (g : nat) (e : endpoint) : bool := match e with PortOf h _ => Nat.eqb h g | Sig _ => false end.
Lemma is_port_eq g n e : is_port g n e = true <-> e = PortOf g n.
Proof.
  destruct e as [h m|x]; cbn; [|split; discriminate]. rewrite andb_true_iff, Nat.eqb_eq, String.eqb_eq. split; [intros [-> ->]; trivial|intros E; inversion E; now split].
Qed.
Definition cuts (g : nat) (np : string * port) (w : wire) : bool := match p_dir (snd np) with DirIn => is_port g (fst np) (fst w) | _ => is_port g (fst np) (snd w) end.
Lemma cut_filter g np ws : cut g np ws = filter (fun w => negb (cuts g np w)) ws.
Proof. unfold cut, cuts. now destruct (p_dir (snd np)). Qed.
Lemma filter_filter {A} (f g : A -> bool) l : filter f (filter g l) = filter (fun x => g x && f x) l.
Proof. induction l as [|x l IH]; cbn; trivial. destruct (g x); cbn; [destruct (f x); now rewrite IH|trivial]. Qed.
Lemma cut_list ws g l : fold_left (fun w np => cut g np w) l ws = filter (fun w => negb (existsb (fun np => cuts g np w) l)) ws.
Proof.
  revert ws. induction l as [|np l IH]; intros ws; cbn [fold_left existsb].
  - cbn. induction ws as [|w ws IH]; cbn; [trivial|now rewrite <- IH].
  - rewrite IH, cut_filter, filter_filter. apply filter_ext. intros w. now rewrite negb_orb.
Qed.
Lemma filter_same {A} (f g : A -> bool) l : (forall x, In x l -> f x = g x) -> filter f l = filter g l.
Proof. induction l as [|x l IH]; intros H; cbn; trivial. rewrite (H x) by now left. rewrite IH; trivial. intros y I. apply H. now right. Qed.
(* C354: removing a child takes exactly its wires *)
Theorem C354_removed ports t ws p c : built t -> t_parent t c = Some p -> Forall (directed ports c) ws ->
  remove_child ports t ws p c = (remove t p c, filter (fun w => negb (mentionsb c (fst w) || mentionsb c (snd w))) ws).
Proof.
  intros B P D. destruct (built_good _ B) as [K O S Q]. unfold remove_child.
  assert (LI : listed (t_name t c) (k_order t p) = true) by (apply listed_in; apply S; apply keys_in; exists c; apply Q; now split). rewrite LI. f_equal.
  unfold cut_all. rewrite cut_list. apply filter_same. intros w I. f_equal. rewrite Forall_forall in D. destruct (D w I) as [DL DR].
  destruct (mentionsb c (fst w) || mentionsb c (snd w)) eqn:M.
  - apply existsb_exists. apply orb_true_iff in M. destruct M as [M|M].
    + destruct (fst w) as [h n|x] eqn:E; [|discriminate]. apply Nat.eqb_eq in M. subst h. destruct (DL n eq_refl) as [q [J Dq]]. exists (n, q). split; trivial. unfold cuts. cbn [snd fst]. rewrite Dq, E. now apply is_port_eq.
    + destruct (snd w) as [h n|x] eqn:E; [|discriminate]. apply Nat.eqb_eq in M. subst h. destruct (DR n eq_refl) as [q [J Dq]]. exists (n, q). split; trivial. unfold cuts. cbn [snd fst]. rewrite Dq, E. now apply is_port_eq.
  - apply orb_false_iff in M. destruct M as [M1 M2]. destruct (existsb _ _) eqn:X; trivial. apply existsb_exists in X. destruct X as [[n q] [J X]]. unfold cuts in X. cbn in X.
    destruct (p_dir q); apply is_port_eq in X; rewrite X in *; cbn in *; rewrite Nat.eqb_refl in *; discriminate.
Qed.
Definition pin (d : dir) : port := {| p_dir := d; p_width := 1; p_size := [1%Z]; p_signed := false; p_type := 0 |}.
Definition io (g : nat) : list (string * port) := [("i", pin DirIn); ("o", pin DirOut)].
Example C354_ex : let ws := [(PortOf 1 "i", Sig 0); (Sig 1, PortOf 1 "o"); (PortOf 2 "i", PortOf 2 "o")] in
  Forall (directed io 1) ws /\ snd (remove_child io three ws 0 1) = [(PortOf 2 "i", PortOf 2 "o")].
Proof.
  cbn zeta. split; [|reflexivity]. repeat constructor; cbn; intros n E; inversion E; subst; eexists; (split; [|]); [now left|reflexivity|right; now left|reflexivity].
Qed.
(* C355: a port that goes both ways, and an input that is read *)
Theorem C355_inout_refuted ports t ws p c n q x : built t -> t_parent t c = Some p -> ports c = [(n, q)] -> p_dir q = DirInOut ->
  In (PortOf c n, Sig x) ws -> In (PortOf c n, Sig x) (snd (remove_child ports t ws p c)).
Proof.
  intros B P E D I. unfold remove_child. cbn [snd]. destruct (listed _ _); trivial. unfold cut_all. rewrite E. cbn [fold_left]. unfold cut. cbn [snd fst]. rewrite D. apply filter_In. now split.
Qed.
Theorem C355_input_refuted ports t ws p c n q x : built t -> t_parent t c = Some p -> ports c = [(n, q)] -> p_dir q = DirIn ->
  In (Sig x, PortOf c n) ws -> In (Sig x, PortOf c n) (snd (remove_child ports t ws p c)).
Proof.
  intros B P E D I. unfold remove_child. cbn [snd]. destruct (listed _ _); trivial. unfold cut_all. rewrite E. cbn [fold_left]. unfold cut. cbn [snd fst]. rewrite D. apply filter_In. now split.
Qed.
Example C355_ex : snd (remove_child (fun _ => [("z", pin DirInOut)]) three [(PortOf 1 "z", Sig 0); (Sig 1, PortOf 1 "z")] 0 1) = [(PortOf 1 "z", Sig 0)].
Proof. reflexivity. Qed.

(* C356: a child that is replaced *)
Definition goes (a b : nat) (e : endpoint) : endpoint := match e with PortOf h n => if Nat.eqb h a then PortOf b n else e | Sig _ => e end.
Definition both_ways (ports : nat -> list (string * port)) (g : nat) (w : wire) : Prop :=
  (forall n, fst w = PortOf g n -> exists q, In (n, q) (ports g) /\ p_dir q <> DirOut) /\
  (forall n, snd w = PortOf g n -> exists q, In (n, q) (ports g) /\ p_dir q <> DirIn).
Lemma same_port_eq x y : same_port x y = true -> x = y.
Proof.
  unfold same_port. rewrite !andb_true_iff. intros [[[[A B] C] D] E]. destruct (list_eq_dec Z.eq_dec (p_size x) (p_size y)); [|discriminate].
  apply Z.eqb_eq in B. apply Bool.eqb_prop in C. apply Nat.eqb_eq in D. destruct x as [dx ? ? ? ?], y as [dy ? ? ? ?]; cbn in *. subst. destruct dx, dy; try discriminate; reflexivity.
Qed.
Definition mv (a b : nat) (np : string * port) (w : wire) : wire :=
  ((match p_dir (snd np) with DirOut => fst w | _ => swap a b (fst np) (fst w) end), (match p_dir (snd np) with DirIn => snd w | _ => swap a b (fst np) (snd w) end)).
Lemma move_mv a b np ws : move a b np ws = map (mv a b np) ws.
Proof. unfold move, mv. destruct (p_dir (snd np)); reflexivity. Qed.
Lemma move_all_ok a b old new ws ws' : move_all a b old new ws = (ws', Ok tt) ->
  ws' = fold_left (fun w np => map (mv a b np) w) old ws /\ Forall (fun np => port_of (fst np) new = Some (snd np)) old.
Proof.
  revert ws. induction old as [|np old IH]; intros ws H; cbn in H; [inversion H; now split|]. destruct (port_of (fst np) new) as [q|] eqn:E; [|discriminate].
  destruct (same_port (snd np) q) eqn:SP; [|discriminate]. apply same_port_eq in SP. subst q. rewrite move_mv in H. destruct (IH _ H) as [-> F]. split; trivial. now constructor.
Qed.
Lemma fold_map {A B} (f : B -> A -> A) (l : list B) (ws : list A) : fold_left (fun w np => map (f np) w) l ws = map (fun w => fold_left (fun x np => f np x) l w) ws.
Proof.
  revert ws. induction l as [|np l IH]; intros ws; cbn; [symmetry; apply map_id|]. now rewrite IH, map_map.
Qed.
Lemma swap_other a b n e : (forall m, e <> PortOf a m) -> swap a b n e = e.
Proof. intros N. unfold swap. destruct (is_port a n e) eqn:E; trivial. apply is_port_eq in E. destruct (N n E). Qed.
Lemma mv_end a b (sel : dir -> bool) l e : a <> b -> (forall n, e = PortOf a n -> exists q, In (n, q) l /\ sel (p_dir q) = true) ->
  fold_left (fun x np => if sel (p_dir (snd np)) then swap a b (fst np) x else x) l e = goes a b e.
Proof.
  intros AB. assert (STAY : forall l e, (forall m, e <> PortOf a m) -> fold_left (fun x (np : string * port) => if sel (p_dir (snd np)) then swap a b (fst np) x else x) l e = e).
  { clear l e. induction l as [|np l IH]; intros e N; cbn; trivial. destruct (sel _); [rewrite swap_other by trivial|]; now apply IH. }
  destruct e as [h m|x]; [|intros _; rewrite STAY by discriminate; reflexivity]. cbn. destruct (Nat.eqb_spec h a) as [->|D]; [|intros _; apply STAY; intros k E; congruence].
  intros H. destruct (H m eq_refl) as [q [I S]]. clear H. induction l as [|np l IH]; [destruct I|]. cbn [fold_left]. destruct I as [->|I].
  - cbn [snd fst]. rewrite S. unfold swap. assert (is_port a m (PortOf a m) = true) as -> by now apply is_port_eq. apply STAY. intros k E. congruence.
  - destruct (sel (p_dir (snd np))); [|now apply IH]. unfold swap. destruct (is_port a (fst np) (PortOf a m)) eqn:E; [|now apply IH].
    apply is_port_eq in E. inversion E as [E']. rewrite <- E' in *. apply STAY. intros k X. congruence.
Qed.
Lemma mv_fold a b l w : fold_left (fun x np => mv a b np x) l w =
  (fold_left (fun x np => if negb (match p_dir (snd np) with DirOut => true | _ => false end) then swap a b (fst np) x else x) l (fst w),
   fold_left (fun x np => if negb (match p_dir (snd np) with DirIn => true | _ => false end) then swap a b (fst np) x else x) l (snd w)).
Proof.
  revert w. induction l as [|np l IH]; intros [x y]; cbn [fold_left]; trivial. rewrite IH. unfold mv. cbn [fst snd]. destruct (p_dir (snd np)); reflexivity.
Qed.
Theorem C356_replaced ports t ws p n c o t' ws' : built t -> t_parent t c = None -> get_child t p n = Some o -> c <> o -> Forall (both_ways ports o) ws ->
  replace ports t ws p n c = (t', ws', Ok tt) ->
  ws' = map (fun w => (goes o c (fst w), goes o c (snd w))) ws /\ built t' /\ t_parent t' o = None /\ t_parent t' c = Some p /\ get_child t' p n = Some c /\
  (forall d, d <> c -> d <> o -> t_parent t' d = t_parent t d) /\
  List.length (ports o) = List.length (ports c) /\ Forall (fun np => port_of (fst np) (ports c) = Some (snd np)) (ports o).
Proof.
  intros B NP GC CO D H. unfold replace in H. rewrite GC in H. destruct (Nat.eqb_spec (List.length (ports o)) (List.length (ports c))) as [LEN|]; [|discriminate].
  destruct (move_all o c (ports o) (ports c) ws) as [ws1 [[]| |]] eqn:MA; try discriminate. destruct (move_all_ok _ _ _ _ _ _ MA) as [-> F]. clear MA.
  assert (W1 : fold_left (fun w np => map (mv o c np) w) (ports o) ws = map (fun w => (goes o c (fst w), goes o c (snd w))) ws).
  { rewrite fold_map. apply map_ext_in. intros w I. rewrite Forall_forall in D. destruct (D w I) as [DL DR]. rewrite mv_fold. f_equal.
    - apply (mv_end o c (fun d => negb (match d with DirOut => true | _ => false end))); [congruence|]. intros m E. destruct (DL m E) as [q [J N]]. exists q. split; trivial. destruct (p_dir q); trivial. now destruct N.
    - apply (mv_end o c (fun d => negb (match d with DirIn => true | _ => false end))); [congruence|]. intros m E. destruct (DR m E) as [q [J N]]. exists q. split; trivial. destruct (p_dir q); trivial. now destruct N. }
  rewrite W1 in H. set (ws1 := map (fun w : wire => (goes o c (fst w), goes o c (snd w))) ws) in *.
  set (t1 := {| t_name := set (t_name t) c n; t_parent := t_parent t; k_map := k_map t; k_order := k_order t |}) in *.
  destruct (built_good _ B) as [K O S Q]. apply (lookup_in _ _ _ (K p)) in GC. apply Q in GC. destruct GC as [PO NO].
  assert (B1 : built t1). { unfold t1. assert (X : lookup n (k_map t p) = Some o) by (apply (lookup_in _ _ _ (K p)); apply Q; now split).
    pose proof (b_add t p n c B NP) as Y. unfold add in Y. rewrite X in Y. exact Y. }
  assert (P1 : t_parent t1 o = Some p) by exact PO.
  assert (N1 : t_name t1 o = n) by (cbn; unfold set; destruct (Nat.eqb_spec o c); [congruence|exact NO]).
  pose proof (b_remove t1 p o B1 P1) as B2. destruct (proj2 (proj2 (proj2 (proj2 (C350_calls t1 p B1)))) o P1) as [R1 [R2 R3]]. rewrite N1 in R2.
  assert (NP2 : t_parent (remove t1 p o) c = None) by (rewrite R3 by exact CO; exact NP).
  destruct (proj1 (C350_calls (remove t1 p o) p B2) n c NP2 R2) as [t3 [A3 [G3 _]]]. unfold remove_child in H. rewrite A3 in H.
  assert (CUT : (if listed (t_name t1 o) (k_order t1 p) then cut_all ports o ws1 else ws1) = ws1).
  { destruct (listed _ _); trivial. unfold cut_all. rewrite cut_list. rewrite (filter_same _ (fun _ => true)); [clear; induction ws1 as [|w l IH]; cbn; [trivial|now rewrite IH]|].
    intros w I. apply in_map_iff in I. destruct I as [v [<- _]]. destruct (existsb _ _) eqn:X; trivial. apply existsb_exists in X. destruct X as [[m q] [_ X]]. unfold cuts in X. cbn in X.
    assert (G : forall e, is_port o m (goes o c e) = false).
    { intros e. destruct (is_port o m (goes o c e)) eqn:Y; trivial. apply is_port_eq in Y. destruct e as [h k|x]; cbn in Y; [|discriminate]. destruct (Nat.eqb_spec h o); inversion Y; congruence. }
    destruct (p_dir q); rewrite G in X; discriminate. }
  assert (H' : (t3, (if listed (t_name t1 o) (k_order t1 p) then cut_all ports o ws1 else ws1), @Ok unit tt) = (t', ws', Ok tt)) by exact H. clear H. rename H' into H.
  rewrite CUT in H. inversion H; subst t3 ws'. clear H. split; trivial.
  assert (B3 : built t'). { pose proof (b_add _ p n c B2 NP2) as Y. now rewrite A3 in Y. }
  assert (PAR : forall d, t_parent t' d = set (t_parent (remove t1 p o)) c (Some p) d). { intros d. unfold add in A3. unfold get_child in R2. rewrite R2 in A3. inversion A3; subst. reflexivity. }
  split; trivial. split; [rewrite PAR; unfold set; destruct (Nat.eqb_spec o c); [congruence|exact R1]|]. split; [rewrite PAR; unfold set; now rewrite Nat.eqb_refl|]. split; trivial.
  split; [|now split]. intros d D1 D2. rewrite PAR. unfold set. destruct (Nat.eqb_spec d c); [contradiction|]. now rewrite R3.
Qed.
Example C356_ex : let ws := [(PortOf 1 "i", Sig 0); (Sig 1, PortOf 1 "o"); (PortOf 2 "i", PortOf 1 "o")] in
  exists t', replace io three ws 0 "c" 7 = (t', [(PortOf 7 "i", Sig 0); (Sig 1, PortOf 7 "o"); (PortOf 2 "i", PortOf 7 "o")], Ok tt) /\ children t' 0 = Ok [2; 7].
Proof. eexists. split; [reflexivity|]. reflexivity. Qed.
(* C357: a replacement that throws changes nothing *)
Theorem C357_failed_replace_refuted :
  ~ (forall ports t ws p n c, built t -> snd (replace ports t ws p n c) = Throw -> snd (fst (replace ports t ws p n c)) = ws).
Proof.
  intros H. pose (ports := fun g => match g with 7 => [("i", pin DirIn); ("o", pin DirIn)] | _ => io g end).
  specialize (H ports three [(PortOf 1 "i", Sig 0)] 0 "c" 7 (proj1 C350_ex) eq_refl). discriminate.
Qed.
(* C358: the new child in the place of the old one *)
Theorem C358_place_refuted : ~ (forall ports t ws p n c t' ws', built t -> t_parent t c = None -> replace ports t ws p n c = (t', ws', Ok tt) -> k_order t' p = k_order t p).
Proof.
  intros H. destruct C356_ex as [t' [E _]]. specialize (H io three _ 0 "c" 7 _ _ (proj1 C350_ex) eq_refl E).
  assert (X : k_order (fst (fst (replace io three [(PortOf 1 "i", Sig 0); (Sig 1, PortOf 1 "o"); (PortOf 2 "i", PortOf 1 "o")] 0 "c" 7))) 0 = k_order three 0) by (rewrite E; exact H).
  vm_compute in X. discriminate.
Qed.
Print Assumptions C350_children.
Print Assumptions C350_by_name.
Print Assumptions C350_calls.
Print Assumptions C351_failed_add_refuted.
Print Assumptions C352_not_a_child_refuted.
Print Assumptions C353_two_parents_refuted.
Print Assumptions C354_removed.
Print Assumptions C355_inout_refuted.
Print Assumptions C355_input_refuted.
Print Assumptions C356_replaced.
Print Assumptions C357_failed_replace_refuted.
Print Assumptions C358_place_refuted.
