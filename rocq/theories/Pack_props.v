(* C362-C366: port bundles that become packed structs. *)
From Coq Require Import Lia.
From Verif Require Import Base Num_model Num_spec Num_proofs Hash_model Pack_model.
Local Open Scope string_scope.
Local Open Scope list_scope.

(* ---- texts *)
Fixpoint numeric (s : string) : Prop := match s with EmptyString => True | String c r => (exists d, char_digit c = Some d /\ (d < 10)%Z) /\ numeric r end.
Definition halts (s : string) : Prop := match s with EmptyString => True | String c r => match char_digit c with Some d => (10 <= d)%Z | None => True end end.
Lemma numeric_app a b : numeric a -> numeric b -> numeric (a ++ b).
Proof. induction a as [|c a IH]; cbn; trivial. intros [H A] B. split; auto. Qed.
Lemma digits_numeric f : forall n acc, (0 <= n)%Z -> numeric acc -> numeric (digits f 10 n acc).
Proof.
  induction f as [|f IH]; intros n acc Hn A; [exact A|]. cbn [digits]. pose proof (Z.mod_pos_bound n 10 ltac:(lia)) as M.
  assert (A' : numeric (String (digit_char (n mod 10)) acc)) by (split; [exists (n mod 10)%Z; split; [apply char_digit_char; lia|lia]|exact A]).
  destruct (n / 10 =? 0)%Z; trivial. apply IH; trivial. apply Z.div_pos; lia.
Qed.
Lemma dec_numeric n : (0 <= n)%Z -> numeric (dec n).
Proof. intros H. unfold dec, print_num. now apply digits_numeric. Qed.
Lemma split_numeric a b x y : numeric a -> numeric b -> halts x -> halts y -> (a ++ x)%string = (b ++ y)%string -> a = b /\ x = y.
Proof.
  revert b. induction a as [|c a IH]; intros [|e b] A B X Y E; cbn in *; auto.
  - subst x. destruct B as [[d [Hd L]] _]. cbn in X. rewrite Hd in X. lia.
  - subst y. destruct A as [[d [Hd L]] _]. cbn in Y. rewrite Hd in Y. lia.
  - injection E as -> E. destruct A as [_ A], B as [_ B]. destruct (IH b A B X Y E) as [-> ->]. now split.
Qed.
Lemma app_length_s a b : String.length (a ++ b) = String.length a + String.length b.
Proof. induction a; cbn; [trivial|now f_equal]. Qed.
Lemma app_split a : forall b x y, String.length a = String.length b -> (a ++ x)%string = (b ++ y)%string -> a = b /\ x = y.
Proof.
  induction a as [|c a IH]; intros [|e b] x y L E; cbn in *; try discriminate; auto. injection E as -> E. injection L as L. destruct (IH b x y L E) as [-> ->]. now split.
Qed.
Lemma twice_inj a b : (a ++ a)%string = (b ++ b)%string -> a = b.
Proof.
  intros E. assert (L : String.length a = String.length b) by (pose proof (f_equal String.length E) as H; rewrite !app_length_s in H; lia). now destruct (app_split _ _ _ _ L E).
Qed.
Lemma app_assoc_s (a b c : string) : ((a ++ b) ++ c)%string = (a ++ b ++ c)%string.
Proof. induction a; cbn; [trivial|now f_equal]. Qed.
Lemma sign_halts b x : halts (sign_text b ++ x).
Proof. destruct b; exact I. Qed.
Lemma sign_inj a b x y : (sign_text a ++ x)%string = (sign_text b ++ y)%string -> a = b /\ x = y.
Proof. destruct a, b; cbn; intros E; try discriminate; injection E as ->; now split. Qed.
Lemma app_inj_l (a b c : string) : (a ++ b)%string = (a ++ c)%string -> b = c.
Proof. induction a; cbn; intros E; [trivial|]. injection E. auto. Qed.

(* C362: bundles with the same fields and equal texts have the same widths and signedness *)
Theorem C362_texts ps i j : (forall g n, (0 <= q_width (port_at ps g n))%Z) -> map fst (i_map i) = map fst (i_map j) -> text ps i = text ps j ->
  Forall2 (fun an bn => fst an = fst bn /\ q_width (port_at ps (i_gen i) (snd an)) = q_width (port_at ps (i_gen j) (snd bn)) /\
                        q_signed (port_at ps (i_gen i) (snd an)) = q_signed (port_at ps (i_gen j) (snd bn))) (i_map i) (i_map j).
Proof.
  intros W. unfold text. generalize (i_gen i) (i_gen j) (i_map i) (i_map j). intros g h m. clear i j. induction m as [|[a n] m IH]; intros [|[b k] l] F E; try discriminate; [constructor|].
  cbn in F. injection F as <- F. cbn [texts] in E. unfold field_text in E. cbn [fst snd] in E. rewrite !app_assoc_s in E.
  rewrite <- !(app_assoc_s (dec _) (dec _)) in E.
  apply split_numeric in E; [|apply numeric_app; apply dec_numeric, W|apply numeric_app; apply dec_numeric, W|apply sign_halts|apply sign_halts].
  destruct E as [E1 E2]. apply twice_inj in E1. apply print_num_inj in E1; [|lia|apply W|apply W]. apply sign_inj in E2. destruct E2 as [E2 E3]. apply app_inj_l in E3.
  constructor; [now repeat split|]. now apply IH.
Qed.
(* ... and so do those that are accepted, if the hash does not send two of the texts to one number *)
Theorem C362_accepted ps l : (forall g n, (0 <= q_width (port_at ps g n))%Z) -> all_same ps l = true ->
  forall i j, In i l -> In j l -> (fnv (text ps i) = fnv (text ps j) -> text ps i = text ps j) -> map fst (i_map i) = map fst (i_map j) ->
  Forall2 (fun an bn => fst an = fst bn /\ q_width (port_at ps (i_gen i) (snd an)) = q_width (port_at ps (i_gen j) (snd bn)) /\
                        q_signed (port_at ps (i_gen i) (snd an)) = q_signed (port_at ps (i_gen j) (snd bn))) (i_map i) (i_map j).
Proof.
  intros W A i j I J H F. apply C362_texts; trivial. apply H. destruct l as [|k l]; [destruct I|]. cbn in A. rewrite forallb_forall in A.
  assert (K : forall x, In x (k :: l) -> fnv (text ps x) = fnv (text ps k)) by (intros x [<-|X]; trivial; now apply Z.eqb_eq, A).
  now rewrite (K i I), (K j J).
Qed.
(* ... while those that are the same are accepted *)
Theorem C362_complete ps l : (forall i j, In i l -> In j l ->
    Forall2 (fun an bn => fst an = fst bn /\ q_width (port_at ps (i_gen i) (snd an)) = q_width (port_at ps (i_gen j) (snd bn)) /\
                          q_signed (port_at ps (i_gen i) (snd an)) = q_signed (port_at ps (i_gen j) (snd bn))) (i_map i) (i_map j)) -> all_same ps l = true.
Proof.
  intros H. destruct l as [|k l]; trivial. cbn. apply forallb_forall. intros x X. apply Z.eqb_eq. f_equal.
  specialize (H x k (or_intror X) (or_introl eq_refl)). unfold text. induction H as [|[a n] [b m] l1 l2 [E1 [E2 E3]] F IH]; trivial. cbn [texts]. rewrite IH. f_equal. unfold field_text. cbn [fst snd] in *. now rewrite E1, E2, E3.
Qed.
Definition mk (w : Z) (d : pdir) : port := {| q_width := w; q_signed := false; q_dir := d; q_scalar := true |}.
(* generators 1 and 2 with bundles {a : 1, b : 11} and {a11 : 1, b : 1}; the top is 0 *)
Definition ex_ports : ports := fun g n => match g with
  | 1 => if String.eqb n "p_a" then Some (mk 1 PIn) else if String.eqb n "p_b" then Some (mk 11 PIn) else None
  | 2 => if String.eqb n "p_a11" then Some (mk 1 PIn) else if String.eqb n "p_b" then Some (mk 1 PIn) else None
  | 3 => if String.eqb n "q_a" then Some (mk 1 POut) else if String.eqb n "q_b" then Some (mk 11 POut) else None
  | _ => None end.
Definition one : inst := {| i_gen := 1; i_entry := "p"; i_map := [("a", "p_a"); ("b", "p_b")] |}.
Definition two : inst := {| i_gen := 2; i_entry := "p"; i_map := [("a11", "p_a11"); ("b", "p_b")] |}.
Definition three : inst := {| i_gen := 3; i_entry := "q"; i_map := [("a", "q_a"); ("b", "q_b")] |}.
Example C362_ex : all_same ex_ports [one; three] = true /\ map fst (i_map one) = map fst (i_map three) /\ text ex_ports one = "11falsea1111falseb".
Proof. repeat split; vm_compute; reflexivity. Qed.
(* C363: bundles that are accepted, with different fields *)
Theorem C363_different_refuted : ~ (forall ps l, forallb (eligible ps) l = true -> all_same ps l = true -> forall i j, In i l -> In j l -> map fst (i_map i) = map fst (i_map j)).
Proof.
  assert (A : all_same ex_ports [one; two] = true) by (vm_compute; reflexivity).
  intros H. specialize (H ex_ports [one; two] eq_refl A one two (or_introl eq_refl) (or_intror (or_introl eq_refl))). discriminate.
Qed.

(* ---- the conversion *)
Definition parted (l : list inst) : list (inst * (string * string)) := flat_map (fun i => map (fun an => (i, an)) (i_map i)) l.
(* where ports of bundles go *)
Inductive packed (l : list inst) : endpoint -> endpoint -> Prop :=
| pk_port i a n : In i l -> In (a, n) (i_map i) -> packed l (PortOf (i_gen i) n) (Member (i_gen i) (i_entry i) a)
| pk_other e : (forall i a n, In i l -> In (a, n) (i_map i) -> e <> PortOf (i_gen i) n) -> packed l e e.
(* statements go into inputs from the parent and read them in the generator, and the other way for outputs *)
Definition usual (d : pdir) (g : nat) (parent : nat -> option nat) (n : string) (w : wire) : Prop :=
  (w_left w = PortOf g n -> match d with PIn => parent g = Some (w_gen w) | _ => w_gen w = g end) /\
  (w_right w = PortOf g n -> match d with PIn => w_gen w = g | _ => parent g = Some (w_gen w) end).
Definition proper (ps : ports) (parent : nat -> option nat) (l : list inst) (w : wire) : Prop :=
  forall i a n, In i l -> In (a, n) (i_map i) -> usual (q_dir (port_at ps (i_gen i) n)) (i_gen i) parent n w.

Definition sub1 (it : inst * (string * string)) (e : endpoint) : endpoint := swap (i_gen (fst it)) (snd (snd it)) (Member (i_gen (fst it)) (i_entry (fst it)) (fst (snd it))) e.
Definition subs (its : list (inst * (string * string))) (e : endpoint) : endpoint := fold_left (fun e it => sub1 it e) its e.
Definition subw (its : list (inst * (string * string))) (w : wire) : wire := {| w_gen := w_gen w; w_left := subs its (w_left w); w_right := subs its (w_right w) |}.
Lemma is_port_eq g n e : is_port g n e = true <-> e = PortOf g n.
Proof.
  destruct e as [h m|h e a|x]; cbn; try (split; discriminate). rewrite andb_true_iff, Nat.eqb_eq, String.eqb_eq. split; [intros [-> ->]; trivial|intros E; inversion E; now split].
Qed.
Lemma sub1_port it e g n : sub1 it e = PortOf g n -> e = PortOf g n.
Proof. unfold sub1, swap. destruct (is_port _ _ e); [discriminate|trivial]. Qed.
Lemma subs_port its : forall e g n, subs its e = PortOf g n -> e = PortOf g n.
Proof. induction its as [|it its IH]; intros e g n H; trivial. apply IH in H. now apply sub1_port in H. Qed.
Lemma subs_app a b e : subs (a ++ b) e = subs b (subs a e).
Proof. unfold subs. apply fold_left_app. Qed.
Lemma sub_wire (d : pdir) parent it w : d <> PInOut -> usual d (i_gen (fst it)) parent (snd (snd it)) w ->
  let g := i_gen (fst it) in let n := snd (snd it) in let new := Member g (i_entry (fst it)) (fst (snd it)) in
  (match d with
   | PIn => let ws1 := match parent g with Some p => move_src g n new p [w] | None => [w] end in move_sink g n new g ws1
   | _ => let ws1 := move_src g n new g [w] in match parent g with Some p => move_sink g n new p ws1 | None => ws1 end
   end) = [subw [it] w].
Proof.
  intros ND [UL UR]. destruct it as [i [a n]]. cbn [fst snd] in *. cbn zeta. unfold subw, subs, sub1, move_src, move_sink, swap. cbn [fold_left fst snd map].
  assert (L : is_port (i_gen i) n (w_left w) = true -> match d with PIn => parent (i_gen i) = Some (w_gen w) | _ => w_gen w = i_gen i end) by (intros H; apply UL, is_port_eq, H).
  assert (R : is_port (i_gen i) n (w_right w) = true -> match d with PIn => w_gen w = i_gen i | _ => parent (i_gen i) = Some (w_gen w) end) by (intros H; apply UR, is_port_eq, H).
  clear UL UR. destruct w as [wg wl wr]. cbn [w_gen w_left w_right] in *.
  destruct d; [| |now destruct ND].
  - destruct (parent (i_gen i)) as [p|]; cbn [map].
    + destruct (is_port (i_gen i) n wl) eqn:EL; [specialize (L eq_refl); inversion L; subst p; rewrite Nat.eqb_refl|destruct (Nat.eqb wg p)]; cbn [w_gen w_left w_right];
        (destruct (is_port (i_gen i) n wr) eqn:ER; [specialize (R eq_refl); subst wg; rewrite Nat.eqb_refl|destruct (Nat.eqb wg (i_gen i))]); cbn [w_gen w_left w_right map]; rewrite ?Nat.eqb_refl; cbn [w_gen w_left w_right map]; rewrite ?EL, ?ER; repeat match goal with |- context [if Nat.eqb ?x ?y then _ else _] => destruct (Nat.eqb x y) end; cbn [w_gen w_left w_right map]; rewrite ?EL, ?ER; reflexivity.
    + destruct (is_port (i_gen i) n wl) eqn:EL; [specialize (L eq_refl); discriminate|].
      destruct (is_port (i_gen i) n wr) eqn:ER; [specialize (R eq_refl); subst wg; rewrite Nat.eqb_refl|destruct (Nat.eqb wg (i_gen i))]; cbn [w_gen w_left w_right map]; rewrite ?Nat.eqb_refl; cbn [w_gen w_left w_right map]; rewrite ?EL, ?ER; repeat match goal with |- context [if Nat.eqb ?x ?y then _ else _] => destruct (Nat.eqb x y) end; cbn [w_gen w_left w_right map]; rewrite ?EL, ?ER; reflexivity.
  - destruct (parent (i_gen i)) as [p|]; cbn [map].
    + destruct (is_port (i_gen i) n wl) eqn:EL; [specialize (L eq_refl); subst wg; rewrite Nat.eqb_refl|destruct (Nat.eqb wg (i_gen i))]; cbn [w_gen w_left w_right];
        (destruct (is_port (i_gen i) n wr) eqn:ER; [specialize (R eq_refl); inversion R; subst p; rewrite Nat.eqb_refl|destruct (Nat.eqb _ p)]); cbn [w_gen w_left w_right map]; rewrite ?Nat.eqb_refl; cbn [w_gen w_left w_right map]; rewrite ?EL, ?ER; repeat match goal with |- context [if Nat.eqb ?x ?y then _ else _] => destruct (Nat.eqb x y) end; cbn [w_gen w_left w_right map]; rewrite ?EL, ?ER; reflexivity.
    + destruct (is_port (i_gen i) n wr) eqn:ER; [specialize (R eq_refl); discriminate|].
      destruct (is_port (i_gen i) n wl) eqn:EL; [specialize (L eq_refl); subst wg; rewrite Nat.eqb_refl|destruct (Nat.eqb wg (i_gen i))]; cbn [w_gen w_left w_right map]; rewrite ?Nat.eqb_refl; cbn [w_gen w_left w_right map]; rewrite ?EL, ?ER; repeat match goal with |- context [if Nat.eqb ?x ?y then _ else _] => destruct (Nat.eqb x y) end; cbn [w_gen w_left w_right map]; rewrite ?EL, ?ER; reflexivity.
Qed.
Lemma sub_wires (d : pdir) parent it ws : d <> PInOut -> (forall w, In w ws -> usual d (i_gen (fst it)) parent (snd (snd it)) w) ->
  let g := i_gen (fst it) in let n := snd (snd it) in let new := Member g (i_entry (fst it)) (fst (snd it)) in
  (match d with
   | PIn => let ws1 := match parent g with Some p => move_src g n new p ws | None => ws end in move_sink g n new g ws1
   | _ => let ws1 := move_src g n new g ws in match parent g with Some p => move_sink g n new p ws1 | None => ws1 end
   end) = map (subw [it]) ws.
Proof.
  intros ND U. cbn zeta. induction ws as [|w ws IH]; [destruct d, (parent (i_gen (fst it))); reflexivity|].
  pose proof (sub_wire d parent it w ND (U w (or_introl eq_refl))) as H. cbn zeta in H. cbn [map]. rewrite <- IH by (intros v V; apply U; now right). clear IH.
  change (subw [it] w :: ?l) with ([subw [it] w] ++ l)%list. rewrite <- H. destruct d, (parent (i_gen (fst it))); reflexivity.
Qed.
Lemma pdir_eqb_refl d : pdir_eqb d d = true.
Proof. now destruct d. Qed.
Lemma pdir_eqb_eq a b : pdir_eqb a b = true -> a = b.
Proof. destruct a, b; intros; try discriminate; trivial. Qed.
Definition gone (its : list (inst * (string * string))) (ps : ports) : ports := fold_left (fun ps it => drop ps (i_gen (fst it)) (snd (snd it))) its ps.
Lemma gone_at its : forall ps g n, ~ In (g, n) (map (fun it => (i_gen (fst it), snd (snd it))) its) -> gone its ps g n = ps g n.
Proof.
  induction its as [|it its IH]; intros ps g n H; trivial. cbn [gone fold_left]. change (gone its (drop ps (i_gen (fst it)) (snd (snd it))) g n = ps g n). rewrite IH by (intros X; apply H; now right).
  unfold drop. destruct (Nat.eqb_spec g (i_gen (fst it))) as [E1|]; trivial. destruct (String.eqb_spec n (snd (snd it))) as [E2|]; trivial. destruct H. left. now rewrite E1, E2.
Qed.
Lemma gone_none its : forall ps g n, ps g n = None -> gone its ps g n = None.
Proof. induction its as [|it its IH]; intros ps g n H; trivial. apply IH. unfold drop. now destruct (_ && _). Qed.
Lemma gone_in its : forall ps g n, In (g, n) (map (fun it => (i_gen (fst it), snd (snd it))) its) -> gone its ps g n = None.
Proof.
  induction its as [|it its IH]; intros ps g n H; [destruct H|]. cbn [gone fold_left]. destruct H as [E|H]; [|now apply IH]. inversion E; subst. apply gone_none. unfold drop. now rewrite Nat.eqb_refl, String.eqb_refl.
Qed.
Lemma subw_usual d g parent n its w : usual d g parent n w -> usual d g parent n (subw its w).
Proof. intros [L R]. split; cbn [subw w_left w_right w_gen]; intros H; apply subs_port in H; [exact (L H)|exact (R H)]. Qed.
Lemma fields_ok parent sf d i : d <> PInOut -> forall m s, (forall an, In an m -> In (fst an) sf) -> NoDup (map snd m) ->
  (forall an, In an m -> q_dir (port_at (c_ports s) (i_gen i) (snd an)) = d) -> (forall w an, In w (c_wires s) -> In an m -> usual d (i_gen i) parent (snd an) w) ->
  convert_fields parent sf d i m s = Ok {| c_ports := gone (map (fun an => (i, an)) m) (c_ports s); c_packed := c_packed s; c_wires := map (subw (map (fun an => (i, an)) m)) (c_wires s) |}.
Proof.
  intros ND. induction m as [|an m IH]; intros s SF NDM DIR U.
  - cbn. destruct s as [ps pk ws]. cbn. do 2 f_equal. clear. induction ws as [|[g x y] ws IHw]; cbn; [trivial|now rewrite <- IHw at 1].
  - cbn [convert_fields]. unfold convert_field.
    assert (existsb (String.eqb (fst an)) sf = true) as -> by (apply existsb_exists; exists (fst an); split; [apply SF; now left|apply String.eqb_refl]).
    rewrite (DIR an (or_introl eq_refl)), pdir_eqb_refl. cbn [negb].
    pose proof (sub_wires d parent (i, an) (c_wires s) ND (fun w I => U w an I (or_introl eq_refl))) as SW. cbn zeta in SW. cbn [fst snd] in SW. cbn zeta. rewrite SW. cbn [obind]. inversion NDM as [|? ? NI NDM']; subst.
    rewrite IH; cbn [c_ports c_packed c_wires]; trivial.
    + cbn [map]. f_equal. f_equal. rewrite map_map. apply map_ext. intros w. reflexivity.
    + intros bn I. apply SF. now right.
    + intros bn I. rewrite <- (DIR bn (or_intror I)). f_equal. unfold port_at, drop. destruct (String.eqb_spec (snd bn) (snd an)) as [E|]; [|now rewrite andb_false_r]. destruct NI. rewrite <- E. now apply in_map.
    + intros w bn I J. apply in_map_iff in I. destruct I as [v [<- I]]. apply subw_usual. apply U; trivial. now right.
Qed.
Lemma eligible_dir ps i : eligible ps i = true -> exists d, d <> PInOut /\ (forall an, In an (i_map i) -> q_dir (port_at ps (i_gen i) (snd an)) = d) /\
  match i_map i with [] => PInOut | (_, n) :: _ => q_dir (port_at ps (i_gen i) n) end = d.
Proof.
  unfold eligible. destruct (i_map i) as [|[a n] m] eqn:E; [discriminate|]. rewrite andb_true_iff. intros [A B]. eexists. split; [|split; [|reflexivity]].
  - intros X. rewrite X in A. discriminate.
  - intros an I. rewrite forallb_forall in B. specialize (B an I). apply andb_true_iff in B. now apply pdir_eqb_eq.
Qed.
Lemma eligible_same ps ps' i : (forall an, In an (i_map i) -> port_at ps' (i_gen i) (snd an) = port_at ps (i_gen i) (snd an)) -> eligible ps' i = eligible ps i.
Proof.
  unfold eligible. destruct (i_map i) as [|[a n] m] eqn:E; trivial. intros H. pose proof (H (a, n) (or_introl eq_refl)) as H0. cbn [snd] in H0. rewrite H0. f_equal.
  assert (G : forall (l : list (string * string)) d, (forall an, In an l -> port_at ps' (i_gen i) (snd an) = port_at ps (i_gen i) (snd an)) ->
    forallb (fun an => pdir_eqb (q_dir (port_at ps' (i_gen i) (snd an))) d && q_scalar (port_at ps' (i_gen i) (snd an))) l = forallb (fun an => pdir_eqb (q_dir (port_at ps (i_gen i) (snd an))) d && q_scalar (port_at ps (i_gen i) (snd an))) l).
  { induction l as [|x l IH]; intros d K; trivial. cbn. rewrite (K x (or_introl eq_refl)), IH; trivial. intros y Y. apply K. now right. }
  now apply G.
Qed.
Lemma nodup_app_inv {A} (a b : list A) : NoDup (a ++ b) -> NoDup a /\ NoDup b /\ forall x, In x a -> ~ In x b.
Proof.
  induction a as [|x a IH]; cbn; intros H; [repeat split; trivial; [constructor|intros ? []]|]. inversion H as [|? ? NI ND]; subst. destruct (IH ND) as [A1 [B1 C1]].
  split; [constructor; trivial; intros X; apply NI, in_app_iff; now left|]. split; trivial. intros y [<-|Y]; [intros X; apply NI, in_app_iff; now right|now apply C1].
Qed.
Lemma all_ok parent sf : forall l s, forallb (eligible (c_ports s)) l = true -> (forall i an, In i l -> In an (i_map i) -> In (fst an) sf) ->
  NoDup (map (fun it => (i_gen (fst it), snd (snd it))) (parted l)) -> NoDup (map (fun i => (i_gen i, i_entry i)) l) ->
  (forall i, In i l -> c_ports s (i_gen i) (i_entry i) = None /\ ~ In (i_gen i, i_entry i) (c_packed s)) ->
  Forall (proper (c_ports s) parent l) (c_wires s) ->
  convert_all parent sf l s = Ok {| c_ports := gone (parted l) (c_ports s); c_packed := rev (map (fun i => (i_gen i, i_entry i)) l) ++ c_packed s; c_wires := map (subw (parted l)) (c_wires s) |}.
Proof.
  induction l as [|i l IH]; intros s EL SF ND NE FR PR.
  - cbn. destruct s as [ps pk ws]. cbn. do 2 f_equal. clear. induction ws as [|[g x y] ws IHw]; cbn; [trivial|now rewrite <- IHw at 1].
  - cbn [convert_all]. cbn [forallb] in EL. apply andb_true_iff in EL. destruct EL as [EI EL]. unfold convert.
    destruct (FR i (or_introl eq_refl)) as [F1 F2]. rewrite F1. cbn [orb].
    assert (existsb (fun p => Nat.eqb (fst p) (i_gen i) && String.eqb (snd p) (i_entry i)) (c_packed s) = false) as ->.
    { destruct (existsb _ _) eqn:X; trivial. apply existsb_exists in X. destruct X as [[g e] [X1 X2]]. cbn in X2. apply andb_true_iff in X2. rewrite Nat.eqb_eq, String.eqb_eq in X2. destruct X2; subst. contradiction. }
    destruct (eligible_dir _ _ EI) as [d [ND0 [DIR HD]]]. rewrite HD.
    cbn [parted flat_map] in ND. rewrite map_app in ND. destruct (nodup_app_inv _ _ ND) as [N1 [N2 N3]]. rewrite map_map in N1. cbn [fst snd] in N1. cbn [map] in NE. inversion NE as [|? ? NE1 NE2]; subst.
    assert (NS : NoDup (map snd (i_map i))). { apply (NoDup_map_inv (fun n => (i_gen i, n))). now rewrite map_map. }
    rewrite fields_ok; cbn [c_ports c_packed c_wires]; trivial.
    + cbn [obind]. set (its := map (fun an => (i, an)) (i_map i)) in *.
      assert (SAME : forall j an, In j l -> In an (i_map j) -> port_at (gone its (c_ports s)) (i_gen j) (snd an) = port_at (c_ports s) (i_gen j) (snd an)).
      { intros j an J A. unfold port_at. rewrite gone_at; trivial. intros X. apply (N3 _ X). apply in_map_iff. exists (j, an). split; trivial. apply in_flat_map. exists j. split; trivial. now apply in_map. }
      rewrite IH; cbn [c_ports c_packed c_wires].
      * cbn [parted flat_map map rev]. f_equal. f_equal.
        -- unfold gone. symmetry. apply fold_left_app.
        -- now rewrite <- app_assoc.
        -- rewrite map_map. apply map_ext. intros w. unfold subw. cbn. f_equal; symmetry; apply subs_app.
      * apply forallb_forall. intros j J. rewrite forallb_forall in EL. rewrite <- (EL j J). apply eligible_same. intros an A. now apply SAME.
      * intros j an J. apply SF. now right.
      * exact N2.
      * exact NE2.
      * intros j J. destruct (FR j (or_intror J)) as [G1 G2]. split; [now apply gone_none|]. intros [E|X]; [|contradiction]. apply NE1. rewrite E. now apply (in_map (fun i => (i_gen i, i_entry i))).
      * apply Forall_forall. intros w W. apply in_map_iff in W. destruct W as [v [<- V]]. intros j a n J A. apply subw_usual. pose proof (SAME j (a, n) J A) as SM. cbn [snd] in SM. rewrite SM.
        rewrite Forall_forall in PR. apply (PR v V j a n); trivial. now right.
    + intros an A. apply (SF i); trivial. now left.
    + intros w an W A. rewrite Forall_forall in PR. specialize (PR w W i (fst an) (snd an) (or_introl eq_refl)). rewrite <- surjective_pairing in PR. specialize (PR A). now rewrite (DIR an A) in PR.
Qed.
Lemma subs_member its g e a : subs its (Member g e a) = Member g e a.
Proof. induction its as [|it its IH]; trivial. Qed.
Lemma subs_packed l e : NoDup (map (fun it => (i_gen (fst it), snd (snd it))) (parted l)) -> packed l e (subs (parted l) e).
Proof.
  intros ND. assert (G : forall its, NoDup (map (fun it => (i_gen (fst it), snd (snd it))) its) ->
    (exists it, In it its /\ e = PortOf (i_gen (fst it)) (snd (snd it)) /\ subs its e = Member (i_gen (fst it)) (i_entry (fst it)) (fst (snd it))) \/
    ((forall it, In it its -> e <> PortOf (i_gen (fst it)) (snd (snd it))) /\ subs its e = e)).
  { clear ND. induction its as [|it its IH]; intros ND; [right; split; [intros ? []|trivial]|]. inversion ND as [|? ? NI ND']; subst.
    change (subs (it :: its) e) with (subs its (sub1 it e)). unfold sub1 at 1 2, swap. destruct (is_port (i_gen (fst it)) (snd (snd it)) e) eqn:E.
    - apply is_port_eq in E. left. exists it. split; [now left|]. split; trivial. apply subs_member.
    - destruct (IH ND') as [[jt [I [X Y]]]|[X Y]]; [left; exists jt; split; [now right|now split]|right]. split; trivial. intros jt [<-|J]; [|now apply X]. intros Z. apply is_port_eq in Z. congruence. }
  destruct (G _ ND) as [[[i [a n]] [I [X Y]]]|[X Y]]; cbn [fst snd] in *.
  - rewrite Y, X. apply in_flat_map in I. destruct I as [j [J K]]. apply in_map_iff in K. destruct K as [an [K1 K2]]. inversion K1; subst. now constructor.
  - rewrite Y. constructor. intros i a n I A. apply (X (i, (a, n))). apply in_flat_map. exists i. split; trivial. now apply (in_map (fun an => (i, an))).
Qed.
(* C364: bundles that have the same fields are converted: every statement is the old one with the fields of the packed port in
   place of the ports of the bundles, which are gone, and the other ports stay *)
Theorem C364_converted parent l s i0 : In i0 l -> (forall i, In i l -> map fst (i_map i) = map fst (i_map i0)) -> all_same (c_ports s) l = true -> forallb (eligible (c_ports s)) l = true ->
  NoDup (map (fun it => (i_gen (fst it), snd (snd it))) (parted l)) -> NoDup (map (fun i => (i_gen i, i_entry i)) l) ->
  (forall i, In i l -> c_ports s (i_gen i) (i_entry i) = None /\ ~ In (i_gen i, i_entry i) (c_packed s)) ->
  Forall (proper (c_ports s) parent l) (c_wires s) ->
  exists s', merge parent l s = Ok s' /\
    Forall2 (fun w w' => w_gen w' = w_gen w /\ packed l (w_left w) (w_left w') /\ packed l (w_right w) (w_right w')) (c_wires s) (c_wires s') /\
    (forall i a n, In i l -> In (a, n) (i_map i) -> c_ports s' (i_gen i) n = None) /\
    (forall g n, (forall i a, In i l -> i_gen i = g -> ~ In (a, n) (i_map i)) -> c_ports s' g n = c_ports s g n) /\
    (forall g e, In (g, e) (c_packed s') <-> In (g, e) (c_packed s) \/ exists i, In i l /\ i_gen i = g /\ i_entry i = e).
Proof.
  intros I0 SF AS EL ND NE FR PR. unfold merge. rewrite AS. set (sf := map fst _).
  assert (LI : In (last l {| i_gen := 0; i_entry := ""; i_map := [] |}) l). { clear - I0. destruct l as [|x l]; [destruct I0|]. clear I0. revert x. induction l as [|y l IH]; intros x; [now left|]. right. apply (IH y). }
  rewrite (all_ok parent sf l s EL); trivial.
  - eexists. split; [reflexivity|]. cbn [c_wires c_ports c_packed]. split; [|split; [|split]].
    + clear - ND. induction (c_wires s) as [|w ws IH]; [constructor|]. constructor; trivial. split; trivial. split; now apply subs_packed.
    + intros i a n I A. apply gone_in. apply in_map_iff. exists (i, (a, n)). split; trivial. apply in_flat_map. exists i. split; trivial. now apply (in_map (fun an => (i, an))).
    + intros g n H. apply gone_at. intros X. apply in_map_iff in X. destruct X as [[i [a m]] [E X]]. cbn in E. inversion E; subst. apply in_flat_map in X. destruct X as [j [J K]]. apply in_map_iff in K. destruct K as [an [K1 K2]]. inversion K1; subst. now apply (H i a J eq_refl).
    + intros g e. rewrite in_app_iff, <- in_rev, in_map_iff. split.
      * intros [[i [E I]]|H]; [right; exists i; inversion E; now repeat split|now left].
      * intros [H|[i [I [<- <-]]]]; [now right|left; now exists i].
  - intros i an I A. unfold sf. rewrite (SF _ LI), <- (SF i I). now apply in_map.
Qed.
Example C364_ex : let s := {| c_ports := ex_ports; c_packed := []; c_wires := [{| w_gen := 0; w_left := PortOf 1 "p_a"; w_right := PortOf 3 "q_a" |}; {| w_gen := 1; w_left := Sig 4; w_right := PortOf 1 "p_b" |}] |} in
  let parent := fun g => match g with 0 => None | _ => Some 0 end in
  Forall (proper ex_ports parent [one; three]) (c_wires s) /\
  match merge parent [one; three] s with Ok s' => c_wires s' | _ => [] end = [{| w_gen := 0; w_left := Member 1 "p" "a"; w_right := Member 3 "q" "a" |}; {| w_gen := 1; w_left := Sig 4; w_right := Member 1 "p" "b" |}].
Proof.
  cbn zeta. split; [|vm_compute; reflexivity].
  repeat constructor; intros X; cbn in H, H0; (destruct H as [<-|[<-|[]]]); cbn in H0; (destruct H0 as [E|[E|[]]]); inversion E; subst; cbn in X; try discriminate X; reflexivity.
Qed.
(* C365: a port that is read where it is written *)
Theorem C365_own_output_refuted : ~ (forall parent l s s', merge parent l s = Ok s' -> forallb (eligible (c_ports s)) l = true ->
  forall w g n, In w (c_wires s') -> w_right w = PortOf g n -> c_ports s g n <> None -> c_ports s' g n <> None).
Proof.
  intros H. pose (w := {| w_gen := 3; w_left := Sig 4; w_right := PortOf 3 "q_a" |}).
  specialize (H (fun _ => Some 0) [three] {| c_ports := ex_ports; c_packed := []; c_wires := [w] |} _ eq_refl eq_refl w 3 "q_a" (or_introl eq_refl) eq_refl).
  apply H; [discriminate|reflexivity].
Qed.
Print Assumptions C362_texts.
Print Assumptions C362_accepted.
Print Assumptions C362_complete.
Print Assumptions C363_different_refuted.
Print Assumptions C364_converted.
Print Assumptions C365_own_output_refuted.
