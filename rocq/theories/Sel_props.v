(* Theorems about the signals that a simulation run is given by name: C456 - C461. *)
From Coq Require Import Ascii String.
From Verif Require Import Base Num_spec Num_model Num_proofs Util_spec Util_model Util_proofs Sel_spec Sel_model.
Local Open Scope Z_scope.

Lemma sapp_nil (a : string) : (a ++ "")%string = a.
Proof. induction a; cbn; congruence. Qed.
Lemma name_eqb_eq a b : name_eqb a b = true <-> a = b.
Proof. unfold name_eqb. destruct (list_eq_dec ascii_dec a b); split; congruence. Qed.

(* -- numbers ------------------------------------------------------------------------------------------------------ *)
Lemma read_take n : forall s acc, read_digits 10 acc s = (n, EmptyString) ->
  fold_left (fun a d => 10 * a + d) (take_digits (chars s)) acc = n /\ Forall (fun c => 48 <= code c <= 57) (chars s)
  /\ List.length (take_digits (chars s)) = String.length s.
Proof.
  induction s as [|c s IH]; intros acc H.
  - cbn in H. injection H as <-. repeat split. constructor.
  - cbn [read_digits] in H. unfold char_digit in H. fold (code c) in H. cbn [chars list_ascii_of_string take_digits]. fold (chars s).
    destruct ((48 <=? code c) && (code c <=? 57)) eqn:D.
    + destruct (Z.ltb_spec (code c - 48) 10) as [L|L]; [|discriminate].
      apply Bool.andb_true_iff in D. rewrite !Z.leb_le in D.
      destruct (IH _ H) as (A & B & C). cbn [fold_left List.length String.length]. replace (10 * acc + (code c - 48)) with (acc * 10 + (code c - 48)) by ring.
      split; [exact A|]. split; [constructor; assumption|congruence].
    + destruct ((65 <=? code c) && (code c <=? 70)) eqn:E; [|discriminate]. apply Bool.andb_true_iff in E. rewrite !Z.leb_le in E.
      destruct (Z.ltb_spec (code c - 55) 10) as [L|L]; [lia|discriminate].
Qed.
Lemma digits_shape k : 0 <= k -> fold_left (fun a d => 10 * a + d) (take_digits (digits k)) 0 = k /\ Forall (fun c => 48 <= code c <= 57) (digits k)
  /\ digits k <> [] /\ take_digits (digits k) <> [].
Proof.
  intros Hk. pose proof (read_print 10 k EmptyString ltac:(lia) Hk I) as R. unfold read_num in R.
  assert (X : (print_num 10 k ++ "")%string = dec k) by (unfold dec; apply sapp_nil).
  rewrite X in R. destruct (dec k) as [|c s] eqn:E; [discriminate|]. destruct (char_digit c) as [d|]; [|discriminate]. destruct (d <? 10); [|discriminate].
  assert (R' : read_digits 10 0 (String c s) = (k, EmptyString)) by congruence. destruct (read_take k _ _ R') as (A & B & C). unfold digits. rewrite E. repeat split; trivial; [discriminate|].
  intros T. rewrite T in C. discriminate.
Qed.
Lemma stoi_digits k t : 0 <= k < 2 ^ 31 -> (match t with c :: _ => ~ 48 <= code c <= 57 | [] => True end) -> stoi (digits k ++ t) = Ok (Some k).
Proof.
  intros Hk Ht. destruct (digits_shape k ltac:(lia)) as (A & B & C & D). unfold stoi. revert A B C D. generalize (digits k). intros s A B C D.
  destruct s as [|c s]; [congruence|]. assert (Bc : 48 <= code c <= 57) by (inversion B; assumption).
  assert (W : skip_white ((c :: s) ++ t) = (c :: s) ++ t).
  { cbn [app skip_white]. destruct (Z.eqb_spec (code c) 32); [lia|]. destruct (Z.leb_spec 9 (code c)), (Z.leb_spec (code c) 13); try lia; reflexivity. }
  rewrite W. cbn [app]. destruct (Z.eqb_spec (code c) 45); [lia|]. destruct (Z.eqb_spec (code c) 43); [lia|].
  assert (T : take_digits (c :: s ++ t) = take_digits (c :: s)).
  { change (c :: s ++ t) with ((c :: s) ++ t). clear - B Ht. induction B as [|x l X F IH]; cbn [app take_digits].
    - destruct t as [|x t]; [reflexivity|]. cbn [take_digits]. destruct (Z.leb_spec 48 (code x)), (Z.leb_spec (code x) 57); try reflexivity. cbn. lia.
    - destruct (Z.leb_spec 48 (code x)), (Z.leb_spec (code x) 57); cbn [andb]; try lia. f_equal. exact IH. }
  rewrite T. destruct (take_digits (c :: s)) as [|d ds] eqn:E; [congruence|]. rewrite A.
  destruct (Z.leb_spec (- 2 ^ 31) k); [|lia]. destruct (Z.ltb_spec k (2 ^ 31)); [|lia]. reflexivity.
Qed.
Lemma digits_part k : 0 <= k -> part (digits k).
Proof.
  intros Hk. destruct (digits_shape k Hk) as (_ & B & C & _). split; [exact C|]. intros I. rewrite Forall_forall in B. specialize (B _ I).
  unfold code in B. cbn in B. lia.
Qed.

(* -- tokens ------------------------------------------------------------------------------------------------------- *)
Lemma dot_splits : forall l, l <> [] -> Forall part l -> splits (fun c => In c (chars ".")) (dot_join l) l.
Proof.
  assert (G : forall l d, l <> [] -> Forall part l -> Forall (fun c => In c (chars ".")) d -> splits (fun c => In c (chars ".")) (d ++ dot_join l) l).
  { induction l as [|x l IH]; intros d N F D; [congruence|]. inversion F as [|? ? [Nx Fx] Fl]; subst.
    assert (Tx : Forall (fun c => ~ In c (chars ".")) x) by (apply Forall_forall; intros c I [<-|[]]; exact (Fx I)).
    destruct l as [|y l].
    - cbn [dot_join]. pose proof (split_tok (fun c => In c (chars ".")) d x [] [] D Nx Tx I (split_end _ [] (Forall_nil _))) as Q. rewrite app_nil_r in Q. exact Q.
    - change (dot_join (x :: y :: l)) with (x ++ chars "." ++ dot_join (y :: l)). apply split_tok; trivial; [left; reflexivity|].
      apply IH; [discriminate|exact Fl|]. repeat constructor. }
  intros l N F. exact (G l [] N F (Forall_nil _)).
Qed.
Lemma stoi_signed k : 0 < k -> stoi (chars "-" ++ digits k) = if k <=? 2 ^ 31 then Ok (Some (- k)) else Throw.
Proof.
  intros Hk. destruct (digits_shape k ltac:(lia)) as (A & _ & _ & D).
  assert (W : stoi (chars "-" ++ digits k) = match take_digits (digits k) with
    | [] => Ok None
    | ds => if (- 2 ^ 31 <=? - fold_left (fun a d => 10 * a + d) ds 0) && (- fold_left (fun a d => 10 * a + d) ds 0 <? 2 ^ 31)
            then Ok (Some (- fold_left (fun a d => 10 * a + d) ds 0)) else Throw end) by reflexivity.
  rewrite W. clear W. destruct (take_digits (digits k)) as [|d ds]; [congruence|]. cbn [fold_left] in A |- *. rewrite A.
  destruct (Z.leb_spec k (2 ^ 31)) as [L|L], (Z.leb_spec (- 2 ^ 31) (- k)) as [L'|L'], (Z.ltb_spec (- k) (2 ^ 31)) as [L2|L2]; try reflexivity; exfalso; revert L L' L2; generalize (2 ^ 31); intros; lia.
Qed.
Lemma stoi_big k : 2 ^ 31 <= k -> stoi (digits k) = Throw.
Proof.
  intros Hk. assert (K0 : 0 <= k) by (apply (Z.le_trans _ (2 ^ 31)); [apply Z.pow_nonneg; lia|exact Hk]).
  destruct (digits_shape k K0) as (A & B & C & D). unfold stoi. revert A B C D. generalize (digits k). intros s A B C D.
  destruct s as [|c s]; [congruence|]. assert (Bc : 48 <= code c <= 57) by (inversion B; assumption).
  assert (W : skip_white (c :: s) = c :: s).
  { cbn [skip_white]. destruct (Z.eqb_spec (code c) 32); [lia|]. destruct (Z.leb_spec 9 (code c)), (Z.leb_spec (code c) 13); try lia; reflexivity. }
  rewrite W. destruct (Z.eqb_spec (code c) 45); [lia|]. destruct (Z.eqb_spec (code c) 43); [lia|].
  destruct (take_digits (c :: s)) as [|d ds]; [congruence|]. rewrite A.
  destruct (Z.ltb_spec k (2 ^ 31)) as [L|L]; [exfalso; revert Hk L; generalize (2 ^ 31); intros; lia|]. rewrite Bool.andb_false_r. reflexivity.
Qed.
(* a character that cannot start a number *)
Definition no_number (c : ascii) : Prop := ~ 48 <= code c <= 57 /\ ~ 9 <= code c <= 13 /\ code c <> 32 /\ code c <> 43 /\ code c <> 45.
Lemma stoi_word c t : no_number c -> stoi (c :: t) = Ok None.
Proof.
  intros (N1 & N2 & N3 & N4 & N5). unfold stoi.
  assert (W : skip_white (c :: t) = c :: t).
  { cbn [skip_white]. destruct (Z.eqb_spec (code c) 32); [lia|]. destruct (Z.leb_spec 9 (code c)), (Z.leb_spec (code c) 13); try lia; reflexivity. }
  rewrite W. destruct (Z.eqb_spec (code c) 45); [lia|]. destruct (Z.eqb_spec (code c) 43); [lia|]. cbn [take_digits].
  destruct (Z.leb_spec 48 (code c)), (Z.leb_spec (code c) 57); try lia; reflexivity.
Qed.
Lemma dot_tokens l : l <> [] -> Forall part l -> get_tokens (dot_join l) (chars ".") = l.
Proof. intros N F. eapply splits_unique; [apply get_tokens_splits|apply dot_splits; assumption]. Qed.
Lemma walk_below (child : nat -> name -> option nat) g l h : below child g l h -> forall v rest, child h v = None -> walk child g (l ++ v :: rest) = (h, v :: rest).
Proof. induction 1 as [g|g n g' l h C B IH]; intros v rest N; cbn [app walk]; [rewrite N; reflexivity|rewrite C; apply IH, N]. Qed.

(* slicing one index after the other *)
Fixpoint slices {V} (at_ : V -> Z -> outcome V) (v : V) (ks : list Z) : outcome V :=
  match ks with [] => Ok v | k :: ks => match at_ v k with Ok v => slices at_ v ks | Throw => Throw | UB => UB end end.
Lemma loop_slices {V} (at_ : V -> Z -> outcome V) : forall ks v, Forall (fun k => 0 <= k < 2 ^ 31) ks ->
  index_loop V at_ v (map digits ks) = olet s := slices at_ v ks in Ok (Some s).
Proof.
  induction ks as [|k ks IH]; intros v F; [reflexivity|]. inversion F; subst. cbn [map index_loop slices].
  pose proof (stoi_digits k [] ltac:(assumption) I) as T. rewrite app_nil_r in T. rewrite T. cbn [obind].
  destruct (Z.ltb_spec k 0); [lia|]. destruct (at_ v k) as [v'| |]; cbn [obind]; [apply IH; assumption|reflexivity|reflexivity].
Qed.

Section S.
  Variable V : Type.
  Variable inst : nat -> name.
  Variable child : nat -> name -> option nat.
  Variable var : nat -> name -> option V.
  Variable packed_array : V -> bool.
  Variable at_ : V -> Z -> outcome V.
  Variable top : nat.
  Notation select := (select V inst child var packed_array at_ top).
  Notation add_state := (add_state V inst child var packed_array at_ top).
  Notation mark_wrong := (mark_wrong V inst child var packed_array at_ top).

(* C456: the hierarchical name of a variable, with indices, selects that variable and these elements. *)
Theorem C456_select : forall path g v x ks, below child top path g -> var g v = Some x -> child g v = None -> packed_array x = false ->
  part (inst top) -> Forall part path -> part v -> Forall (fun k => 0 <= k < 2 ^ 31) ks ->
  select (dot_join (inst top :: path ++ v :: map digits ks)) = olet s := slices at_ x ks in Ok (Some s).
Proof.
  intros path g v x ks B Vx C P Pt Pp Pv Pk. unfold Sel_model.select. rewrite dot_tokens; [|discriminate|].
  - rewrite (proj2 (name_eqb_eq _ _) eq_refl). cbn [negb]. rewrite (walk_below child top path g B v _ C), Vx, P. apply loop_slices, Pk.
  - constructor; [exact Pt|]. apply Forall_app. split; [exact Pp|]. constructor; [exact Pv|]. apply Forall_map. eapply Forall_impl; [|exact Pk]. intros k [Hk _]. apply digits_part. exact Hk.
Qed.
(* ... and a name that does not start with the top, ends in a generator or names no variable selects nothing. *)
Theorem C456_none : forall t l, part t -> Forall part l ->
  (t <> inst top \/ (exists g, below child top l g)
   \/ exists path g v rest, l = path ++ v :: rest /\ below child top path g /\ child g v = None /\ var g v = None) ->
  select (dot_join (t :: l)) = Ok None.
Proof.
  intros t l Pt Pl H. unfold Sel_model.select. rewrite dot_tokens; [|discriminate|constructor; assumption].
  destruct (name_eqb t (inst top)) eqn:E; [|reflexivity]. apply name_eqb_eq in E. cbn [negb].
  destruct H as [H|[(g & B)|(path & g & v & rest & -> & B & C & N)]]; [congruence| |].
  - assert (W : walk child top l = (g, [])) by (clear - B; induction B as [|? ? ? ? ? C B IH]; [reflexivity|]; cbn [walk]; rewrite C; exact IH).
    rewrite W. reflexivity.
  - rewrite (walk_below child top path g B v rest C), N. reflexivity.
Qed.
(* ... and an index that is negative, too large or no number is refused *)
Theorem C456_bad_index : forall path g v x i rest, below child top path g -> var g v = Some x -> child g v = None -> packed_array x = false ->
  part (inst top) -> Forall part path -> part v -> part i -> Forall part rest ->
  let s := select (dot_join (inst top :: path ++ v :: i :: rest)) in
  ((exists k, 0 < k /\ i = chars "-" ++ digits k) -> s = Throw)
  /\ ((exists k, 2 ^ 31 <= k /\ i = digits k) -> s = Throw)
  /\ ((exists c t, no_number c /\ i = c :: t) -> s = Ok None).
Proof.
  intros path g v x i rest B Vx C P Pt Pp Pv Pi Pr. cbv zeta.
  assert (E : select (dot_join (inst top :: path ++ v :: i :: rest)) = index_loop V at_ x (i :: rest)).
  { unfold Sel_model.select. rewrite dot_tokens; [|discriminate|].
    - rewrite (proj2 (name_eqb_eq _ _) eq_refl). cbn [negb]. rewrite (walk_below child top path g B v _ C), Vx, P. reflexivity.
    - constructor; [exact Pt|]. apply Forall_app. split; [exact Pp|]. constructor; [exact Pv|]. constructor; [exact Pi|exact Pr]. }
  rewrite E. cbn [index_loop]. split; [|split].
  - intros (k & Hk & ->). rewrite (stoi_signed k Hk). destruct (k <=? 2 ^ 31); [|reflexivity]. cbn [obind]. destruct (Z.ltb_spec (- k) 0); [reflexivity|lia].
  - intros (k & Hk & ->). rewrite (stoi_big k Hk). reflexivity.
  - intros (c & t & Hc & ->). rewrite (stoi_word c t Hc). reflexivity.
Qed.
(* ... and a state takes the values of the signals its names select, and a signal marked wrong is marked in the last state. *)
Theorem C456_state : forall ss l,
  (forall m v y, In (m, v, y) l -> select m = Ok (Some v)) ->
  add_state ss (map (fun e => (fst (fst e), snd e)) l) = (ss ++ [map (fun e => (snd (fst e), snd e)) l], Ok tt).
Proof.
  intros ss l H.
  assert (G : forall l st, (forall m v y, In (m, v, y) l -> select m = Ok (Some v)) ->
    set_all V inst child var packed_array at_ top (map (fun e => (fst (fst e), snd e)) l) st = (st ++ map (fun e => (snd (fst e), snd e)) l, Ok tt)).
  { clear. induction l as [|[[m v] y] l IH]; intros st H; cbn [map set_all fst snd]; [rewrite app_nil_r; reflexivity|].
    rewrite (H m v y (or_introl eq_refl)), IH; [rewrite <- app_assoc; reflexivity|]. intros; eapply H; right; eassumption. }
  unfold Sel_model.add_state. rewrite (G l [] H). reflexivity.
Qed.
Theorem C456_mark : forall ss s n v, select n = Ok (Some v) -> mark_wrong (ss ++ [s]) n = Ok (length ss, v) /\ mark_wrong [] n = Throw.
Proof.
  intros ss s n v E. split; [|reflexivity]. unfold Sel_model.mark_wrong. rewrite E, app_length. cbn [length obind].
  replace (length ss + 1 - 1)%nat with (length ss) by lia. destruct ss; reflexivity.
Qed.
End S.

Definition exc (g : nat) (n : name) : option nat := if name_eqb n (chars "c") then match g with O => Some 1%nat | _ => None end else None.
Definition exv (g : nat) (n : name) : option (list Z) := if name_eqb n (chars "x") || name_eqb n (chars "c") then Some [Z.of_nat g] else None.
Definition exat (v : list Z) (k : Z) : outcome (list Z) := if k <? 8 then Ok (v ++ [k]) else Throw.
Definition exi (g : nat) : name := match g with O => chars "top" | _ => chars "c" end.
Lemma part_one c : c <> "."%char -> part [c].
Proof. intros N. split; [discriminate|]. intros [E|[]]. congruence. Qed.
Example C456_bad_index_ex :
  let sel i := select (list Z) exi exc exv (fun _ => false) exat 0%nat (dot_join [exi 0%nat; chars "x"; i]) in
  part (chars "-1") /\ no_number "q"%char /\ sel (chars "-1") = Throw /\ sel (chars "2147483648") = Throw /\ sel (chars "q1") = Ok None.
Proof.
  cbv zeta. split; [split; [discriminate|cbn; intuition discriminate]|]. split; [unfold no_number, code; cbn; lia|]. repeat split.
Qed.
Example C456_state_ex :
  add_state (list Z) exi exc exv (fun _ => false) exat 0%nat [[]] [(chars "top.x", 5); (chars "top.c.x.3", 7)] = ([[]; [([0], 5); ([1; 3], 7)]], Ok tt)
  /\ mark_wrong (list Z) exi exc exv (fun _ => false) exat 0%nat [[]; []] (chars "top.c.x") = Ok (1%nat, [1]).
Proof. split; reflexivity. Qed.
Example C456_ex : select (list Z) exi exc exv (fun _ => false) exat 0 (chars "top.c.x.3.12") = Throw
  /\ select (list Z) exi exc exv (fun _ => false) exat 0 (chars "top.c.x.3.2") = Ok (Some [1; 3; 2])
  /\ chars "top.c.x.3.12" = dot_join (exi 0 :: [chars "c"] ++ chars "x" :: map digits [3; 12])
  /\ below exc 0 [chars "c"] 1 /\ exc 1 (chars "x") = None /\ part (exi 0) /\ part (chars "c") /\ part (chars "x")
  /\ select (list Z) exi exc exv (fun _ => false) exat 0 (chars "tb.c.x") = Ok None
  /\ select (list Z) exi exc exv (fun _ => false) exat 0 (chars "top.c") = Ok None.
Proof.
  repeat split; try discriminate; try (intros I; cbn in I; intuition discriminate). econstructor; [reflexivity|]. constructor.
Qed.

(* C457: an element of an array that is packed, as arrays are unless told otherwise, cannot be given. *)
Theorem C457_packed_refuted :
  (forall V inst child var packed_array at_ top path g v (x : V) ks, below child top path g -> var g v = Some x -> child g v = None -> packed_array x = true ->
     part (inst top) -> Forall part path -> part v -> Forall (fun k => 0 <= k < 2 ^ 31) ks ->
     select V inst child var packed_array at_ top (dot_join (inst top :: path ++ v :: map digits ks)) = Throw)
  /\ ~ (forall V inst child var packed_array at_ top path g v (x : V) ks s, below child top path g -> var g v = Some x -> child g v = None ->
          part (inst top) -> Forall part path -> part v -> Forall (fun k => 0 <= k < 2 ^ 31) ks -> slices at_ x ks = Ok s ->
          select V inst child var packed_array at_ top (dot_join (inst top :: path ++ v :: map digits ks)) = Ok (Some s)).
Proof.
  split.
  - intros V inst child var packed_array at_ top path g v x ks B Vx C P Pt Pp Pv Pk. unfold Sel_model.select. rewrite dot_tokens; [|discriminate|].
    + rewrite (proj2 (name_eqb_eq _ _) eq_refl). cbn [negb]. rewrite (walk_below child top path g B v _ C), Vx, P. reflexivity.
    + constructor; [exact Pt|]. apply Forall_app. split; [exact Pp|]. constructor; [exact Pv|]. apply Forall_map. eapply Forall_impl; [|exact Pk]. intros k [Hk _]. apply digits_part. exact Hk.
  - intros H. pose proof C456_ex as (_ & _ & _ & _ & _ & Pt & _ & Px & _).
    specialize (H (list Z) exi exc exv (fun _ => true) exat 0%nat [] 0%nat (chars "x") [0] [3] [0; 3] (below_here _ _) eq_refl eq_refl Pt (Forall_nil _) Px).
    assert (K : Forall (fun k => 0 <= k < 2 ^ 31) [3]) by (repeat constructor; lia). specialize (H K eq_refl). discriminate.
Qed.

(* C458: a variable that has the name of an instance beside it cannot be given. *)
Theorem C458_shadowed_refuted :
  (forall V inst child var packed_array at_ top path g v g', below child top path g -> child g v = Some g' ->
     part (inst top) -> Forall part path -> part v ->
     select V inst child var packed_array at_ top (dot_join (inst top :: path ++ [v])) = Ok None)
  /\ ~ (forall V inst child var packed_array at_ top path g v (x : V), below child top path g -> var g v = Some x -> packed_array x = false ->
          part (inst top) -> Forall part path -> part v ->
          select V inst child var packed_array at_ top (dot_join (inst top :: path ++ [v])) = Ok (Some x)).
Proof.
  assert (A : forall V inst child var packed_array at_ top path g v g', below child top path g -> child g v = Some g' ->
     part (inst top) -> Forall part path -> part v ->
     select V inst child var packed_array at_ top (dot_join (inst top :: path ++ [v])) = Ok None).
  { intros V inst child var packed_array at_ top path g v g' B C Pt Pp Pv. apply C456_none; trivial; [apply Forall_app; split; [exact Pp|constructor; [exact Pv|constructor]]|].
    right. left. exists g'. clear - B C. induction B as [|? ? ? ? ? C' B IH]; cbn [app]; econstructor; eauto. constructor. }
  split; [exact A|]. intros H. pose proof C456_ex as (_ & _ & _ & _ & _ & Pt & Pc & _).
  specialize (H (list Z) exi exc exv (fun _ => false) exat 0%nat [] 0%nat (chars "c") [0] (below_here _ _) eq_refl eq_refl Pt (Forall_nil _) Pc).
  rewrite (A _ _ _ _ _ _ _ [] 0%nat (chars "c") 1%nat) in H; try discriminate; trivial.
Qed.

(* C459: marking a name that selects nothing is no error but undefined. *)
Theorem C459_mark_refuted :
  (forall V inst child var packed_array at_ top ss n, ss <> [] -> select V inst child var packed_array at_ top n = Ok None ->
     mark_wrong V inst child var packed_array at_ top ss n = UB)
  /\ ~ (forall V inst child var packed_array at_ top ss t l, part t -> Forall part l -> mark_wrong V inst child var packed_array at_ top ss (dot_join (t :: l)) <> UB).
Proof.
  assert (A : forall V inst child var packed_array at_ top ss n, ss <> [] -> select V inst child var packed_array at_ top n = Ok None ->
     mark_wrong V inst child var packed_array at_ top ss n = UB).
  { intros V inst child var packed_array at_ top ss n N E. unfold mark_wrong. destruct ss; [congruence|]. rewrite E. reflexivity. }
  split; [exact A|]. intros H. apply (H (list Z) exi exc exv (fun _ => false) exat 0%nat [[]] (chars "y") []); [apply part_one; discriminate|constructor|].
  apply A; [discriminate|reflexivity].
Qed.

(* C460: a state one of whose names is refused is kept, with the values given before it. *)
Theorem C460_kept_refuted :
  (forall V inst child var packed_array at_ top ss (l1 : list (name * V * Z)) n x l2,
     (forall m v y, In (m, v, y) l1 -> select V inst child var packed_array at_ top m = Ok (Some v)) ->
     select V inst child var packed_array at_ top n = Ok None ->
     add_state V inst child var packed_array at_ top ss (map (fun e => (fst (fst e), snd e)) l1 ++ (n, x) :: l2)
     = (ss ++ [map (fun e => (snd (fst e), snd e)) l1], Throw))
  /\ ~ (forall V inst child var packed_array at_ top ss values, snd (add_state V inst child var packed_array at_ top ss values) = Throw ->
          fst (add_state V inst child var packed_array at_ top ss values) = ss).
Proof.
  split.
  - intros V inst child var packed_array at_ top ss l1 n x l2 H N.
    assert (G : forall l st, (forall m v y, In (m, v, y) l -> select V inst child var packed_array at_ top m = Ok (Some v)) ->
      set_all V inst child var packed_array at_ top (map (fun e => (fst (fst e), snd e)) l ++ (n, x) :: l2) st = (st ++ map (fun e => (snd (fst e), snd e)) l, Throw)).
    { induction l as [|[[m v] y] l IH]; intros st Hl; cbn [map app set_all fst snd].
      - rewrite N, app_nil_r. reflexivity.
      - rewrite (Hl m v y (or_introl eq_refl)), IH; [rewrite <- app_assoc; reflexivity|]. intros m' v' y' I. apply (Hl m' v' y'). right; exact I. }
    unfold add_state. rewrite (G l1 []); trivial.
  - intros H. specialize (H (list Z) exi exc exv (fun _ => false) exat 0%nat [] [(chars "y", 1)] eq_refl). discriminate.
Qed.

(* C461: an index with something after the number is taken for the number. *)
Theorem C461_index_refuted :
  (forall V inst child var packed_array at_ top path g v (x : V) k t, below child top path g -> var g v = Some x -> child g v = None -> packed_array x = false ->
     part (inst top) -> Forall part path -> part v -> 0 <= k < 2 ^ 31 -> part t -> (match t with c :: _ => ~ 48 <= code c <= 57 | [] => True end) ->
     select V inst child var packed_array at_ top (dot_join (inst top :: path ++ [v; digits k ++ t])) = olet s := at_ x k in Ok (Some s))
  /\ ~ (forall V inst child var packed_array at_ top path g v (x s : V) i, below child top path g -> var g v = Some x -> child g v = None -> packed_array x = false ->
          part (inst top) -> Forall part path -> part v -> part i ->
          select V inst child var packed_array at_ top (dot_join (inst top :: path ++ [v; i])) = Ok (Some s) -> exists k, 0 <= k /\ i = digits k).
Proof.
  assert (A : forall V inst child var packed_array at_ top path g v (x : V) k t, below child top path g -> var g v = Some x -> child g v = None -> packed_array x = false ->
     part (inst top) -> Forall part path -> part v -> 0 <= k < 2 ^ 31 -> part t -> (match t with c :: _ => ~ 48 <= code c <= 57 | [] => True end) ->
     select V inst child var packed_array at_ top (dot_join (inst top :: path ++ [v; digits k ++ t])) = olet s := at_ x k in Ok (Some s)).
  { intros V inst child var packed_array at_ top path g v x k t B Vx C P Pt Pp Pv Hk Pd Ht. unfold Sel_model.select.
    assert (Pi : part (digits k ++ t)).
    { destruct (digits_part k ltac:(lia)) as [N1 N2]. destruct Pd as [_ N3]. split; [destruct (digits k); [congruence|discriminate]|]. rewrite in_app_iff. tauto. }
    rewrite dot_tokens; [|discriminate|].
    - rewrite (proj2 (name_eqb_eq _ _) eq_refl). cbn [negb]. rewrite (walk_below child top path g B v _ C), Vx, P. cbn [index_loop].
      rewrite (stoi_digits k t Hk Ht). cbn [obind]. destruct (Z.ltb_spec k 0); [lia|]. reflexivity.
    - constructor; [exact Pt|]. apply Forall_app. split; [exact Pp|]. constructor; [exact Pv|]. constructor; [exact Pi|constructor]. }
  split; [exact A|]. intros H. pose proof C456_ex as (_ & _ & _ & _ & _ & Pt & _ & Px & _).
  assert (Pi : part (chars "1b")) by (split; [discriminate|]; cbn; intuition discriminate).
  destruct (H (list Z) exi exc exv (fun _ => false) exat 0%nat [] 0%nat (chars "x") [0] [0; 1] (chars "1b") (below_here _ _) eq_refl eq_refl eq_refl Pt (Forall_nil _) Px Pi eq_refl) as (k & P & E).
  assert (F : ~ Forall (fun c => 48 <= code c <= 57) (digits k)).
  { rewrite <- E. intros F. inversion F as [|? ? _ F']; subst. inversion F' as [|? ? X _]; subst. unfold code in X. cbn in X. lia. }
  apply F. exact (proj1 (proj2 (digits_shape k P))).
Qed.
Print Assumptions C456_select.
Print Assumptions C456_none.
Print Assumptions C456_bad_index.
Print Assumptions C456_state.
Print Assumptions C456_mark.
Print Assumptions C457_packed_refuted.
Print Assumptions C458_shadowed_refuted.
Print Assumptions C459_mark_refuted.
Print Assumptions C460_kept_refuted.
Print Assumptions C461_index_refuted.
