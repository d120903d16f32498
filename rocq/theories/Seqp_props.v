From Coq Require Import Sorted Permutation.
From Verif Require Import Base Seqp_spec Seqp_model.
Local Open Scope nat_scope.

(* C294: the text of a property is read in one way, and says of the instance it is written for what the chain says *)
Definition legal (c : list step) : Prop := c <> [] /\ forall s, In s c -> p_lo s <= p_hi s.
Fixpoint dec (ts : list tok) : option rprop :=
  match ts with
  | TRef r :: [] => Some (RSeq 0 0 r)
  | TRef r :: TImp :: rest => match dec rest with Some q => Some (RImp 0 0 r q) | None => None end
  | TDelay n :: TRef r :: [] => Some (RSeq n n r)
  | TDelay n :: TRef r :: TImp :: rest => match dec rest with Some q => Some (RImp n n r q) | None => None end
  | TRange lo hi :: TRef r :: [] => Some (RSeq lo hi r)
  | TRange lo hi :: TRef r :: TImp :: rest => match dec rest with Some q => Some (RImp lo hi r q) | None => None end
  | _ => None
  end.
Lemma reads_dec : forall ts q, reads_as ts q -> dec ts = Some q.
Proof. intros ts q R. induction R as [s lo hi r H|s lo hi r rest q H R IH]; destruct H; cbn [dec app]; [reflexivity|reflexivity|reflexivity|rewrite IH; reflexivity|rewrite IH; reflexivity|rewrite IH; reflexivity]. Qed.
(* the text of one step *)
Lemma step_text : forall (s : step) (f : sig -> ref), p_lo s <= p_hi s -> exists g, (g = f \/ g = handle) /\
  seq_text (match wait_text s with [] => [TRef (handle (p_sig s))] | w => w ++ [TRef (f (p_sig s))] end) (p_lo s) (p_hi s) (g (p_sig s)).
Proof.
  intros s f L. unfold wait_text. destruct (Nat.eqb_spec (p_lo s) 0) as [E1|E1], (Nat.eqb_spec (p_hi s) 0) as [E2|E2]; cbn [andb].
  - exists handle. split; [now right|]. rewrite E1, E2. constructor.
  - exists f. split; [now left|]. destruct (Nat.eqb_spec (p_lo s) (p_hi s)) as [E3|E3]; [lia|]. now constructor.
  - exists f. split; [now left|]. destruct (Nat.eqb_spec (p_lo s) (p_hi s)) as [E3|E3]; [lia|]. now constructor.
  - exists f. split; [now left|]. destruct (Nat.eqb_spec (p_lo s) (p_hi s)) as [E3|E3]; [rewrite <- E3; constructor|now constructor].
Qed.
Lemma resolve_handle : forall here v, s_path v = here -> resolve here (handle v) = v.
Proof. intros here [p n] E. cbn in E. subst p. unfold handle. cbn. destruct here; reflexivity. Qed.
Lemma resolve_var : forall here v, s_path v = here -> resolve here (var_str here v) = v.
Proof. intros here v E. unfold var_str. destruct (list_eq_dec Nat.eq_dec (s_path v) here) as [_|N]; [|contradiction]. destruct v as [p n]. cbn in *. now subst p. Qed.
Lemma text_reads : forall here c f, (forall v, s_path v = here -> resolve here (f v) = v) -> legal c -> (forall s, In s c -> s_path (p_sig s) = here) ->
  exists q, reads_as (seq_string f c) q /\ forall tr t, holds tr here t q <-> meaning tr t c.
Proof.
  intros here. induction c as [|s r IH]; intros f Hf [Ne Le] Hp; [contradiction|]. destruct (step_text s f (Le s (or_introl eq_refl))) as (g & Hg & T). cbn [seq_string].
  assert (resolve here (g (p_sig s)) = p_sig s) as Er by (destruct Hg as [-> | ->]; [apply Hf|apply resolve_handle]; apply Hp; now left). destruct r as [|s' r].
  - exists (RSeq (p_lo s) (p_hi s) (g (p_sig s))). split; [now constructor|]. intros tr t. cbn. now rewrite Er.
  - destruct (IH handle (resolve_handle here)) as (q & R & M); [split; [discriminate|intros x I; apply Le; now right]|intros x I; apply Hp; now right|]. exists (RImp (p_lo s) (p_hi s) (g (p_sig s)) q). split; [now apply P_imp|].
    intros tr t. change (meaning tr t (s :: s' :: r)) with (forall d, p_lo s <= d <= p_hi s -> tr (t + d) (p_sig s) = true -> meaning tr (t + d) (s' :: r)). cbn [holds]. rewrite Er. split; intros A d D E; apply M; auto.
Qed.
Theorem C294_text : forall here c, legal c -> (forall s, In s c -> s_path (p_sig s) = here) ->
  exists q, reads_as (seq_string (var_str here) c) q /\ (forall q', reads_as (seq_string (var_str here) c) q' -> q' = q) /\ forall tr t, holds tr here t q <-> meaning tr t c.
Proof.
  intros here c L Hp. destruct (text_reads here c (var_str here) (resolve_var here) L Hp) as (q & R & M). exists q. split; [exact R|]. split; [|exact M]. intros q' R'. apply reads_dec in R. apply reads_dec in R'. congruence.
Qed.
Definition sg (p : path) (n : nat) : sig := {| s_path := p; s_name := n |}.
Definition st (v : sig) (lo hi : nat) : step := {| p_sig := v; p_lo := lo; p_hi := hi |}.
Definition chain_at (p : path) : list step := [st (sg p 1) 0 0; st (sg p 2) 1 1; st (sg p 3) 0 4].
Example C294_ex : legal (chain_at [5]) /\ seq_string (var_str [5]) (chain_at [5]) = [TRef (Handle [5] 1); TImp; TDelay 1; TRef (Handle [5] 2); TImp; TRange 0 4; TRef (Handle [5] 3)].
Proof. split; [|reflexivity]. split; [discriminate|]. intros s [<-|[<-|[<-|[]]]]; cbn; lia. Qed.

(* C295: a chain built by calls one after the other has the implied signals in their order, each with the last wait given for it *)
Fixpoint implied (cs : list call) : list sig := match cs with [] => [] | Imply v :: r => v :: implied r | Wait _ _ :: r => implied r end.
Lemma imply_last : forall pre n fresh v, (forall m, In m pre -> nd_id m <> nd_id n) -> imply (nd_id n) fresh v (pre ++ [n]) = Ok (pre ++ [n; {| nd_id := fresh; nd_step := {| p_sig := v; p_lo := 0; p_hi := 0 |} |}]).
Proof.
  induction pre as [|m r IH]; intros n fresh v A; cbn [app imply]; [now rewrite Nat.eqb_refl|]. replace (Nat.eqb (nd_id m) (nd_id n)) with false by (symmetry; apply Nat.eqb_neq, A; now left). rewrite IH by (intros; apply A; now right). reflexivity.
Qed.
Lemma wait_last : forall pre n lo hi, (forall m, In m pre -> nd_id m <> nd_id n) -> wait (nd_id n) lo hi (pre ++ [n]) = Ok (pre ++ [{| nd_id := nd_id n; nd_step := {| p_sig := p_sig (nd_step n); p_lo := lo; p_hi := hi |} |}]).
Proof.
  induction pre as [|m r IH]; intros n lo hi A; cbn [app wait]; [now rewrite Nat.eqb_refl|]. replace (Nat.eqb (nd_id m) (nd_id n)) with false by (symmetry; apply Nat.eqb_neq, A; now left). rewrite IH by (intros; apply A; now right). reflexivity.
Qed.
(* what the calls after the object of v with wait lo hi amount to *)
Fixpoint steps_of (v : sig) (lo hi : nat) (cs : list call) : list step :=
  match cs with [] => [{| p_sig := v; p_lo := lo; p_hi := hi |}] | Wait l h :: r => steps_of v l h r | Imply w :: r => {| p_sig := v; p_lo := lo; p_hi := hi |} :: steps_of w 0 0 r end.
Lemma fluent_steps : forall cs k pre n, nd_id n = k -> (forall m, In m pre -> nd_id m < k) -> exists c, run_calls (S k) (fluent k cs) (pre ++ [n]) = Ok c /\ map nd_step c = map nd_step pre ++ steps_of (p_sig (nd_step n)) (p_lo (nd_step n)) (p_hi (nd_step n)) cs.
Proof.
  induction cs as [|[v|lo hi] r IH]; intros k pre n En A; cbn [fluent run_calls steps_of].
  - exists (pre ++ [n]). split; [reflexivity|]. rewrite map_app. cbn. destruct n as [i [a b c]]. reflexivity.
  - subst k. rewrite imply_last by (intros m I; apply A in I; lia). cbn [obind]. change [n; {| nd_id := S (nd_id n); nd_step := {| p_sig := v; p_lo := 0; p_hi := 0 |} |}] with ([n] ++ [{| nd_id := S (nd_id n); nd_step := {| p_sig := v; p_lo := 0; p_hi := 0 |} |}]). rewrite app_assoc.
    destruct (IH (S (nd_id n)) (pre ++ [n]) {| nd_id := S (nd_id n); nd_step := {| p_sig := v; p_lo := 0; p_hi := 0 |} |} eq_refl) as (c & E & M); [intros m I; apply in_app_iff in I; destruct I as [I|[<-|[]]]; [apply A in I; lia|lia]|].
    exists c. split; [exact E|]. rewrite M, map_app, <- app_assoc. cbn. destruct n as [i [a b c0]]. reflexivity.
  - subst k. rewrite wait_last by (intros m I; apply A in I; lia). cbn [obind]. destruct (IH (nd_id n) pre {| nd_id := nd_id n; nd_step := {| p_sig := p_sig (nd_step n); p_lo := lo; p_hi := hi |} |} eq_refl A) as (c & E & M). exists c. split; [exact E|exact M].
Qed.
Lemma iter_r : forall (A : Type) (f : A -> A) n x, Nat.iter (S n) f x = Nat.iter n f (f x).
Proof. intros A f. induction n as [|n IH]; intros x; [reflexivity|]. cbn. f_equal. apply IH. Qed.
Theorem C295_built : forall v cs, exists c, run_calls 1 (fluent 0 cs) (start v) = Ok c /\ map (fun n => p_sig (nd_step n)) c = v :: implied cs /\
  (forall k n, nth_error c k = Some n -> (p_lo (nd_step n), p_hi (nd_step n)) = waited 0 0 (Nat.iter k (fun l => tl (from_imply l)) cs)).
Proof.
  intros v cs. destruct (fluent_steps cs 0 [] {| nd_id := 0; nd_step := {| p_sig := v; p_lo := 0; p_hi := 0 |} |} eq_refl) as (c & E & M); [intros m []|]. exists c. split; [exact E|]. cbn in M. split.
  - rewrite <- (map_map nd_step p_sig), M. clear. generalize 0 at 1 as a. generalize 0 as b. revert v. induction cs as [|[w|lo hi] r IH]; intros v b a; cbn [steps_of implied map]; [reflexivity|cbn [p_sig]; f_equal; apply IH|apply IH].
  - intros k n N. apply (map_nth_error nd_step) in N. rewrite M in N. clear M E c. assert (forall cs v lo hi k s, nth_error (steps_of v lo hi cs) k = Some s -> (p_lo s, p_hi s) = match k with 0 => waited lo hi cs | _ => waited 0 0 (Nat.iter k (fun l => tl (from_imply l)) cs) end) as U.
    { clear. induction cs as [|[w|l h] r IH]; intros v lo hi k s N; cbn [steps_of] in N.
      - destruct k as [|[|k]]; inversion N; reflexivity.
      - destruct k as [|k]; [inversion N; reflexivity|]. cbn in N. apply IH in N. rewrite N. destruct k as [|k]; [reflexivity|]. f_equal. rewrite (iter_r _ _ (S k)). reflexivity.
      - apply IH in N. rewrite N. destruct k as [|k]; [reflexivity|]. f_equal. rewrite !iter_r. reflexivity. }
    apply U in N. rewrite N. destruct k; reflexivity.
Qed.
Example C295_ex : exists c, run_calls 1 (fluent 0 [Imply (sg [] 2); Wait 1 1; Imply (sg [] 3); Wait 7 7; Wait 0 4]) (start (sg [] 1)) = Ok c /\ map nd_step c = chain_at [].
Proof. eexists. split; reflexivity. Qed.
(* C296 (false): sequences that were returned can still be used: implying something else destroys what followed *)
Theorem C296_stale_refuted : forall v a b x, run_calls 1 [(0, Imply a); (0, Imply b); (1, x)] (start v) = UB.
Proof. intros v a b [w|lo hi]; reflexivity. Qed.
Example C296_ex : exists c, run_calls 1 [(0, Imply (sg [] 2)); (1, Wait 1 1)] (start (sg [] 1)) = Ok c.
Proof. eexists. reflexivity. Qed.
(* C297 (false): what is written is a property: a wait from later to earlier is accepted and written *)
Theorem C297_range_refuted : forall v lo hi here, hi < lo -> exists c, run_calls 1 (fluent 0 [Wait lo hi]) (start v) = Ok c /\ forall q, ~ reads_as (seq_string (var_str here) (map nd_step c)) q.
Proof.
  intros v lo hi here L. eexists. split; [reflexivity|]. cbn [map nd_step seq_string]. unfold wait_text. cbn [p_lo p_hi p_sig nd_step]. replace (Nat.eqb lo 0) with false by (symmetry; apply Nat.eqb_neq; lia). cbn [andb]. replace (Nat.eqb lo hi) with false by (symmetry; apply Nat.eqb_neq; lia). cbn [app]. intros q R. inversion R as [s l h r Q|s l h r rest q' Q R' E]; subst.
  - inversion Q; subst. lia.
  - inversion Q; subst; discriminate.
Qed.
Example C297_ex : seq_string (var_str []) [st (sg [] 1) 5 2] = [TRange 5 2; TRef (Local 1)].
Proof. reflexivity. Qed.

(* C298: a property with implications gets the one clock there is, at its rising edge, and is reported if there is no such clock *)
Theorem C298_clock : forall ports casts c, 2 <= List.length c ->
  (forall k, infer_clock ports casts None c = Ok (Some k) <-> ports = [k] \/ ports = [] /\ casts = [k]) /\
  (infer_clock ports casts None c = Throw <-> 2 <= List.length ports \/ ports = [] /\ List.length casts <> 1) /\
  (forall k, infer_clock ports casts (Some k) c = Ok (Some k)).
Proof.
  intros ports casts [|s [|s' r]] L; cbn [List.length] in L; try lia. cbn [infer_clock]. split; [|split; [|reflexivity]].
  - intros k. destruct ports as [|a [|b t]]; [destruct casts as [|x [|y u]]|..]; split; intros H; try discriminate; try (inversion H; subst; auto; fail); destruct H as [H|[H1 H2]]; try discriminate; try congruence.
  - destruct ports as [|a [|b t]]; [destruct casts as [|x [|y u]]|..]; cbn [List.length]; split; intros H; try discriminate; try reflexivity; try (right; split; [reflexivity|lia]); try (left; lia); destruct H as [H|[H1 H2]]; try discriminate; try lia.
Qed.
Example C298_ex : infer_clock [3] [] None (chain_at []) = Ok (Some 3) /\ infer_clock [] [4] None (chain_at []) = Ok (Some 4) /\ infer_clock [3; 4] [] None (chain_at []) = Throw.
Proof. repeat split. Qed.
(* C299 (false): one clock is found: a clock that goes to two clock ports is counted twice *)
Theorem C299_one_clock_refuted : forall k n c, 2 <= List.length c -> infer_clock [] (repeat k (S (S n))) None c = Throw.
Proof. intros k n [|s [|s' r]] L; cbn [List.length] in L; try lia. reflexivity. Qed.
Example C299_ex : infer_clock [] [7; 7] None (chain_at []) = Throw /\ infer_clock [] [7] None (chain_at []) = Ok (Some 7).
Proof. split; reflexivity. Qed.
(* C300 (false): a property that waits for ticks has a clock or is reported: without an implication neither happens *)
Theorem C300_no_clock_refuted : forall ports casts s, 0 < p_lo s -> infer_clock ports casts None [s] = Ok None.
Proof. reflexivity. Qed.
Example C300_ex : infer_clock [3] [] None [st (sg [] 1) 2 2] = Ok None.
Proof. reflexivity. Qed.
(* C301 (false): the property of a module is about each instance of it: without a first wait, the signals are those of the instance it was made for *)
Lemma handles_only : forall p c f, p <> [] -> (forall s, In s c -> s_path (p_sig s) = p) -> (forall v, s_path v = p -> f v = handle v) -> forall q, reads_as (seq_string f c) q -> forall r other, In r (refs q) -> s_path (resolve other r) = p.
Proof.
  intros p. assert (forall v, s_path v = p -> p <> [] -> forall other, s_path (resolve other (handle v)) = p) as Hh. { intros [w n] E Hn other. cbn in E. subst w. unfold handle. cbn. destruct p; [contradiction|reflexivity]. }
  assert (forall c f q, p <> [] -> (forall s, In s c -> s_path (p_sig s) = p) -> (forall v, s_path v = p -> f v = handle v) -> dec (seq_string f c) = Some q -> forall r other, In r (refs q) -> s_path (resolve other r) = p) as U.
  { induction c as [|s r IH]; intros f q Hn Hp Hf D rr other I; [discriminate|]. cbn [seq_string] in D.
    assert (forall t, match wait_text s with [] => [TRef (handle (p_sig s))] | w => w ++ [TRef (f (p_sig s))] end ++ t = wait_text s ++ TRef (handle (p_sig s)) :: t) as Et. { intros t. rewrite (Hf (p_sig s)) by (apply Hp; now left). destruct (wait_text s); [reflexivity|]. now rewrite <- app_assoc. }
    assert (wait_text s = [] \/ (exists n, wait_text s = [TDelay n]) \/ exists l h, wait_text s = [TRange l h]) as W. { unfold wait_text. destruct (Nat.eqb (p_lo s) 0 && Nat.eqb (p_hi s) 0); [auto|]. destruct (Nat.eqb (p_lo s) (p_hi s)); eauto. }
    destruct r as [|s' r].
    - rewrite <- (app_nil_r (match wait_text s with [] => [TRef (handle (p_sig s))] | w => w ++ [TRef (f (p_sig s))] end)) in D. rewrite Et in D. destruct W as [W|[[n W]|(l & h & W)]]; rewrite W in D; cbn [app dec] in D; inversion D; subst q; destruct I as [<-|[]]; apply Hh; auto; apply Hp; now left.
    - rewrite Et in D. assert (exists q', dec (seq_string handle (s' :: r)) = Some q' /\ refs q = handle (p_sig s) :: refs q') as (q' & D' & Eq1). { destruct W as [W|[[n W]|(l & h & W)]]; rewrite W in D; cbn [app dec] in D; destruct (dec (seq_string handle (s' :: r))) as [q'|]; try discriminate; inversion D; subst q; exists q'; split; reflexivity. }
      rewrite Eq1 in I. destruct I as [<-|I]; [apply Hh; auto; apply Hp; now left|]. eapply (IH handle q'); eauto. intros x Ix. apply Hp. now right. }
  intros c f Hn Hp Hf q R. apply (U c f q Hn Hp Hf). now apply reads_dec.
Qed.
Theorem C301_instances_refuted : forall p other s r q, p <> [] -> other <> p -> p_hi s = 0 -> p_lo s = 0 -> (forall x, In x (s :: r) -> s_path (p_sig x) = p) -> reads_as (seq_string (var_str p) (s :: r)) q -> forall y, In y (refs q) -> s_path (resolve other y) = p /\ s_path (resolve other y) <> other.
Proof.
  intros p other s r q Hn Ho H1 H2 Hp R y I. assert (s_path (resolve other y) = p) as E; [|split; [exact E|congruence]]. apply (handles_only p (s :: r) handle Hn Hp ltac:(reflexivity) q); [|exact I].
  cbn [seq_string] in *. unfold wait_text in *. rewrite H1, H2 in *. exact R.
Qed.
Example C301_ex : refs (RImp 0 0 (Handle [5] 1) (RImp 1 1 (Handle [5] 2) (RSeq 0 4 (Handle [5] 3)))) = [Handle [5] 1; Handle [5] 2; Handle [5] 3] /\
  reads_as (seq_string (var_str [5]) (chain_at [5])) (RImp 0 0 (Handle [5] 1) (RImp 1 1 (Handle [5] 2) (RSeq 0 4 (Handle [5] 3)))).
Proof. split; [reflexivity|]. apply (P_imp [TRef (Handle [5] 1)] 0 0 (Handle [5] 1)); [constructor|]. apply (P_imp [TDelay 1; TRef (Handle [5] 2)] 1 1 (Handle [5] 2)); [constructor|]. constructor. constructor. lia. Qed.

(* C302: the properties of a generator become statements, one for each, in the order of their names; a name is used once *)
Lemma insert_perm : forall n c m, Permutation (insert n c m) ((n, c) :: m).
Proof. intros n c. induction m as [|[k d] r IH]; [reflexivity|]. cbn [insert]. destruct (n <? k); [reflexivity|]. rewrite IH. apply perm_swap. Qed.
Lemma insert_sorted : forall n c m, StronglySorted (fun a b => fst a < fst b) m -> ~ In n (map fst m) -> StronglySorted (fun a b => fst a < fst b) (insert n c m).
Proof.
  intros n c. induction m as [|[k d] r IH]; intros S N; cbn [insert]; [repeat constructor|]. inversion S as [|? ? S' F]; subst. destruct (Nat.ltb_spec n k) as [L|L].
  - constructor; [exact S|]. constructor; [exact L|]. rewrite Forall_forall in *. intros x I. specialize (F x I). cbn in *. lia.
  - constructor; [apply IH; [exact S'|intros I; apply N; now right]|]. rewrite Forall_forall in *. intros x I. apply (Permutation_in _ (insert_perm n c r)) in I. destruct I as [<-|I]; [|now apply F]. cbn. cbn in N. lia.
Qed.
Theorem C302_properties : forall xs, (NoDup (map fst xs) -> exists m, add_all xs [] = Ok m /\ Permutation (property_stmts m) xs /\ StronglySorted (fun a b => fst a < fst b) (property_stmts m)) /\ (~ NoDup (map fst xs) -> add_all xs [] = Throw).
Proof.
  assert (forall xs m, StronglySorted (fun a b => fst a < fst b) m -> (NoDup (map fst xs ++ map fst m) -> exists m', add_all xs m = Ok m' /\ Permutation m' (xs ++ m) /\ StronglySorted (fun a b => fst a < fst b) m') /\ (~ NoDup (map fst xs ++ map fst m) -> NoDup (map fst m) -> add_all xs m = Throw)) as U.
  { induction xs as [|[n c] r IH]; intros m S; cbn [map app add_all].
    - split; [intros _; exists m; auto|contradiction].
    - unfold add_property. cbn [fst snd]. destruct (existsb (fun y => Nat.eqb (fst y) n) m) eqn:X.
      + apply existsb_exists in X. destruct X as (y & I & E). apply Nat.eqb_eq in E. split; [|reflexivity]. intros N. inversion N as [|? ? A B]; subst. exfalso. apply A. apply in_or_app. right. now apply in_map.
      + assert (~ In n (map fst m)) as Hn. { intros I. apply in_map_iff in I. destruct I as (y & E & I). assert (existsb (fun y => Nat.eqb (fst y) n) m = true) by (apply existsb_exists; exists y; split; [exact I|now apply Nat.eqb_eq]). congruence. }
        cbn [obind]. destruct (IH (insert n c m) (insert_sorted n c m S Hn)) as [A B]. assert (Permutation (map fst r ++ map fst (insert n c m)) (n :: map fst r ++ map fst m)) as Pm. { rewrite (Permutation_map fst (insert_perm n c m)). cbn. symmetry. apply Permutation_middle. }
        split.
        * intros N. destruct A as (m' & E & Pe & S'); [now apply (Permutation_NoDup (Permutation_sym Pm))|]. exists m'. split; [exact E|]. split; [|exact S']. rewrite Pe, (insert_perm n c m). symmetry. apply Permutation_middle.
        * intros N Nm. apply B; [intros Q; apply N; now apply (Permutation_NoDup Pm)|]. apply (Permutation_NoDup (Permutation_sym (Permutation_map fst (insert_perm n c m)))). cbn. now constructor. }
  intros xs. destruct (U xs [] (SSorted_nil _)) as [A B]. rewrite !app_nil_r in *. split; [exact A|]. intros N. apply B; [exact N|constructor].
Qed.
Example C302_ex : NoDup (map fst [(3, chain_at []); (1, [])]) /\ add_all [(3, chain_at []); (1, [])] [] = Ok [(1, []); (3, chain_at [])] /\ add_all [(3, []); (3, [])] [] = Throw.
Proof. split; [repeat constructor; cbn; lia|]. split; reflexivity. Qed.
(* C303 (false): generators with different properties are different modules *)
Theorem C303_shared_refuted : forall g ps gs, exists h, g_name h = g_name g /\ g_body h = g_body g /\ g_props h = ps /\ module_of (g :: gs) h = Some g.
Proof.
  intros g ps gs. exists {| g_name := g_name g; g_body := g_body g; g_props := ps |}. repeat split. cbn. unfold same_module, hash_of. cbn. rewrite Nat.eqb_refl. destruct (list_eq_dec Nat.eq_dec (g_body g) (g_body g)); [reflexivity|contradiction].
Qed.
Example C303_ex : module_of [{| g_name := 1; g_body := [2]; g_props := [] |}] {| g_name := 1; g_body := [2]; g_props := [(3, chain_at [])] |} = Some {| g_name := 1; g_body := [2]; g_props := [] |}.
Proof. reflexivity. Qed.
(* C304: the statement for failures of a value assertion is run when it fails; C305 (false): that of a property assertion too *)
Lemma assert_one : forall ts a b, assert_text ts a -> assert_text ts b -> a = b.
Proof. intros ts a b A B. destruct A; inversion B; reflexivity. Qed.
Theorem C304_value : forall v s, assert_text (assert_value v (Some s)) (Fail s) /\ (forall a, assert_text (assert_value v (Some s)) a -> a = Fail s) /\ assert_text (assert_value v None) NoAction.
Proof. intros v s. split; [constructor|]. split; [|constructor]. intros a A. eapply assert_one; [exact A|constructor]. Qed.
Theorem C305_property_refuted : forall n s a, assert_text (assert_property n (Some s)) a -> a = Pass s.
Proof. intros n s a A. eapply assert_one; [exact A|constructor]. Qed.
Example C305_ex : assert_text (assert_property 1 (Some 2)) (Pass 2) /\ assert_text (assert_value 1 (Some 2)) (Fail 2).
Proof. split; constructor. Qed.
Print Assumptions C294_text.
Print Assumptions C295_built.
Print Assumptions C296_stale_refuted.
Print Assumptions C297_range_refuted.
Print Assumptions C298_clock.
Print Assumptions C299_one_clock_refuted.
Print Assumptions C300_no_clock_refuted.
Print Assumptions C301_instances_refuted.
Print Assumptions C302_properties.
Print Assumptions C303_shared_refuted.
Print Assumptions C304_value.
Print Assumptions C305_property_refuted.
