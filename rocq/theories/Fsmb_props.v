(* C334-C344: building and drawing state machines. *)
From Coq Require Import Permutation.
From Verif Require Import Base IR Fsm_spec Fsm_model Fsm_proofs Fsmb_model.
Local Open Scope string_scope.
Local Open Scope nat_scope.
Local Open Scope list_scope.

(* every move of a state of the machine stays in the machine: so it is for a machine that is not in another one (C338) *)
Definition closed (F : family) (f : nat) : Prop :=
  forall s c t, member F f s -> In (c, t) (f_next (fam_state F s)) -> nested F f (f_fsm (fam_state F t)).
Definition distinct_handles (F : family) (f : nat) : Prop :=
  forall a b, member F f a -> member F f b -> handle F a = handle F b -> a = b.

Lemma bfsx_bfs F f : wf_family F -> closed F f -> forall fuel q vis, (forall s, In s q -> member F f s) ->
  bfsx F f fuel q vis vis = bfs F f fuel q vis.
Proof.
  intros W C. induction fuel as [|n IH]; intros q vis M; [now destruct q|]. destruct q as [|s q]; trivial. cbn [bfsx bfs].
  destruct (mem s vis); [apply IH; intros x I; apply M; now right|].
  assert (IN : forall t, In t (map snd (f_next (fam_state F s))) -> up_to F (fam_fsms F) f (f_fsm (fam_state F t)) = true).
  { intros t I. apply in_map_iff in I. destruct I as [[c t'] [<- I]]. apply (up_iff F f _ W). apply (C s c t'); trivial. apply M. now left. }
  assert (E : filter (fun t => negb (up_to F (fam_fsms F) f (f_fsm (fam_state F t)))) (map snd (f_next (fam_state F s))) = []).
  { induction (map snd (f_next (fam_state F s))) as [|t l IHl]; trivial. cbn [filter]. rewrite IN by now left. cbn. apply IHl. intros x I. apply IN. now right. }
  rewrite E. apply IH. intros x I. apply in_app_iff in I. destruct I as [I|I]; [apply M; now right|].
  apply filter_In in I. destruct I as [I U]. apply in_map_iff in I. destruct I as [[c t'] [<- I]].
  apply (me_next F f s c t'); trivial; [apply M; now left | now apply (up_iff F f _ W)].
Qed.
Lemma drawn_states F f : wf_family F -> closed F f -> drawn F f = all_states F f.
Proof.
  intros W C. unfold drawn, all_states. apply bfsx_bfs; trivial. intros s I. apply own_in in I. now apply me_own.
Qed.
Lemma nodup_map_in {A B} (g : A -> B) l : NoDup l -> (forall a b, In a l -> In b l -> g a = g b -> a = b) -> NoDup (map g l).
Proof.
  induction 1 as [|x l NI ND IH]; intros J; cbn; constructor.
  - intros I. apply in_map_iff in I. destruct I as [y [E I]]. apply NI. assert (EE : x = y) by (apply J; [now left | now right | now symmetry]). now rewrite EE.
  - apply IH. intros; apply J; trivial; now right.
Qed.

Lemma NoDup_app_snoc {A} (l : list A) x : NoDup l -> ~ In x l -> NoDup (l ++ [x]).
Proof. intros ND NI. apply (Permutation_NoDup (Permutation_cons_append l x)). now constructor. Qed.
(* C334 *)
Theorem C334_circles F f start : wf_family F -> closed F f -> distinct_handles F f -> (forall t, start = Some t -> member F f t) ->
  NoDup (map snd (nodes F f start)) /\
  (forall x, In x (map snd (nodes F f start)) <-> exists s, member F f s /\ x = handle F s) /\
  (forall x, In (true, x) (nodes F f start) <-> exists t, start = Some t /\ x = handle F t).
Proof.
  intros W C D ST. unfold nodes. rewrite drawn_states by trivial. destruct (states_spec F f W) as [ND [IN _]].
  assert (INJ : forall a b, In a (all_states F f) -> In b (all_states F f) -> handle F a = handle F b -> a = b)
    by (intros a b A B; apply D; now apply IN).
  assert (FALSE : forall l x, In (true, x) (map (fun s => (false, handle F s)) l) -> False).
  { intros l x I. apply in_map_iff in I. destruct I as [s [E _]]. discriminate. }
  destruct start as [t|].
  - specialize (ST t eq_refl). cbn [map snd]. rewrite map_map. cbn [snd]. split; [|split].
    + constructor.
      * intros I. apply in_map_iff in I. destruct I as [s [E I]]. apply filter_In in I. destruct I as [_ I]. rewrite E, String.eqb_refl in I. discriminate.
      * apply nodup_map_in; [now apply NoDup_filter|]. intros a b A B. apply filter_In in A, B. now apply INJ.
    + intros x. cbn. split.
      * intros [<- | I]; [now exists t|]. apply in_map_iff in I. destruct I as [s [<- I]]. apply filter_In in I. exists s. split; trivial. now apply IN.
      * intros [s [M ->]]. destruct (String.eqb (handle F s) (handle F t)) eqn:E; [left; symmetry; now apply String.eqb_eq|].
        right. apply in_map_iff. exists s. split; trivial. apply filter_In. split; [now apply IN | now rewrite E].
    + intros x. cbn. split.
      * intros [E | I]; [inversion E; now exists t | now destruct (FALSE _ _ I)].
      * intros [u [E ->]]. inversion E. now left.
  - rewrite map_map. cbn [snd]. split; [|split].
    + apply nodup_map_in; trivial.
    + intros x. rewrite in_map_iff. split; [intros [s [<- I]]; exists s; split; trivial; now apply IN | intros [s [M ->]]; exists s; split; trivial; now apply IN].
    + intros x. split; [intros I; now destruct (FALSE _ _ I) | intros [t [E _]]; discriminate].
Qed.
Definition source (a : arrow) : string := fst (fst a).
Lemma filter_flat F s l : NoDup l -> (forall a b, In a l -> In b l -> handle F a = handle F b -> a = b) -> In s l ->
  filter (fun a => String.eqb (source a) (handle F s)) (flat_map (arrows_of F) l) = arrows_of F s.
Proof.
  assert (FA : forall t, filter (fun a => String.eqb (source a) (handle F s)) (arrows_of F t) = if String.eqb (handle F t) (handle F s) then arrows_of F t else []).
  { intros t. unfold arrows_of. induction (f_next (fam_state F t)) as [|ct r IH]; cbn [map filter source fst]; [now destruct (String.eqb _ _)|].
    unfold source in *. cbn [fst]. destruct (String.eqb (handle F t) (handle F s)); [now rewrite IH | exact IH]. }
  assert (NONE : forall l, (forall t, In t l -> handle F t <> handle F s) -> filter (fun a => String.eqb (source a) (handle F s)) (flat_map (arrows_of F) l) = []).
  { clear l. induction l as [|t l IH]; intros N; trivial. cbn [flat_map]. rewrite filter_app, FA, IH by (intros u I; apply N; now right).
    destruct (String.eqb_spec (handle F t) (handle F s)); trivial. exfalso. apply (N t); trivial. now left. }
  induction 1 as [|x l NI ND IH]; intros J I; [destruct I|]. cbn [flat_map]. rewrite filter_app, FA. destruct (String.eqb_spec (handle F x) (handle F s)) as [E|E].
  - assert (x = s) by (apply J; trivial; now left). subst x. rewrite NONE; [apply app_nil_r|].
    intros t T H. apply NI. assert (EE : s = t) by (apply J; [now left | now right | now symmetry]). now rewrite EE.
  - destruct I as [-> | I]; [now destruct E|]. cbn. apply IH; trivial. intros; apply J; trivial; now right.
Qed.
Theorem C334_arrows F f : wf_family F -> closed F f -> distinct_handles F f ->
  (forall s, member F f s -> filter (fun a => String.eqb (source a) (handle F s)) (arrows F f) = arrows_of F s) /\
  (forall a, In a (arrows F f) -> exists s, member F f s /\ In a (arrows_of F s)).
Proof.
  intros W C D. unfold arrows. rewrite drawn_states by trivial. destruct (states_spec F f W) as [ND [IN _]]. split.
  - intros s M. apply filter_flat; trivial; [|now apply IN]. intros a b A B. apply D; now apply IN.
  - intros a I. apply in_flat_map in I. destruct I as [s [S I]]. exists s. split; trivial. now apply IN.
Qed.

(* two machines: 1 is in 0.  State 0 "p" is of 0; states 1 "x" and 2 "y" of 1 both go to it *)
Definition st (g : nat) (n : string) (nx : list (option expr * nat)) : fstate := {| f_fsm := g; f_name := n; f_next := nx; f_out := [] |}.
Definition two (a : string) (b : string) (c : string) : family :=
  {| fam_n := 3; fam_state := fun s => match s with 0 => st 0 a [(None, 1)] | 1 => st 1 b [(Some (EVar 5), 2); (None, 0)] | 2 => st 1 c [(None, 0)] | _ => st 9 "" [] end;
     fam_fsms := 2; fam_parent := fun g => match g with 1 => Some 0 | _ => None end; fam_name := fun g => match g with 0 => "m" | 1 => "k" | _ => "" end;
     fam_outs := fun _ => [] |}.
Lemma two_wf a b c : wf_family (two a b c).
Proof.
  split; [|split; [|split; [|split]]].
  - intros s d t H. apply (in_map snd) in H. destruct s as [|[|[|s]]]; cbn in *; intuition lia.
  - exists (fun g => match g with 1 => 1 | _ => 0 end). intros [|[|g]]; cbn; split; try lia; intros p E; inversion E; subst; lia.
  - intros [|[|g]] p E; inversion E; cbn; lia.
  - intros [|[|[|s]]]; constructor.
  - intros g. constructor.
Qed.
Lemma two_closed a b c : closed (two a b c) 0.
Proof.
  intros s d t _ H. assert (t < 3) by (apply (in_map snd) in H; destruct s as [|[|[|s]]]; cbn in *; intuition lia).
  destruct t as [|[|[|t]]]; try lia; cbn; [constructor | |]; apply (ne_up _ _ _ 0); trivial; constructor.
Qed.
Example C334_ex : wf_family (two "p" "x" "y") /\ closed (two "p" "x" "y") 0 /\
  nodes (two "p" "x" "y") 0 (Some 0) = [(true, "p"); (false, "k_x"); (false, "k_y")]%string /\
  arrows (two "p" "x" "y") 0 = [("p", None, "k_x"); ("k_x", Some (EVar 5), "k_y"); ("k_x", None, "p"); ("k_y", None, "p")]%string.
Proof. split; [apply two_wf|]. split; [apply two_closed|]. split; vm_compute; reflexivity. Qed.
(* C335: the machine inside *)
Theorem C335_inner_machine_refuted :
  ~ (forall F f, wf_family F -> (forall a b, a < fam_n F -> b < fam_n F -> handle F a = handle F b -> a = b) ->
       NoDup (map snd (nodes F f None)) /\ (forall s, In s (drawn F f) -> filter (fun a => String.eqb (source a) (handle F s)) (arrows F f) = arrows_of F s)).
Proof.
  intros H. destruct (H (two "p" "x" "y") 1 (two_wf _ _ _)) as [ND _].
  - intros a b A B. cbn in A, B. destruct a as [|[|[|a]]], b as [|[|[|b]]]; try lia; try reflexivity; intros E; vm_compute in E; discriminate.
  - assert (E : map snd (nodes (two "p" "x" "y") 1 None) = ["k_x"; "p"; "k_y"; "p"]%string) by (vm_compute; reflexivity). rewrite E in ND.
    inversion ND as [|? ? _ ND1]; subst. inversion ND1 as [|? ? NI _]; subst. apply NI. right. now left.
Qed.

(* C336: names of states *)
Definition plain (n : string) : Prop := ~ In "_"%char (list_ascii_of_string n).
Fixpoint joinu (l : list string) : string := match l with [] => "" | [n] => n | n :: r => (n ++ "_" ++ joinu r)%string end.
Lemma plain_split a : forall b x y, plain a -> plain b -> (a ++ "_" ++ x)%string = (b ++ "_" ++ y)%string -> a = b /\ x = y.
Proof.
  induction a as [|c a IH]; intros b x y PA PB E; destruct b as [|d b]; cbn in E.
  - inversion E. now split.
  - inversion E; subst. exfalso. apply PB. now left.
  - inversion E; subst. exfalso. apply PA. now left.
  - inversion E as [[CD E']]. subst d. destruct (IH b x y) as [-> ->]; trivial; [intros I; apply PA; now right | intros I; apply PB; now right | now split].
Qed.
Lemma plain_whole a : forall b y, plain a -> a <> (b ++ "_" ++ y)%string.
Proof.
  induction a as [|c a IH]; intros b y PA E; destruct b as [|d b]; cbn in E; try discriminate.
  - inversion E; subst. apply PA. now left.
  - inversion E; subst. apply (IH b y); trivial. intros I. apply PA. now right.
Qed.
Lemma joinu_inj l : forall m, l <> [] -> m <> [] -> Forall plain l -> Forall plain m -> joinu l = joinu m -> l = m.
Proof.
  induction l as [|a l IH]; intros m NL NM FL FM E; [now destruct NL|]. destruct m as [|b m]; [now destruct NM|].
  inversion FL as [|? ? PA FL']; inversion FM as [|? ? PB FM']; subst. destruct l as [|a' l], m as [|b' m].
  - cbn in E. now subst.
  - cbn [joinu] in E. exfalso. now apply (plain_whole _ _ _ PA E).
  - cbn [joinu] in E. exfalso. symmetry in E. now apply (plain_whole _ _ _ PB E).
  - change ((a ++ "_" ++ joinu (a' :: l))%string = (b ++ "_" ++ joinu (b' :: m))%string) in E.
    destruct (plain_split _ _ _ _ PA PB E) as [-> E']. f_equal. apply IH; trivial; discriminate.
Qed.
Fixpoint chain (F : family) (fuel g : nat) : list string :=
  match fuel with O => [] | S n => match fam_parent F g with None => [] | Some p => chain F n p ++ [fam_name F g] end end.
Lemma joinu_last l : forall n x, joinu (l ++ [n; x]) = joinu (l ++ [(n ++ "_" ++ x)%string]).
Proof.
  induction l as [|a l IH]; intros n x; trivial. cbn [app]. specialize (IH n x).
  destruct l as [|b l]; [reflexivity|]. cbn [app] in *. change ((a ++ "_" ++ joinu (b :: l ++ [n; x]))%string = (a ++ "_" ++ joinu (b :: l ++ [(n ++ "_" ++ x)%string]))%string).
  now rewrite IH.
Qed.
Lemma handle_chain F fuel : forall g acc, handle_from F fuel g acc = joinu (chain F fuel g ++ [acc]).
Proof.
  induction fuel as [|n IH]; intros g acc; trivial. cbn [handle_from chain]. destruct (fam_parent F g) as [p|]; trivial.
  rewrite IH, <- app_assoc. cbn [app]. now rewrite joinu_last.
Qed.
Lemma chain_plain F fuel : (forall g, plain (fam_name F g)) -> forall g, Forall plain (chain F fuel g).
Proof.
  intros P. induction fuel as [|n IH]; intros g; [constructor|]. cbn [chain]. destruct (fam_parent F g); [|constructor].
  apply Forall_app. split; trivial. now repeat constructor.
Qed.
Lemma member_nested F f s : member F f s -> nested F f (f_fsm (fam_state F s)).
Proof. destruct 1 as [s L E|s c t M I N]; [rewrite E; constructor | trivial]. Qed.
Lemma member_lt F f s : wf_family F -> member F f s -> s < fam_n F.
Proof. intros W M. apply (states_spec F f W). now apply (states_spec F f W). Qed.
Theorem C336_handles F f : wf_family F -> fam_parent F f = None ->
  (forall g h, fam_name F g = fam_name F h -> g = h) -> (forall g, plain (fam_name F g)) -> (forall s, plain (name_of F s)) ->
  (forall a b, a < fam_n F -> b < fam_n F -> f_fsm (fam_state F a) = f_fsm (fam_state F b) -> name_of F a = name_of F b -> a = b) ->
  distinct_handles F f.
Proof.
  intros W R GI GP SP SN a b A B E. unfold handle in E. rewrite !handle_chain in E.
  apply joinu_inj in E; try (intros X; apply app_eq_nil in X; now destruct X); try (apply Forall_app; split; [now apply chain_plain | now repeat constructor]).
  apply app_inj_tail in E. destruct E as [EC EN]. apply SN; trivial; try (eapply member_lt; eassumption).
  pose proof (member_nested _ _ _ A) as NA. pose proof (member_nested _ _ _ B) as NB.
  set (g := f_fsm (fam_state F a)) in *. set (h := f_fsm (fam_state F b)) in *.
  assert (FU : forall x p, fam_parent F x = Some p -> exists n, fam_fsms F = S n).
  { intros x p P. destruct W as [_ [_ [W _]]]. specialize (W _ _ P). destruct (fam_fsms F); [lia | now eexists]. }
  assert (ROOT : forall x, nested F f x -> fam_parent F x = None -> x = f) by (intros x N P; destruct N; congruence).
  destruct (fam_parent F g) as [p|] eqn:PG.
  - destruct (FU _ _ PG) as [n FN]. rewrite FN in EC. cbn [chain] in EC. rewrite PG in EC.
    destruct (fam_parent F h) as [q|]; [|destruct (chain F n p); discriminate].
    apply app_inj_tail in EC. apply GI. apply EC.
  - destruct (fam_parent F h) as [q|] eqn:PH.
    + destruct (FU _ _ PH) as [n FN]. rewrite FN in EC. cbn [chain] in EC. rewrite PG, PH in EC. destruct (chain F n q); discriminate.
    + rewrite (ROOT g), (ROOT h); trivial.
Qed.
Example C336_ex : map (handle (two "p" "x" "p")) [0; 1; 2] = ["p"; "k_x"; "k_p"]%string /\ plain "k" /\ plain "p".
Proof. split; [vm_compute; reflexivity|]. split; intros [E | []]; discriminate. Qed.
(* C337: names with an underscore *)
Theorem C337_underscore_refuted :
  ~ (forall F f, wf_family F -> fam_parent F f = None ->
       (forall a b, a < fam_n F -> b < fam_n F -> f_fsm (fam_state F a) = f_fsm (fam_state F b) -> name_of F a = name_of F b -> a = b) ->
       distinct_handles F f).
Proof.
  intros H. assert (0 = 1); [|discriminate]. apply (H (two "k_x" "x" "y") 0 (two_wf _ _ _) eq_refl).
  - intros a b A B. cbn in A, B. destruct a as [|[|[|a]]], b as [|[|[|b]]]; try lia; try reflexivity; intros E; vm_compute in E; try discriminate; intros G; vm_compute in G; discriminate.
  - apply me_own; cbn; trivial; lia.
  - apply (me_next _ _ 0 None 1); [apply me_own; cbn; trivial; lia | now left | cbn; apply (ne_up _ _ _ 0); trivial; constructor].
  - vm_compute. reflexivity.
Qed.

(* C338: the moves of a state are the accepted calls in their order *)
Section Next.
Context (n : nat) (fsm_of : nat -> nat) (one_bit : nat -> bool) (w : nest).
Definition is_none (c : option nat) : bool := match c with None => true | _ => false end.
Inductive above : nat -> nat -> Prop := ab_self g : above g g | ab_up g p r : w_parent w g = Some p -> above p r -> above g r.
Lemma root_above fuel : forall g r, root_of w fuel g = Ok r -> above g r /\ w_parent w r = None.
Proof.
  induction fuel as [|k IH]; intros g r H; cbn in H; destruct (w_parent w g) as [p|] eqn:P; try discriminate.
  - inversion H; subst. split; trivial. constructor.
  - destruct (IH _ _ H). split; trivial. eapply ab_up; eassumption.
  - inversion H; subst. split; trivial. constructor.
Qed.
Lemma climb_above fuel : forall r g, climb w fuel r g = Ok true -> above g r.
Proof.
  induction fuel as [|k IH]; intros r g H; cbn in H; destruct (Nat.eqb_spec g r); try (subst; constructor); destruct (w_parent w g) as [p|] eqn:P; try discriminate.
  eapply ab_up; [eassumption | now apply IH].
Qed.
(* two machines in one outermost machine *)
Definition together (g h : nat) : Prop := exists r, w_parent w r = None /\ above g r /\ above h r.
(* the moves of a state: conditions are different, of one bit, and come before moves without a condition *)
Definition in_order (l : list (option nat * nat)) : Prop :=
  exists cs us, l = cs ++ us /\ NoDup (map fst cs) /\ (forall x, In x cs -> exists c, fst x = Some c /\ one_bit c = true) /\ (forall x, In x us -> fst x = None).
Lemma has_false c l : has c l = false -> forall x, In x l -> fst x <> c.
Proof.
  intros H x I E. assert (has c l = true); [|congruence]. apply existsb_exists. exists x. split; trivial. rewrite E. destruct c; cbn; trivial. apply Nat.eqb_refl.
Qed.
Lemma next_spec m k m' : next n fsm_of one_bit w m k = Ok m' -> (forall s, in_order (m s)) ->
  (forall s, m' s = if Nat.eqb s (k_from k) then m s ++ [(k_cond k, k_to k)] else m s) /\ (forall s, in_order (m' s)) /\
  together (fsm_of (k_from k)) (fsm_of (k_to k)).
Proof.
  unfold next. destruct (root_of w n (fsm_of (k_from k))) as [r| |] eqn:R; cbn [obind]; try discriminate.
  destruct (climb w n r (fsm_of (k_to k))) as [b| |] eqn:B; cbn [obind]; try discriminate.
  destruct b; cbn [negb]; [|discriminate]. intros H O.
  assert (TG : together (fsm_of (k_from k)) (fsm_of (k_to k))).
  { destruct (root_above _ _ _ R) as [A P]. exists r. split; trivial. split; trivial. now apply (climb_above n). }
  assert (ALL : forall m0, Ok m0 = Ok m' -> (forall s, m0 s = if Nat.eqb s (k_from k) then m s ++ [(k_cond k, k_to k)] else m s) ->
            in_order (m (k_from k) ++ [(k_cond k, k_to k)]) ->
            (forall s, m' s = if Nat.eqb s (k_from k) then m s ++ [(k_cond k, k_to k)] else m s) /\ (forall s, in_order (m' s)) /\ together (fsm_of (k_from k)) (fsm_of (k_to k))).
  { intros m0 E S IO. inversion E; subst. split; trivial. split; trivial. intros s. rewrite S. destruct (Nat.eqb_spec s (k_from k)); [now subst | trivial]. }
  destruct (k_cond k) as [c|] eqn:KC.
  - destruct (has None (m (k_from k))) eqn:HN; [discriminate|]. destruct (one_bit c) eqn:OB; cbn [negb] in H; [|discriminate].
    destruct (has (Some c) (m (k_from k))) eqn:HC; [discriminate|]. eapply ALL; [exact H | reflexivity|].
    destruct (O (k_from k)) as [cs [us [E [ND [CS US]]]]].
    assert (us = []). { destruct us as [|u us]; trivial. exfalso. apply (has_false _ _ HN u); [rewrite E; apply in_app_iff; right; now left | apply US; now left]. }
    subst us. rewrite app_nil_r in E. rewrite E in *. exists (cs ++ [(Some c, k_to k)]), []. rewrite app_nil_r. split; trivial. split; [|split; [|intros x []]].
    + rewrite map_app. cbn. apply NoDup_app_snoc; trivial. intros I. apply in_map_iff in I. destruct I as [x [EX I]]. now apply (has_false _ _ HC x).
    + intros x I. apply in_app_iff in I. destruct I as [I | [<- | []]]; [now apply CS|]. now exists c.
  - eapply ALL; [exact H | reflexivity|]. destruct (O (k_from k)) as [cs [us [E [ND [CS US]]]]].
    exists cs, (us ++ [(None, k_to k)]). split; [rewrite E; now rewrite app_assoc|]. split; trivial. split; trivial.
    intros x I. apply in_app_iff in I. destruct I as [I | [<- | []]]; [now apply US | reflexivity].
Qed.
Definition calls_of (s : nat) (l : list call) : list (option nat * nat) := map (fun k => (k_cond k, k_to k)) (filter (fun k => Nat.eqb s (k_from k)) l).
Lemma nexts_spec l : forall m m', nexts n fsm_of one_bit w m l = Ok m' -> (forall s, in_order (m s)) ->
  (forall s, m' s = m s ++ calls_of s l) /\ (forall s, in_order (m' s)) /\ Forall (fun k => together (fsm_of (k_from k)) (fsm_of (k_to k))) l.
Proof.
  induction l as [|k l IH]; intros m m' H O; cbn [nexts] in H.
  - inversion H; subst. split; [intros s; symmetry; apply app_nil_r|]. split; trivial.
  - destruct (next n fsm_of one_bit w m k) as [m1| |] eqn:N; cbn [obind] in H; try discriminate.
    destruct (next_spec _ _ _ N O) as [S [O1 T]]. destruct (IH _ _ H O1) as [S2 [O2 T2]]. split; [|split; trivial; now constructor].
    intros s. rewrite S2, S. unfold calls_of. cbn [filter]. destruct (Nat.eqb s (k_from k)); trivial. cbn [map]. now rewrite <- app_assoc.
Qed.
Theorem C338_moves l m : nexts n fsm_of one_bit w (fun _ => []) l = Ok m ->
  (forall s, m s = calls_of s l) /\ (forall s, in_order (m s)) /\ Forall (fun k => together (fsm_of (k_from k)) (fsm_of (k_to k))) l.
Proof.
  intros H. destruct (nexts_spec l _ _ H) as [S R]; [intros s; exists [], []; now repeat constructor|]. split; [exact S | exact R].
Qed.
End Next.
Example C338_ex : exists m, nexts 3 (fun s => s) (fun c => Nat.eqb c 7 || Nat.eqb c 8) (add_child no_nest (0, 1)) (fun _ => [])
    [{| k_from := 0; k_to := 1; k_cond := Some 7 |}; {| k_from := 1; k_to := 0; k_cond := None |}; {| k_from := 0; k_to := 0; k_cond := Some 8 |}; {| k_from := 0; k_to := 1; k_cond := None |}] = Ok m /\
    m 0 = [(Some 7, 1); (Some 8, 0); (None, 1)] /\ m 1 = [(None, 0)].
Proof. eexists. split; [reflexivity|]. split; reflexivity. Qed.
Example C338_refused :
  let nx := next 3 (fun s => s) (fun c => Nat.eqb c 7) (add_child no_nest (0, 1)) in
  nx (fun _ => []) {| k_from := 0; k_to := 2; k_cond := None |} = Throw /\
  nx (fun _ => []) {| k_from := 0; k_to := 1; k_cond := Some 9 |} = Throw /\
  nx (fun _ => [(None, 0)]) {| k_from := 0; k_to := 1; k_cond := Some 7 |} = Throw /\
  nx (fun _ => [(Some 7, 0)]) {| k_from := 0; k_to := 1; k_cond := Some 7 |} = Throw.
Proof. repeat split. Qed.

(* C339: machines in machines *)
Definition build (l : list (nat * nat)) : nest := fold_left add_child l no_nest.
Lemma mem_in_iff x l : mem x l = true <-> In x l.
Proof. apply mem_in. Qed.
Lemma build_spec l : NoDup (map snd l) -> forall p c, (w_parent (build l) c = Some p <-> In (p, c) l) /\ (In c (w_kids (build l) p) <-> In (p, c) l).
Proof.
  unfold build. induction l as [|[q d] l IH] using rev_ind; intros ND p c; [cbn; split; split; easy|].
  rewrite map_app in ND. cbn in ND. apply NoDup_remove in ND. rewrite app_nil_r in ND. destruct ND as [ND NI].
  rewrite fold_left_app. cbn [fold_left add_child w_parent w_kids]. destruct (IH ND p c) as [P K]. rewrite in_app_iff. cbn [In]. split.
  - destruct (Nat.eqb_spec c d) as [->|D].
    + split; [intros E; inversion E; subst; right; now left|]. intros [I | [E | []]]; [destruct NI; apply in_map_iff; now exists (p, d)|]. now inversion E.
    + rewrite P. split; [auto|]. intros [I | [E | []]]; trivial. inversion E; now subst.
  - destruct (Nat.eqb_spec p q) as [->|D].
    + destruct (mem d _) eqn:M.
      * rewrite K. split; [auto|]. intros [I | [E | []]]; trivial. inversion E; subst. apply mem_in_iff in M. destruct (IH ND q c) as [_ K']. now apply K'.
      * rewrite in_app_iff, K. cbn [In]. split; [intros [I | [E | []]]; [now left | subst; right; now left]|]. intros [I | [E | []]]; [now left | inversion E; subst; right; now left].
    + rewrite K. split; [auto|]. intros [I | [E | []]]; trivial. inversion E; now subst.
Qed.
Theorem C339_nested l p c : NoDup (map snd l) -> (In c (w_kids (build l) p) <-> w_parent (build l) c = Some p) /\ (w_parent (build l) c = Some p <-> In (p, c) l).
Proof. intros ND. destruct (build_spec l ND p c) as [P K]. split; [now rewrite P, K | trivial]. Qed.
Example C339_ex : w_kids (build [(0, 1); (0, 2); (1, 3)]) 0 = [1; 2] /\ w_parent (build [(0, 1); (0, 2); (1, 3)]) 3 = Some 1.
Proof. split; reflexivity. Qed.
(* C340: a machine that is added again *)
Theorem C340_added_again_refuted : ~ (forall l p c, In c (w_kids (build l) p) -> w_parent (build l) c = Some p).
Proof. intros H. specialize (H [(0, 2); (1, 2)] 0 2 (or_introl eq_refl)). discriminate. Qed.
(* C341: a machine in itself.  From any state of such machines, next does not end *)
Lemma loop_root w fuel : forall g, (forall h, (h = 0 \/ h = 1) -> exists p, w_parent w h = Some p /\ (p = 0 \/ p = 1)) -> (g = 0 \/ g = 1) -> root_of w fuel g = UB.
Proof.
  induction fuel as [|k IH]; intros g C G; destruct (C g G) as [p [P PP]]; cbn; rewrite P; trivial. now apply IH.
Qed.
Theorem C341_cycle_refuted n fsm_of one_bit m k : fsm_of (k_from k) = 0 \/ fsm_of (k_from k) = 1 ->
  next n fsm_of one_bit (build [(0, 1); (1, 0)]) m k = UB.
Proof.
  intros G. unfold next. rewrite loop_root; trivial. intros h [-> | ->]; cbn; eexists; split; trivial; [now right | now left].
Qed.

(* C342 *)
Lemma add_states_spec ns : forall l l', add_states l ns = Ok l' -> NoDup l -> l' = l ++ ns /\ NoDup l'.
Proof.
  induction ns as [|a ns IH]; intros l l' H ND; cbn [add_states] in H.
  - inversion H; subst. rewrite app_nil_r. now split.
  - unfold add_state in H. destruct (existsb (String.eqb a) l) eqn:E; cbn [obind] in H; [discriminate|].
    assert (NI : ~ In a l). { intros I. assert (existsb (String.eqb a) l = true); [apply existsb_exists; exists a; split; trivial; apply String.eqb_refl | congruence]. }
    destruct (IH _ _ H) as [-> ND']; [now apply NoDup_app_snoc|]. split; trivial. now rewrite <- app_assoc.
Qed.
Lemma get_from_spec l : forall i j a, NoDup l -> nth_error l j = Some a -> get_from i l a = Ok (i + j).
Proof.
  induction l as [|x l IH]; intros i j a ND N; [destruct j; discriminate|]. inversion ND as [|? ? NI ND']; subst. cbn [get_from]. destruct j as [|j]; cbn in N.
  - inversion N; subst. rewrite String.eqb_refl. f_equal. lia.
  - destruct (String.eqb_spec x a) as [->|D]; [destruct NI; eapply nth_error_In; eassumption|]. rewrite (IH (S i) j a); trivial. f_equal. lia.
Qed.
Theorem C342_states ns l : add_states [] ns = Ok l -> l = ns /\ NoDup ns /\ (forall j a, nth_error ns j = Some a -> get_state l a = Ok j) /\ (forall a, ~ In a ns -> get_state l a = Throw).
Proof.
  intros H. destruct (add_states_spec _ _ _ H (NoDup_nil _)) as [E ND]. cbn in E. subst l. split; trivial. split; trivial. split.
  - intros j a N. unfold get_state. now rewrite (get_from_spec ns 0 j a).
  - intros a NI. unfold get_state. clear - NI. generalize 0. induction ns as [|x ns IH]; intros i; trivial. cbn. destruct (String.eqb_spec x a) as [->|D]; [destruct NI; now left|].
    apply IH. intros I. apply NI. now right.
Qed.
Theorem C342_refused ns a : In a ns -> add_states [] (ns ++ [a]) = Throw.
Proof.
  intros I. destruct (add_states [] (ns ++ [a])) as [l| |] eqn:E; trivial.
  - destruct (C342_states _ _ E) as [_ [ND _]]. apply NoDup_remove_2 in ND. destruct ND. now rewrite app_nil_r.
  - exfalso. revert E. generalize (ns ++ [a]). generalize (@nil string). clear. intros m l. revert m. induction l as [|x l IH]; intros m; cbn; [discriminate|].
    unfold add_state. destruct (existsb _ m); cbn; [discriminate|]. apply IH.
Qed.
Example C342_ex : add_states [] ["a"; "b"]%string = Ok ["a"; "b"]%string /\ get_state ["a"; "b"]%string "b"%string = Ok 1 /\ add_states [] ["a"; "a"]%string = Throw.
Proof. repeat split. Qed.

(* C343: the table of outputs *)
Lemma insert_out_perm nm x l : Permutation (insert_out nm x l) (x :: l).
Proof. induction l as [|y l IH]; cbn; trivial. destruct (String.leb _ _); trivial. rewrite IH. apply perm_swap. Qed.
Lemma header_perm nm F f : Permutation (header nm F f) (map fst (fam_outs F f)).
Proof. unfold header. induction (map fst (fam_outs F f)) as [|x l IH]; cbn; trivial. rewrite insert_out_perm. now constructor. Qed.
Lemma row_spec outs vals : forall r, row outs vals = Ok r -> List.length r = List.length outs /\ forall i x, nth_error outs i = Some x -> nth_error r i = assoc x vals.
Proof.
  induction outs as [|y outs IH]; intros r H; cbn [row] in H.
  - inversion H; subst. split; trivial. intros [|i] x E; discriminate.
  - destruct (assoc y vals) as [v|] eqn:A; [|discriminate]. destruct (row outs vals) as [t| |]; cbn [obind] in H; try discriminate. inversion H; subst.
    destruct (IH t eq_refl) as [L N]. split; [cbn; congruence|]. intros [|i] x E; cbn in E |- *; [inversion E; subst; now symmetry | now apply N].
Qed.
Lemma row_ok outs vals : (forall x, In x outs -> assoc x vals <> None) -> exists r, row outs vals = Ok r.
Proof.
  induction outs as [|y outs IH]; intros C; cbn [row]; [now eexists|]. destruct (assoc y vals) as [v|] eqn:A; [|exfalso; apply (C y); trivial; now left].
  destruct IH as [r ->]; [intros x I; apply C; now right|]. now eexists.
Qed.
Lemma rows_spec F outs l : forall t, rows F outs l = Ok t -> map fst t = map (name_of F) l /\
  forall i s, nth_error l i = Some s -> exists r, nth_error t i = Some (name_of F s, r) /\ row outs (f_out (fam_state F s)) = Ok r.
Proof.
  induction l as [|s l IH]; intros t H; cbn [rows] in H.
  - inversion H; subst. split; trivial. intros [|i] s E; discriminate.
  - destruct (row outs (f_out (fam_state F s))) as [r| |] eqn:R; cbn [obind] in H; try discriminate.
    destruct (rows F outs l) as [u| |]; cbn [obind] in H; try discriminate. inversion H; subst. destruct (IH u eq_refl) as [M N].
    split; [cbn; congruence|]. intros [|i] q E; cbn in E |- *; [inversion E; subst; now exists r | now apply N].
Qed.
(* a row for every state, a column for every output, and in them the value given *)
Theorem C343_table nm F f h t : output_table nm F f = Ok (h, t) ->
  Permutation h (map fst (fam_outs F f)) /\ map fst t = map (name_of F) (own F f) /\
  forall i j s x, nth_error (own F f) i = Some s -> nth_error h j = Some x ->
    exists r v, nth_error t i = Some (name_of F s, r) /\ nth_error r j = Some v /\ assoc x (f_out (fam_state F s)) = Some v.
Proof.
  unfold output_table. destruct (rows F (header nm F f) (own F f)) as [u| |] eqn:R; cbn [obind]; try discriminate. intros H; inversion H; subst.
  destruct (rows_spec _ _ _ _ R) as [M N]. split; [apply header_perm|]. split; trivial. intros i j s x I J.
  destruct (N _ _ I) as [r [T RW]]. destruct (row_spec _ _ _ RW) as [L V]. specialize (V _ _ J). exists r.
  assert (j < List.length r) by (rewrite L; apply nth_error_Some; congruence). destruct (nth_error r j) as [v|] eqn:NJ; [|apply nth_error_None in NJ; lia].
  exists v. split; trivial. split; trivial. now symmetry.
Qed.
Theorem C343_available nm F f : (forall s x, In s (own F f) -> In x (map fst (fam_outs F f)) -> assoc x (f_out (fam_state F s)) <> None) ->
  exists h t, output_table nm F f = Ok (h, t).
Proof.
  intros C. unfold output_table.
  assert (R : exists t, rows F (header nm F f) (own F f) = Ok t); [|destruct R as [t ->]; now do 2 eexists].
  induction (own F f) as [|s l IH]; cbn [rows]; [now eexists|].
  destruct (row_ok (header nm F f) (f_out (fam_state F s))) as [r ->].
  { intros x I. apply C; [now left|]. apply (Permutation_in _ (header_perm nm F f)); trivial. }
  destruct IH as [t ->]; [intros q x I; apply C; now right|]. now eexists.
Qed.
Definition outs (d : option expr) (o : list (var * option expr)) : family :=
  {| fam_n := 1; fam_state := fun _ => {| f_fsm := 0; f_name := "a"; f_next := []; f_out := o |}; fam_fsms := 1; fam_parent := fun _ => None; fam_name := fun _ => "m";
     fam_outs := fun _ => [(3, d); (2, None)] |}.
Example C343_ex : output_table (fun x => match x with 3 => "p" | _ => "q" end)%string (outs None [(2, Some (EVar 8)); (3, Some (EVar 9))]) 0 =
  Ok ([3; 2], [("a"%string, [Some (EVar 9); Some (EVar 8)])]).
Proof. vm_compute. reflexivity. Qed.
(* C344: an output with a default value *)
Theorem C344_default_refuted :
  ~ (forall nm F f, wf_family F -> (forall s x, In s (own F f) -> In x (map fst (fam_outs F f)) -> declared F s x <> None) -> exists h t, output_table nm F f = Ok (h, t)).
Proof.
  intros H. destruct (H (fun _ => ""%string) (outs (Some (EVar 9)) [(2, Some (EVar 8))]) 0) as [h [t E]].
  - split; [intros s c t []|]. split; [exists (fun _ => 0); intros g; split; [cbn; lia | discriminate]|]. split; [discriminate|].
    split; intros; cbn; repeat constructor; cbn; intuition discriminate.
  - intros s x _ [<- | [<- | []]]; cbn; discriminate.
  - vm_compute in E. discriminate.
Qed.
Print Assumptions C334_circles.
Print Assumptions C334_arrows.
Print Assumptions C335_inner_machine_refuted.
Print Assumptions C336_handles.
Print Assumptions C337_underscore_refuted.
Print Assumptions C338_moves.
Print Assumptions C339_nested.
Print Assumptions C340_added_again_refuted.
Print Assumptions C341_cycle_refuted.
Print Assumptions C342_states.
Print Assumptions C342_refused.
Print Assumptions C343_table.
Print Assumptions C343_available.
Print Assumptions C344_default_refuted.
