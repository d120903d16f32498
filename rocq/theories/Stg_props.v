(* Theorems about the graph of statements: C418 - C419. *)
From Coq Require Import List Arith ZArith Lia.
From Verif Require Import Base Stg_model.
Import ListNotations.
Local Open Scope nat_scope.

(* statement c is in statement s, at some depth *)
Inductive inside (g : stmts) (s : nat) : nat -> Prop :=
  | inside_child c : In c (g s) -> inside g s c
  | inside_deep c d : In c (g s) -> inside g c d -> inside g s d.
(* all statements in s, one entry for each place *)
Fixpoint places (fuel : nat) (g : stmts) (s : nat) : list nat := match fuel with O => [] | S f => flat_map (fun c => c :: places f g c) (g s) end.
(* nothing is in itself: the statements inside have a lower rank *)
Definition ranked (g : stmts) (rank : nat -> nat) : Prop := forall s c, In c (g s) -> rank c < rank s.

Lemma known_spec s l : known s l = true <-> In s l.
Proof. unfold known. rewrite existsb_exists. split; [intros (x & I & E); apply Nat.eqb_eq in E; subst; exact I|intros I; exists s; split; [exact I|apply Nat.eqb_refl]]. Qed.
Lemma places_spec g rank : ranked g rank -> forall fuel s x, rank s < fuel -> (In x (places fuel g s) <-> inside g s x).
Proof.
  intros R. induction fuel as [|f IH]; intros s x L; [lia|]. cbn [places]. rewrite in_flat_map. split.
  - intros (c & I & [<-|J]); [now constructor|]. apply IH in J; [now apply inside_deep with c|]. specialize (R s c I). lia.
  - intros H. inversion H as [c I|c d I J]; subst; [exists x; split; [exact I|now left]|]. exists c. split; [exact I|right]. apply IH; [specialize (R s c I); lia|exact J].
Qed.
Lemma not_nodup_app (a b c : list nat) : ~ NoDup (a ++ b) -> ~ NoDup (a ++ b ++ c).
Proof. intros N H. apply N. rewrite app_assoc in H. revert H. generalize (a ++ b). clear. intros l. induction l as [|x l IH]; intros H; [constructor|]. cbn in H. inversion H as [|? ? H1 H2]; subst. constructor; [intros I; apply H1, in_or_app; left; exact I|apply IH, H2]. Qed.
Definition outcome_of (l : list nat) (o : outcome (list nat)) : Prop := (NoDup l /\ o = Ok l) \/ (~ NoDup l /\ o = Throw).
Lemma add_ok g rank : ranked g rank -> forall fuel s nodes, rank s < fuel -> NoDup nodes -> outcome_of (nodes ++ places fuel g s) (add_stmt_child fuel g s nodes).
Proof.
  intros R. induction fuel as [|f IH]; intros s nodes L N; [lia|]. cbn [add_stmt_child places].
  assert (W : forall c, In c (g s) -> rank c < f) by (intros c I; specialize (R s c I); lia).
  revert nodes N W. induction (g s) as [|c l IHl]; intros nodes N W.
  - left. cbn. rewrite app_nil_r. split; trivial.
  - cbn [flat_map app]. destruct (known c nodes) eqn:K.
    + right. split; [|reflexivity]. intros H. apply NoDup_remove_2 in H. apply H, in_or_app. left. apply known_spec, K.
    + assert (N1 : NoDup (nodes ++ [c])).
      { apply (NoDup_Add (a := c) (l := nodes)); [rewrite <- (app_nil_r nodes) at 1; apply Add_app|]. split; [exact N|]. intros I. apply known_spec in I. congruence. }
      destruct (IH c (nodes ++ [c]) (W c (or_introl eq_refl)) N1) as [[N2 ->]|[N2 ->]]; cbn [obind].
      * rewrite <- app_assoc in N2 |- *. cbn [app] in N2 |- *.
        replace (nodes ++ c :: places f g c ++ flat_map (fun x => x :: places f g x) l) with ((nodes ++ c :: places f g c) ++ flat_map (fun x => x :: places f g x) l) by (rewrite <- app_assoc; reflexivity).
        apply IHl; [exact N2|]. intros x I. apply W. right; exact I.
      * right. split; [|reflexivity]. rewrite <- app_assoc in N2. cbn [app] in N2.
        change (nodes ++ c :: places f g c ++ flat_map (fun x => x :: places f g x) l) with (nodes ++ (c :: places f g c) ++ flat_map (fun x => x :: places f g x) l).
        apply not_nodup_app, N2.
Qed.
Lemma build_ok g rank : ranked g rank -> forall fuel tops nodes, (forall t, In t tops -> rank t < fuel) -> NoDup nodes ->
  outcome_of (nodes ++ flat_map (places fuel g) tops) (build_graph fuel g tops nodes).
Proof.
  intros R fuel. induction tops as [|t l IH]; intros nodes L N; cbn [build_graph flat_map].
  - left. rewrite app_nil_r. split; trivial.
  - destruct (add_ok g rank R fuel t nodes (L t (or_introl eq_refl)) N) as [[N1 ->]|[N1 ->]]; cbn [obind].
    + rewrite app_assoc. apply IH; [intros x I; apply L; right; exact I|exact N1].
    + right. split; [apply not_nodup_app, N1|reflexivity].
Qed.
(* a statement that is nowhere twice: the line of every statement inside another one is moved once by the offset, and if there is a
   statement at two places the graph is rejected *)
Theorem C418_lines : forall g rank fuel tops lines offset,
  ranked g rank -> (forall t, In t tops -> rank t < fuel) ->
  (NoDup (flat_map (places fuel g) tops) ->
     exists new, fix_verilog_ln fuel g tops true lines offset = Ok new /\
       (forall t s, In t tops -> inside g t s -> new s = u32 (lines s + offset)) /\
       (forall s, (forall t, In t tops -> ~ inside g t s) -> new s = lines s)) /\
  (~ NoDup (flat_map (places fuel g) tops) -> fix_verilog_ln fuel g tops true lines offset = Throw) /\
  fix_verilog_ln fuel g tops false lines offset = Ok lines.
Proof.
  intros g rank fuel tops lines offset R L. destruct (build_ok g rank R fuel tops [] L (NoDup_nil _)) as [[N E]|[N E]]; cbn [app] in N, E.
  - split; [|split; [intros H; contradiction|reflexivity]]. intros _. unfold fix_verilog_ln. cbn [negb]. rewrite E. cbn [obind].
    eexists. split; [reflexivity|]. split.
    + intros t s I J. assert (K : known s (flat_map (places fuel g) tops) = true).
      { apply known_spec, in_flat_map. exists t. split; [exact I|]. apply (places_spec g rank R); [apply L, I|exact J]. }
      rewrite K. reflexivity.
    + intros s H. destruct (known s (flat_map (places fuel g) tops)) eqn:K; [|reflexivity].
      apply known_spec, in_flat_map in K. destruct K as (t & I & J). exfalso. apply (H t I). apply (places_spec g rank R) in J; [exact J|apply L, I].
  - split; [intros H; contradiction|]. split; [|reflexivity]. intros _. unfold fix_verilog_ln. cbn [negb]. rewrite E. reflexivity.
Qed.
Definition ex_stmts : stmts := fun s => match s with 0 => [2; 3] | 2 => [4] | 1 => [5] | _ => [] end.
Example C418_ex : ranked ex_stmts (fun s => 9 - s) /\ NoDup (flat_map (places 10 ex_stmts) [0; 1]) /\
  match fix_verilog_ln 10 ex_stmts [0; 1] true (fun _ => 7%Z) 3 with Ok f => map f [0; 1; 2; 3; 4; 5] = [7; 7; 10; 10; 10; 10]%Z | _ => False end.
Proof.
  split; [|split; [repeat constructor; cbn; intuition discriminate|reflexivity]].
  intros s c I. unfold ex_stmts in I. destruct s as [|[|[|s]]]; cbn in I; intuition; subst; lia.
Qed.

(* the statements directly in the generator keep their old lines, whatever the design *)
Theorem C419_top_refuted :
  (forall g rank fuel tops lines offset new t, ranked g rank -> (forall t, In t tops -> rank t < fuel) -> In t tops ->
     (forall u, In u tops -> ~ inside g u t) -> fix_verilog_ln fuel g tops true lines offset = Ok new -> new t = lines t) /\
  ~ (forall g rank fuel tops lines offset new t, ranked g rank -> (forall t, In t tops -> rank t < fuel) -> In t tops ->
     fix_verilog_ln fuel g tops true lines offset = Ok new -> new t = u32 (lines t + offset)).
Proof.
  split.
  - intros g rank fuel tops lines offset new t R L I H E. destruct (C418_lines g rank fuel tops lines offset R L) as (A & B & _).
    destruct (build_ok g rank R fuel tops [] L (NoDup_nil _)) as [[N _]|[N _]]; cbn [app] in N.
    + destruct (A N) as (new' & E' & _ & K). assert (new = new') by congruence. subst. apply K, H.
    + rewrite (B N) in E. discriminate.
  - intros H. destruct C418_ex as (R & _ & _). destruct (fix_verilog_ln 10 ex_stmts [0; 1] true (fun _ => 7%Z) 3) as [new| |] eqn:E; try discriminate.
    assert (L : forall t, In t [0; 1] -> 9 - t < 10) by (intros t _; lia).
    assert (Q := H ex_stmts (fun s => 9 - s) 10 [0; 1] (fun _ => 7%Z) 3%Z new 0 R L (or_introl eq_refl) E).
    vm_compute in E. assert (E2 := f_equal (fun o => match o with Ok f => f 0 | _ => 0%Z end) E). vm_compute in E2. rewrite <- E2 in Q. vm_compute in Q. discriminate.
Qed.
Example C419_ex : forall u, In u [0; 1] -> ~ inside ex_stmts u 0.
Proof. intros u _ H. assert (R := proj1 C418_ex). assert (K : forall s x, inside ex_stmts s x -> x <> 0).
  { intros s x J. induction J as [s c I|s c d I J IH]; [|exact IH]. intros ->. destruct s as [|[|[|s]]]; cbn in I; intuition discriminate. }
  exact (K u 0 H eq_refl). Qed.
Print Assumptions C418_lines.
Print Assumptions C419_top_refuted.
