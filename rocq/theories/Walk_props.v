From Verif Require Import Base Walk_spec Walk_model Walk_proofs.
Local Open Scope list_scope.

(* C521: where the visit of a child changes nothing before it (it may take out, replace, split or add from there on), every child that is there when the
   walk ends was visited, and none twice. *)
Theorem C521_visited : forall e fuel l tr k, onwards e -> visit_root e fuel l = Some (tr, k) -> NoDup tr /\ forall x, In x k -> In x tr.
Proof. intros e fuel l tr k O H. apply (walk_seen onwards e O (onwards_step e O) fuel [] l 0); [intros x []|constructor|exact H]. Qed.
(* ... where it only takes out the child or some after it, the walk ends, with both kinds of visits; the visits are in the order of the children. *)
Theorem C521_removing : forall e l fuel, removing e -> NoDup l -> (length l < fuel)%nat -> exists tr k,
  visit_root e fuel l = Some (tr, k) /\ visit_root_s e fuel l = Some (tr, k) /\ sublist tr l /\ sublist k l /\ forall x, In x k -> In x tr.
Proof.
  intros e l fuel R Nd L. destruct (walk_removing false e R fuel [] l 0 Nd ltac:(lia) ltac:(lia) ltac:(intros x _ []) ltac:(intros x [])) as (v & k & H1 & H2 & H3 & H4).
  exists v, k. split; [exact H1|]. split; [|split; [exact H2|split; [exact H3|exact H4]]].
  unfold visit_root_s. rewrite <- (walk_same e R fuel [] l 0 Nd ltac:(intros x _ [])). exact H1.
Qed.
Example C521_ex : let e : effect := fun _ c l => if Nat.eqb c 2 then filter (fun x => negb (Nat.eqb x 2)) l else if Nat.eqb c 5 then flat_map (fun x => if Nat.eqb x 5 then [7; 8] else [x])%nat l else l in
  visit_root e 20 [1; 2; 5; 3]%nat = Some ([1; 2; 5; 7; 8; 3], [1; 7; 8; 3])%nat.
Proof. reflexivity. Qed.
Example C521_ex_removing : let e : effect := fun _ c l => if Nat.eqb c 2 then filter (fun x => negb (Nat.eqb x 2)) l else l in
  visit_root e 20 [1; 2; 5; 3]%nat = Some ([1; 2; 5; 3], [1; 5; 3])%nat /\ removing e.
Proof.
  split; [reflexivity|]. intros tr c pre post Nc. destruct (Nat.eqb_spec c 2) as [->|]; [|exists (c :: post); split; [apply sub_refl|reflexivity]].
  exists (filter (fun x => negb (Nat.eqb x 2)) post). split.
  - apply S_drop. induction post as [|a l IH]; cbn [filter]; [constructor|]. destruct (negb _); constructor; exact IH.
  - rewrite filter_app. cbn [filter Nat.eqb negb]. f_equal. clear -Nc. induction pre as [|a l IH]; [reflexivity|]. cbn [filter]. rewrite IH by (intros X; apply Nc; right; exact X).
    destruct (Nat.eqb_spec a 2) as [->|]; [exfalso; apply Nc; left; reflexivity|reflexivity].
Qed.

(* C522: a visit that takes out one child before it does no harm; one that takes out two makes the walk miss a child that is still there. *)
Theorem C522_before_refuted :
  (forall e fuel l tr k, one_before e -> visit_root e fuel l = Some (tr, k) -> NoDup tr /\ forall x, In x k -> In x tr)
  /\ ~ (forall e fuel l tr k, before e -> NoDup l -> visit_root e fuel l = Some (tr, k) -> forall x, In x k -> In x tr).
Proof.
  split; [intros e fuel l tr k O H; apply (walk_seen one_before e O (one_before_step e O) fuel [] l 0); [intros x []|constructor|exact H]|].
  intros H. specialize (H (fun _ c l => if Nat.eqb c 3 then drop_before 3 l else l) 9%nat [1; 2; 3; 4]%nat [1; 2; 3]%nat [3; 4]%nat).
  assert (K : In 4%nat [1; 2; 3]%nat).
  { apply H; [|repeat constructor; cbn; intuition discriminate|reflexivity|right; left; reflexivity]. intros tr c pre post Nc. destruct (Nat.eqb_spec c 3) as [->|]; [|exists pre; split; [apply sub_refl|reflexivity]].
    exists []. split; [apply sub_nil_l|]. apply drop_before_app, Nc. }
  cbn in K. intuition discriminate.
Qed.
Example C522_ex : visit_root (fun _ c l => if Nat.eqb c 3 then drop_before 3 l else l) 9 [1; 2; 3; 4]%nat = Some ([1; 2; 3], [3; 4])%nat.
Proof. reflexivity. Qed.

(* C523: a walk that does not remember what it visited visits a child again if its visit adds one before it, and does not end if every visit does so. *)
Theorem C523_again_refuted :
  ~ (forall e fuel l tr k, onwards e -> NoDup l -> visit_root_s e fuel l = Some (tr, k) -> NoDup tr)
  /\ (exists e, onwards e /\ forall fuel, visit_root_s e fuel [1]%nat = None)
  /\ exists e, onwards e /\ visit_root e 4 [1]%nat = Some ([1; 9], [9; 1])%nat.
Proof.
  split; [|split].
  - intros H. specialize (H (fun tr c l => match tr with [] => if Nat.eqb c 1 then put_before 1 9 l else l | _ => l end) 9%nat [1]%nat [1; 9; 1]%nat [9; 1]%nat).
    assert (K : NoDup [1; 9; 1]%nat).
    { apply H; [|repeat constructor; intros []|reflexivity]. intros tr c pre post Nc. destruct tr; [destruct (Nat.eqb_spec c 1) as [->|]; [apply put_self; exact Nc|]|]; exists (c :: post); reflexivity. }
    inversion K as [|x m Hx _]; subst. apply Hx. right. left. reflexivity.
  - exists (fun tr c l => if Nat.eqb c 1 then put_before 1 9 l else l). split.
    + intros tr c pre post Nc. destruct (Nat.eqb_spec c 1) as [->|]; [apply put_self; exact Nc|exists (c :: post); reflexivity].
    + intros fuel. apply (put_forever fuel [] 0).
  - exists (fun tr c l => if Nat.eqb c 1 then put_before 1 9 l else l). split; [|reflexivity].
    intros tr c pre post Nc. destruct (Nat.eqb_spec c 1) as [->|]; [apply put_self; exact Nc|exists (c :: post); reflexivity].
Qed.
Example C523_ex : visit_root_s (fun tr c l => match tr with [] => if Nat.eqb c 1 then put_before 1 9 l else l | _ => l end) 9 [1; 2]%nat = Some ([1; 9; 1; 2], [9; 1; 2])%nat.
Proof. reflexivity. Qed.
Print Assumptions C521_visited.
Print Assumptions C521_removing.
Print Assumptions C522_before_refuted.
Print Assumptions C523_again_refuted.
