From Coq Require Import Lia.
From Verif Require Import Base Evt_spec Evt_model Evt_proofs.
Local Open Scope Z_scope.
Local Open Scope list_scope.

(* C487: the event information has every event that is not in an external generator, with its name, transaction, actions and fields,
   and says that it is combinational unless it is in a sequential block of its generator. *)
Theorem C487_info : forall top i, In i (extract_event_info top) <->
  exists p e, inside top p e /\ (i_combinational i = false <-> clocked p)
    /\ i_name i = e_name e /\ i_transaction i = e_transaction e /\ i_type i = e_action e /\ i_fields i = e_fields e /\ i_stmt i = e.
Proof.
  intros top i. unfold extract_event_info. rewrite visit_in. split.
  - intros (p & e & H & ->). exists p, e. rewrite app_nil_r. split; [exact H|]. split; [apply combinational_clocked|]. repeat split.
  - intros (p & e & H & C & N & T & A & F & St). exists p, e. split; [exact H|]. rewrite app_nil_r.
    destruct i as [n t c a f s]. cbn in *. subst. unfold add_info. f_equal.
    pose proof (combinational_clocked p) as Q. destruct c, (combinational (rev (map up_of p))); try reflexivity.
    + exfalso. assert (X : true = false) by (apply C, Q; reflexivity). discriminate X.
    + exfalso. assert (X : true = false) by (apply Q, C; reflexivity). discriminate X.
Qed.
(* ... once each, as they are written *)
Theorem C487_once : forall top, map i_stmt (extract_event_info top) = events top.
Proof. intros top. apply visit_events. Qed.

(* C488: an event starts and ends a transaction if it was ever said to, belongs to the last that was named, and keeps its name and fields. *)
Theorem C488_said : forall name fields l, let e := build name fields l in
  (Z.testbit (e_action e) 0 = true <-> exists t, In (Starts t) l)
  /\ (Z.testbit (e_action e) 1 = true <-> exists t, In (Terminates t) l)
  /\ (forall k, 2 <= k -> Z.testbit (e_action e) k = false)
  /\ e_name e = name /\ e_fields e = fields.
Proof.
  intros name fields l. cbv zeta. unfold build. induction l as [|s l (A & B & C & N & F)] using rev_ind.
  - cbn [fold_left fire e_action e_name e_fields]. rewrite !Z.testbit_0_l. split; [split; [discriminate|intros (t & [])]|]. split; [split; [discriminate|intros (t & [])]|].
    split; [intros k _; apply Z.testbit_0_l|split; reflexivity].
  - rewrite fold_left_app. cbn [fold_left]. destruct (say_frame (fold_left say l (fire name fields)) s) as (Fn & Ff).
    rewrite Fn, Ff. rewrite !say_action. rewrite !Bool.orb_true_iff, A, B. split; [|split; [|split]].
    + split.
      * intros [(t & H)|H]; [exists t; apply in_or_app; left; exact H|]. destruct s as [t|t|t|f v]; try discriminate H. exists t. apply in_or_app. right. left. reflexivity.
      * intros (t & H). apply in_app_or in H. destruct H as [H|[->|[]]]; [left; exists t; exact H|right; reflexivity].
    + split.
      * intros [(t & H)|H]; [exists t; apply in_or_app; left; exact H|]. destruct s as [t|t|t|f v]; try discriminate H. exists t. apply in_or_app. right. left. reflexivity.
      * intros (t & H). apply in_app_or in H. destruct H as [H|[->|[]]]; [left; exists t; exact H|right; reflexivity].
    + intros k Hk. rewrite say_action, (C k Hk).
      assert (X : forall a, 0 <= a < 4 -> Z.testbit a k = false).
      { intros a Ha. destruct (Z.eq_dec a 0) as [->|Na]; [apply Z.testbit_0_l|]. apply Z.bits_above_log2; [lia|].
        assert (Z.log2 a < 2) by (apply Z.log2_lt_pow2; [lia|]; change (2 ^ 2) with 4; lia). lia. }
      destruct s; try reflexivity; apply X; lia.
    + split; [exact N|exact F].
Qed.
Theorem C488_transaction : forall name fields l, e_transaction (build name fields l) =
  match flat_map (fun s => match names s with Some t => [t] | None => [] end) (rev l) with t :: _ => t | [] => ""%string end.
Proof.
  intros name fields l. unfold build. induction l as [|s l IH] using rev_ind; [reflexivity|].
  rewrite fold_left_app, rev_app_distr. cbn [fold_left rev app flat_map]. rewrite say_transaction, IH. destruct (names s); reflexivity.
Qed.

(* C489: a field is matched by the value it was first given, and a later one is lost. *)
Theorem C489_match_refuted :
  (forall name fields l f, matched (build name fields l) f =
     match flat_map (fun s => match s with Matches g v => if String.eqb f g then [v] else [] | _ => [] end) l with v :: _ => Some v | [] => None end)
  /\ ~ (forall name fields l f v, matched (build name fields (l ++ [Matches f v])) f = Some v).
Proof.
  assert (A : forall name fields l f, matched (build name fields l) f =
     match flat_map (fun s => match s with Matches g v => if String.eqb f g then [v] else [] | _ => [] end) l with v :: _ => Some v | [] => None end).
  { intros name fields l f. unfold build. induction l as [|s l IH] using rev_ind; [reflexivity|].
    rewrite fold_left_app, flat_map_app. cbn [fold_left flat_map]. rewrite say_matched, IH. rewrite app_nil_r.
    destruct (flat_map _ l) as [|v r]; [|reflexivity]. cbn [app]. destruct s as [t|t|t|g v]; try reflexivity. destruct (String.eqb f g); reflexivity. }
  split; [exact A|]. intros H. specialize (H "e"%string [] [Matches "f"%string 1%nat] "f"%string 2%nat). rewrite A in H. discriminate H.
Qed.

Definition ev (n : string) : event := build n [("x"%string, 3%nat)] [Starts (Some "t"%string)].
Definition design : node :=
  Gen false [Blk true [Stm [Blk false [Ev (ev "a")]]]; Blk false [Stm [Blk false [Ev (ev "b")]; Blk false []]]; Gen false [Ev (ev "c")]; Gen true [Ev (ev "d")]].
Example C487_ex : map (fun i => (i_name i, i_combinational i)) (extract_event_info design) = [("a"%string, false); ("b"%string, true); ("c"%string, true)]
  /\ inside design [InGenerator; InSequential; InStatement; InBlock] (ev "a").
Proof.
  split; [reflexivity|]. apply I_gen with (m := Blk true [Stm [Blk false [Ev (ev "a")]]]); [left; reflexivity|].
  apply I_seq with (m := Stm [Blk false [Ev (ev "a")]]); [left; reflexivity|].
  apply I_stm with (m := Blk false [Ev (ev "a")]); [left; reflexivity|]. apply I_blk with (m := Ev (ev "a")); [left; reflexivity|constructor].
Qed.
Example C488_ex : build "e" [] [Starts (Some "t"%string); Terminates None; Belongs "u"] = {| e_name := "e"; e_transaction := "u"; e_action := 3; e_fields := []; e_matches := [] |}.
Proof. reflexivity. Qed.
Print Assumptions C487_info.
Print Assumptions C487_once.
Print Assumptions C488_said.
Print Assumptions C488_transaction.
Print Assumptions C489_match_refuted.
