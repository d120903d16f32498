(* C376-C382 *)
From Coq Require Import Lia.
From Verif Require Import Base Syn_model.
Local Open Scope string_scope.
Local Open Scope list_scope.

(* what is found by asking nodes for their children again and again *)
Inductive reach (g : graph) : nat -> nat -> Prop :=
  | r_here n : reach g n n
  | r_child n c m : In c (children g n) -> reach g c m -> reach g n m.
Lemma seen_in n l : seen n l = true <-> In n l.
Proof.
  unfold seen. rewrite existsb_exists. split; [intros [x [I E]]; apply Nat.eqb_eq in E; now subst|]. intros I. exists n. split; trivial. apply Nat.eqb_refl.
Qed.
Lemma NoDup_app_split {A} (l m : list A) : NoDup l -> NoDup m -> (forall x, In x l -> ~ In x m) -> NoDup (l ++ m).
Proof.
  induction l as [|a l IH]; intros H1 H2 H; trivial. inversion H1; subst. cbn. constructor.
  - rewrite in_app_iff. intros [I|I]; [contradiction|]. apply (H a); trivial. now left.
  - apply IH; trivial. intros x I. apply H. now right.
Qed.
Section Visit.
  Variables (g : graph) (all : list nat).
  Hypothesis closed : forall n c, In c (children g n) -> In c all.
  Definition left_over (v : list nat) : nat := List.length (filter (fun n => negb (seen n v)) all).
  Lemma left_mono v v' : (forall x, In x v -> In x v') -> left_over v' <= left_over v.
  Proof.
    intros H. unfold left_over. clear closed. induction all as [|n l IH]; cbn [filter]; [lia|]. destruct (seen n v') eqn:E'; destruct (seen n v) eqn:E; cbn [negb List.length]; try lia.
    apply seen_in in E. apply H, seen_in in E. congruence.
  Qed.
  Lemma left_less v n : In n all -> ~ In n v -> S (left_over (n :: v)) <= left_over v.
  Proof.
    intros I N. unfold left_over. clear closed. induction all as [|m l IH]; [destruct I|]. cbn [filter].
    assert (Q : seen m (n :: v) = Nat.eqb m n || seen m v) by reflexivity. rewrite Q. destruct (Nat.eqb_spec m n) as [->|D]; cbn [orb].
    - assert (seen n v = false) as -> by (destruct (seen n v) eqn:E; trivial; apply seen_in in E; contradiction). cbn [negb List.length]. apply le_n_S.
      clear. induction l as [|m l IH]; [apply le_n|]. cbn [filter]. assert (Q : seen m (n :: v) = Nat.eqb m n || seen m v) by reflexivity. rewrite Q.
      destruct (Nat.eqb m n), (seen m v); cbn [negb orb List.length]; lia.
    - destruct I as [->|I]; [now destruct D|]. specialize (IH I). destruct (seen m v); cbn [negb orb List.length]; lia.
  Qed.
  (* done v v' o: from v on, the nodes o were accepted, and v' are known *)
  Record step (n : nat) (v : list nat) (o : list nat) (v' : list nat) (o' : list nat) : Prop := {
    s_out : exists new, o' = o ++ n :: new /\ NoDup new /\ (forall x, In x new <-> In x v' /\ ~ In x v) /\ (forall x, In x new -> reach g n x);
    s_mono : forall x, In x v -> In x v';
    s_done : forall x c, x = n \/ (In x v' /\ ~ In x v) -> In c (children g x) -> In c v' }.
  Lemma visit_ok fuel : forall n v o, left_over v < fuel -> let r := visit fuel g n (v, o) in step n v o (fst r) (snd r).
  Proof.
    induction fuel as [|f IH]; intros n v o L; [lia|]. cbn [visit fst snd].
    assert (G : forall cs v1 o1 new, (forall c, In c cs -> In c (children g n)) -> (forall x, In x v -> In x v1) -> o1 = o ++ n :: new -> NoDup new ->
      (forall x, In x new <-> In x v1 /\ ~ In x v) -> (forall x, In x new -> reach g n x) -> (forall x c, In x v1 -> ~ In x v -> In c (children g x) -> In c v1) ->
      (forall c, In c (children g n) -> In c cs \/ In c v1) ->
      let r := fold_left (fun vo c => if seen c (fst vo) then vo else visit f g c (c :: fst vo, snd vo)) cs (v1, o1) in step n v o (fst r) (snd r)).
    { induction cs as [|c cs IHc]; intros v1 o1 new HC M EO ND RG RC D A; cbn [fold_left fst snd].
      - constructor; trivial.
        + exists new. repeat split; trivial; apply RG; trivial.
        + intros x c [->|[X1 X2]] Hc; [destruct (A c Hc) as [[]|B]; exact B|now apply (D x)].
      - destruct (seen c v1) eqn:SC.
        + apply seen_in in SC. apply (IHc v1 o1 new); trivial; [intros d Hd; apply HC; now right|]. intros d Hd. destruct (A d Hd) as [[<-|B]|B]; auto.
        + assert (NC : ~ In c v1) by (intros I; apply seen_in in I; congruence).
          assert (CC : In c (children g n)) by (apply HC; now left).
          assert (LC : left_over (c :: v1) < f). { pose proof (left_less v1 c (closed _ _ CC) NC). pose proof (left_mono v v1 M). lia. }
          pose proof (IH c (c :: v1) o1 LC) as [[new2 [E2 [ND2 [R2 RR2]]]] M2 D2]. destruct (visit f g c (c :: v1, o1)) as [v2 o2]. cbn [fst snd] in *.
          assert (CV2 : In c v2) by (apply M2; now left).
          apply (IHc v2 o2 (new ++ c :: new2)).
          * intros d Hd. apply HC. now right.
          * intros x X. apply M2. right. now apply M.
          * rewrite E2, EO, <- app_assoc. reflexivity.
          * apply NoDup_app_split; trivial.
            { constructor; trivial. intros I. apply R2 in I. apply I. now left. }
            { intros x X [<-|Y]; [apply RG in X; now apply NC|]. apply R2 in Y. apply Y. right. now apply RG. }
          * intros x. rewrite in_app_iff. cbn [In]. rewrite RG, R2. split.
            { intros [[X Y]|[<-|[X Y]]]; [split; trivial; apply M2; now right|split; trivial; intros I; apply NC, M, I|split; trivial; intros I; apply Y; right; now apply M]. }
            { intros [X Y]. destruct (in_dec Nat.eq_dec x v1) as [I|I]; [now left|right]. destruct (Nat.eq_dec c x) as [->|NE]; [now left|right]. split; trivial. intros [J|J]; contradiction. }
          * intros x X. apply in_app_iff in X. destruct X as [X|[<-|X]]; [now apply RC|apply (r_child g n c c CC), r_here|apply (r_child g n c x CC), RR2, X].
          * intros x d X Y Hd. destruct (in_dec Nat.eq_dec x v1) as [I|I]; [apply M2; right; now apply (D x)|].
            apply (D2 x d); trivial. destruct (Nat.eq_dec x c) as [->|NE]; [now left|right; split; trivial; intros [J|J]; [now destruct NE|contradiction]].
          * intros d Hd. destruct (A d Hd) as [[<-|B]|B]; [now right|now left|right; apply M2; now right]. }
    apply (G (children g n) v (o ++ [n]) []).
    - intros c I. exact I.
    - intros x I. exact I.
    - reflexivity.
    - constructor.
    - intros x. split; [intros []|intros [X Y]; contradiction].
    - intros x [].
    - intros x c X Y. contradiction.
    - intros c I. now left.
  Qed.
End Visit.

(* C376: the visitor is shown the root, and then once every node below it.  all is the finite IR *)
Theorem C376_visit g all fuel n : (forall m c, In c (children g m) -> In c all) -> List.length all < fuel ->
  exists below, visit_root fuel g n = n :: below /\ NoDup below /\ forall m, In m below <-> exists c, In c (children g n) /\ reach g c m.
Proof.
  intros C L. assert (L0 : left_over all [] < fuel). { unfold left_over. assert (E : filter (fun n => negb (seen n [])) all = all) by (clear; induction all as [|a l IH]; [reflexivity|cbn [filter seen existsb negb]; f_equal; exact IH]). now rewrite E. }
  pose proof (visit_ok g all C fuel n [] [] L0) as [[new [E [ND [R RR]]]] _ D]. unfold visit_root. exists new. split; [exact E|]. split; trivial. intros m. rewrite R. split.
  - intros [I _]. assert (J : In m new) by (apply R; split; auto).
    assert (K : forall x, reach g n x -> x = n \/ exists c, In c (children g n) /\ reach g c x) by (intros x X; inversion X; subst; [now left|right; now exists c]).
    destruct (K m (RR m J)) as [->|X]; trivial. clear K.
    (* a node that is its own descendant was found through a child *)
    assert (Q : forall fuel n v o, left_over all v < fuel -> forall x, In x (fst (visit fuel g n (v, o))) -> In x v \/ exists c, In c (children g n) /\ reach g c x).
    { clear - C. intros fuel. induction fuel as [|f IH]; intros n v o L x I; [lia|]. cbn [visit fst snd] in I.
      assert (G : forall cs v1 o1, (forall c, In c cs -> In c (children g n)) -> (forall x, In x v -> In x v1) -> (forall x, In x v1 -> In x v \/ exists c, In c (children g n) /\ reach g c x) ->
        In x (fst (fold_left (fun vo c => if seen c (fst vo) then vo else visit f g c (c :: fst vo, snd vo)) cs (v1, o1))) -> In x v \/ exists c, In c (children g n) /\ reach g c x).
      { induction cs as [|c cs IHc]; intros v1 o1 HC M H J; cbn [fold_left fst snd] in J; [now apply H|]. destruct (seen c v1) eqn:SC.
        - apply (IHc v1 o1); trivial. intros d Hd. apply HC. now right.
        - assert (NC : ~ In c v1) by (intros X; apply seen_in in X; congruence). assert (CC : In c (children g n)) by (apply HC; now left).
          assert (LC : left_over all (c :: v1) < f). { pose proof (left_less all v1 c (C _ _ CC) NC). pose proof (left_mono all v v1 M). lia. }
          pose proof (IH c (c :: v1) o1 LC) as IHv. pose proof (visit_ok g all C f c (c :: v1) o1 LC) as [_ M2 _]. destruct (visit f g c (c :: v1, o1)) as [v2 o2]. cbn [fst snd] in *.
          apply (IHc v2 o2); trivial; [intros d Hd; apply HC; now right|intros y Y; apply M2; right; now apply M|]. intros y Y. destruct (IHv y Y) as [[<-|Z]|[d [Hd Z]]].
          + right. exists c. split; trivial. constructor.
          + now apply H.
          + right. exists c. split; trivial. now apply (r_child g c d). }
      apply (G (children g n) v (o ++ [n])); auto. }
    destruct (Q fuel n [] [] L0 n I) as [[]|X]. exact X.
  - intros [c [Hc X]]. split; [|intros []]. set (v' := fst (visit fuel g n ([], []))) in *.
    assert (V : In c v') by (apply (D n c); [now left|trivial]). clear Hc. induction X as [x|x y z Hy _ IH]; trivial. apply IH. apply (D x y); trivial. right. split; trivial. intros [].
Qed.
(* a module with an assignment of an operator to a variable, and a function that returns a DPI call *)
Definition dpi : func := {| f_dpi := true; f_task := false; f_builtin := None |}.
Definition call (b : string) : func := {| f_dpi := false; f_task := false; f_builtin := Some b |}.
Definition sample (k1 k2 : kind) : graph := fun n => match n with
  | 0 => {| n_kind := Module false; n_parts := [1; 5] |} | 1 => {| n_kind := Assignment false; n_parts := [2; 3] |} | 3 => {| n_kind := Other; n_parts := [4; 4] |} | 4 => {| n_kind := k1; n_parts := [2] |}
  | 5 => {| n_kind := Other; n_parts := [6] |} | 6 => {| n_kind := k2; n_parts := [7] |} | 7 => {| n_kind := CallVar dpi; n_parts := [2] |} | _ => {| n_kind := Other; n_parts := [] |} end.
Example C376_ex : visit_root 9 (sample Other Ret) 0 = [0; 1; 2; 3; 4; 5; 6].
Proof. reflexivity. Qed.

(* what is in an external module, or in a call, a returned value, a cast or an index, is not visited for that; all else is *)
Theorem C376_parts g all fuel n : (forall m c, In c (children g m) -> In c all) -> List.length all < fuel ->
  (forall m, In m (visit_root fuel g n) -> m = n \/
     exists x, In x (visit_root fuel g n) /\ In m (n_parts (g x)) /\ n_kind (g x) <> Module true /\ (forall f, n_kind (g x) <> CallVar f /\ n_kind (g x) <> CallStmt f) /\
               n_kind (g x) <> Ret /\ n_kind (g x) <> Cast /\ n_kind (g x) <> Index) /\
  (forall x m, In x (visit_root fuel g n) -> In m (n_parts (g x)) ->
     (n_kind (g x) = Module false \/ n_kind (g x) = Other \/ n_kind (g x) = Initial \/ n_kind (g x) = Final \/ n_kind (g x) = Aux \/ (exists b, n_kind (g x) = Comb b) \/ exists d, n_kind (g x) = Assignment d) ->
     In m (visit_root fuel g n)).
Proof.
  intros C L. destruct (C376_visit g all fuel n C L) as (below & E & _ & R). rewrite E. split.
  - intros m [<-|I]; [left; reflexivity|right]. apply R in I. destruct I as (c & Ic & X).
    assert (Q : forall a b, reach g a b -> forall y, In y (n :: below) -> In a (children g y) -> (exists x, In x (n :: below) /\ In b (children g x))).
    { intros a b H. induction H as [a|a c' b J H IH]; intros y Iy K; [exists y; split; trivial|]. apply (IH a); [|exact J].
      destruct Iy as [<-|Iy]; right; apply R; [exists a; split; [exact K|constructor]|].
      apply R in Iy. destruct Iy as (c2 & I2 & X2). exists c2. split; [exact I2|].
      clear - X2 K. induction X2 as [z|z c3 z' J3 X3 IH3]; [apply (r_child g z a a); [exact K|constructor]|apply (r_child g z c3 a); [exact J3|apply IH3, K]]. }
    destruct (Q c m X n (or_introl eq_refl) Ic) as (x & Ix & Jx). exists x. split; [exact Ix|].
    unfold children in Jx. destruct (n_kind (g x)) as [[]| | | | | | | | | | |]; try (destruct Jx; fail); (split; [exact Jx|]); repeat split; discriminate.
  - intros x m Ix J K. right. apply R.
    assert (J' : In m (children g x)) by (unfold children; destruct K as [K|[K|[K|[K|[K|[[b K]|[b K]]]]]]]; rewrite K; exact J).
    destruct Ix as [<-|Ix]; [exists m; split; [exact J'|constructor]|]. apply R in Ix. destruct Ix as (c & I & X). exists c. split; [exact I|].
    clear - X J'. induction X as [z|z c z' H X IH]; [apply (r_child g z m m); [exact J'|constructor]|apply (r_child g z c m); [exact H|apply IH, J']].
Qed.

(* what has no counterpart in hardware *)
Definition simulation_only : list string := ["display"; "hgdb_assert_fail"; "finish"; "fopen"; "fclose"; "fscanf"; "urandom"; "random"].
Inductive not_hardware : kind -> Prop :=
  | nh_delay : not_hardware (Assignment true)
  | nh_initial : not_hardware Initial
  | nh_event : not_hardware Aux
  | nh_always : not_hardware (Comb true)
  | nh_dpi_var f : f_dpi f = true -> not_hardware (CallVar f)
  | nh_dpi_stmt f : f_dpi f = true -> not_hardware (CallStmt f)
  | nh_sys_var f b : f_builtin f = Some b -> In b simulation_only -> not_hardware (CallVar f)
  | nh_sys_stmt f b : f_builtin f = Some b -> In b simulation_only -> not_hardware (CallStmt f).
Lemma info_false b : In b simulation_only -> info b = Some false.
Proof. unfold simulation_only. intros H. cbn [In] in H. repeat (destruct H as [H|H]; [subst; reflexivity|]). destruct H. Qed.
Lemma not_hardware_bad k : not_hardware k -> bad k = true.
Proof.
  intros [| | | |f H|f H|f b H I|f b H I]; cbn [bad]; trivial.
  - now rewrite H.
  - now rewrite H.
  - unfold is_task. rewrite H. apply orb_true_r.
  - rewrite H, (info_false b I). now destruct (f_dpi f).
Qed.
Lemma check_throw g all fuel top : (forall m c, In c (children g m) -> In c all) -> List.length all < fuel -> check fuel g top = Throw <-> exists m, reach g top m /\ bad (n_kind (g m)) = true.
Proof.
  intros C L. unfold check. destruct (C376_visit g all fuel top C L) as [below [E [_ R]]]. rewrite E.
  assert (Q : forall m, In m (top :: below) <-> reach g top m). { intros m. cbn [In]. rewrite R. split; [intros [<-|[c [Hc X]]]; [constructor|now apply (r_child g top c)]|]. intros X. inversion X; subst; [now left|right; now exists c]. }
  destruct (filter (fun n => bad (n_kind (g n))) (top :: below)) as [|m l] eqn:F; split; try discriminate; trivial.
  - intros [m [X B]]. apply Q in X. assert (I : In m []) by (rewrite <- F; apply filter_In; now split). destruct I.
  - intros _. assert (I : In m (m :: l)) by now left. rewrite <- F in I. apply filter_In in I. exists m. split; [now apply Q|apply I].
Qed.
(* C377: a design that passes has none of it where children are found *)
Theorem C377_passed g all fuel top : (forall m c, In c (children g m) -> In c all) -> List.length all < fuel -> check fuel g top = Ok tt -> forall m, reach g top m -> ~ not_hardware (n_kind (g m)).
Proof.
  intros C L H m X B. assert (T : check fuel g top = Throw) by (apply (check_throw g all fuel top C L); exists m; split; trivial; now apply not_hardware_bad). congruence.
Qed.
Example C377_ex : check 9 (sample Other Ret) 0 = Ok tt /\ check 9 (sample (CallVar (call "random")) Ret) 0 = Throw.
Proof. split; reflexivity. Qed.
(* C378: nor is anything else rejected.  A built-in function in an expression always is *)
Theorem C378_builtin_refuted g all fuel top m f b : (forall m c, In c (children g m) -> In c all) -> List.length all < fuel -> reach g top m -> n_kind (g m) = CallVar f -> f_builtin f = Some b -> check fuel g top = Throw.
Proof.
  intros C L X K F. apply (check_throw g all fuel top C L). exists m. split; trivial. rewrite K. cbn [bad]. unfold is_task. rewrite F. apply orb_true_r.
Qed.
Example C378_ex : In ("clog2", true) builtins /\ check 9 (sample (CallVar (call "clog2")) Ret) 0 = Throw.
Proof. split; [now left|reflexivity]. Qed.
(* C379: final blocks.  A kind that is Final can be put everywhere *)
Theorem C379_final_refuted g g' all fuel top : (forall m c, In c (children g m) -> In c all) -> (forall m, children g' m = children g m) -> (forall m, n_kind (g' m) = n_kind (g m) \/ n_kind (g' m) = Final) ->
  List.length all < fuel -> check fuel g top = Ok tt -> check fuel g' top = Ok tt.
Proof.
  intros C E K L H. assert (C' : forall m c, In c (children g' m) -> In c all) by (intros m c; rewrite E; apply C).
  assert (Q : forall n m, reach g' n m -> reach g n m) by (intros n m X; induction X as [|n c m I X IH]; [constructor|rewrite E in I; now apply (r_child g n c)]).
  destruct (check fuel g' top) as [[]| |] eqn:T; trivial.
  - apply (check_throw g' all fuel top C' L) in T. destruct T as [m [X B]]. assert (T : check fuel g top = Throw); [|congruence]. apply (check_throw g all fuel top C L). exists m. split; [now apply Q|].
    destruct (K m) as [<-|F]; trivial. rewrite F in B. discriminate.
  - unfold check in T. now destruct (filter _ _).
Qed.
Example C379_ex : check 9 (sample Other Final) 0 = Throw /\ check 9 (fun n => if Nat.eqb n 5 then {| n_kind := Final; n_parts := [6] |} else sample Other Ret n) 0 = Ok tt.
Proof. split; reflexivity. Qed.
(* C380: what a returned value, an argument, the operand of a cast or an index is made of *)
Inductive part (g : graph) : nat -> nat -> Prop :=
  | p_here n : part g n n
  | p_in n c m : In c (n_parts (g n)) -> part g c m -> part g n m.
Theorem C380_hidden_refuted k : In k [Ret; Cast; Index] -> exists m, part (sample Other k) 0 m /\ not_hardware (n_kind (sample Other k m)) /\ check 9 (sample Other k) 0 = Ok tt.
Proof.
  intros I. exists 7. split; [apply (p_in _ 0 5); [right; now left|apply (p_in _ 5 6); [now left|apply (p_in _ 6 7); [now left|constructor]]]|]. split; [now constructor|].
  destruct I as [<-|[<-|[<-|[]]]]; reflexivity.
Qed.
(* C381: clocked blocks *)
Theorem C381_ff ifs : check_ff ifs = Throw <-> exists i j, i <> j /\ nth_error ifs i = Some true /\ nth_error ifs j <> None.
Proof.
  unfold check_ff. destruct (existsb (fun b => b) ifs) eqn:E; cbn [andb].
  - apply existsb_exists in E. destruct E as [b [I ->]]. apply In_nth_error in I. destruct I as [i I].
    destruct (Nat.ltb_spec 1 (List.length ifs)) as [L|L]; split; trivial; try discriminate.
    + intros _. exists i. destruct i as [|i]; [exists 1|exists 0]; (split; [lia|]; split; trivial; apply nth_error_Some; lia).
    + intros [a [b [D [A B]]]]. apply nth_error_Some in B. assert (A' : nth_error ifs a <> None) by congruence. apply nth_error_Some in A'. lia.
  - split; [discriminate|]. intros [i [j [_ [I _]]]]. apply nth_error_In in I. assert (X : existsb (fun b => b) ifs = true) by (apply existsb_exists; now exists true). congruence.
Qed.
Example C381_ex : check_ff [false; true] = Throw /\ check_ff [true] = Ok tt.
Proof. split; reflexivity. Qed.
Print Assumptions C376_visit.
Print Assumptions C376_parts.
Print Assumptions C377_passed.
Print Assumptions C378_builtin_refuted.
Print Assumptions C379_final_refuted.
Print Assumptions C380_hidden_refuted.
Print Assumptions C381_ff.
