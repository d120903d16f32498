From Coq Require Import Lia.
From Verif Require Import Base Cpy_spec Cpy_model Cpy_proofs.
Local Open Scope Z_scope.
Local Open Scope list_scope.

Section K.
  Variable keyword : string -> bool.

(* C479: an ordinary port copied under an unused name gives a port that is declared alike, and changes nothing else. *)
Theorem C479_copied : forall o g p n, made p -> p_kind p = Plain -> (control (p_type p) -> p_width p = 1) -> keyword n = false -> unused g n ->
  exists g' q, call keyword o g p n = Ok g' /\ python_copy keyword g p n = Ok g' /\ here g' n q /\ alike p q /\ p_kind q = Plain /\ kept g g'.
Proof.
  intros o g p n M Pk C Kw U. pose proof (made_width p M Pk) as W.
  assert (E : python_copy keyword g p n = copy_plain keyword g p n) by (unfold python_copy, registered; rewrite Pk; cbn [find accepts call]; rewrite ?Pk; reflexivity).
  assert (E' : call keyword o g p n = copy_plain keyword g p n) by (unfold call; rewrite Pk; destruct o; reflexivity).
  rewrite E, E'. unfold copy_plain, new_port. rewrite Kw. destruct (Z.eqb_spec (p_width p) 0) as [Z0|_]; [lia|].
  assert (Sp : special (p_type p) && (1 <? p_width p) = false).
  { destruct (special (p_type p)) eqn:Es; [|reflexivity]. apply special_control in Es. rewrite (C Es). reflexivity. }
  rewrite Sp. cbn [obind p_dir p_width p_size p_type p_signed p_high p_kind].
  match goal with |- context [add_port g n ?q] => destruct (add_port_unused g n q U) as (g' & A & B & D); exists g', q end.
  split; [exact A|]. split; [exact A|]. split; [exact B|]. split; [|split; [reflexivity|exact D]]. unfold alike. repeat split.
Qed.
(* ... and no port, of any kind, is copied under a keyword or under the name of a port. *)
Theorem C479_refused : forall o g p n, keyword n = true \/ In n (g_ports g) -> call keyword o g p n = Throw /\ python_copy keyword g p n = Throw.
Proof.
  intros o g p n H.
  assert (A : forall q, In n (g_ports g) -> add_port g n q = Throw) by (intros q H'; unfold add_port; rewrite (proj2 (existsb_in _ _) H'); reflexivity).
  assert (G : forall o, call keyword o g p n = Throw).
  { intros o'. unfold call, copy_enum, copy_struct, copy_plain, new_port.
    destruct H as [H|H]; [rewrite H; destruct o', (p_kind p); reflexivity|].
    destruct o', (p_kind p); destruct (keyword n); try reflexivity;
      repeat (match goal with |- context [if ?b then _ else _] => destruct b end; try reflexivity); cbn [obind]; apply A, H. }
  split; [apply G|]. unfold python_copy. destruct (find _ registered); [apply G|reflexivity].
Qed.

End K.

Definition wide : port := {| p_dir := In_; p_width := 8; p_size := [1]; p_type := PClock; p_signed := false; p_packed := true; p_explicit := false; p_high := None; p_kind := Plain |}.
Definition plain (w : Z) : port := {| p_dir := In_; p_width := w; p_size := [1]; p_type := PData; p_signed := false; p_packed := true; p_explicit := false; p_high := None; p_kind := Plain |}.
Lemma plain_made w : 0 < w < 2 ^ 32 -> made (plain w).
Proof. intros H. apply M_plain; [exact H|]. intros [E|[E|[E|E]]]; discriminate. Qed.
Lemma wide_made : made wide.
Proof. apply (M_type (plain 8) PClock); [apply plain_made; split; reflexivity|discriminate]. Qed.
Definition g0 : gen := {| g_ports := []; g_vars := [] |}.
Lemma unused0 n : unused g0 n. Proof. split; intros []. Qed.
Example C479_ex : call (fun _ => false) OPort g0 (plain 8) "a" = Ok {| g_ports := ["a"%string]; g_vars := [("a"%string, Some (plain 8))] |}
  /\ call (fun _ => false) OPort {| g_ports := ["a"%string]; g_vars := [("a"%string, Some (plain 8))] |} (plain 8) "a" = Throw /\ made (plain 8).
Proof. split; [reflexivity|]. split; [reflexivity|]. apply plain_made. split; reflexivity. Qed.

(* C480: a control port made wider than one bit through its type cannot be copied. *)
Theorem C480_wide_refuted :
  (forall keyword o g p n, p_kind p = Plain -> control (p_type p) -> 1 < p_width p -> call keyword o g p n = Throw)
  /\ ~ (forall keyword g p n, made p -> p_kind p = Plain -> keyword n = false -> unused g n -> call keyword OPort g p n <> Throw).
Proof.
  assert (A : forall keyword o g p n, p_kind p = Plain -> control (p_type p) -> 1 < p_width p -> call keyword o g p n = Throw).
  { intros keyword o g p n Pk C W. unfold call. rewrite Pk.
    assert (E : copy_plain keyword g p n = Throw).
    { unfold copy_plain, new_port. destruct (keyword n); [reflexivity|]. destruct (p_width p =? 0); [reflexivity|].
      rewrite (proj2 (special_control _) C). destruct (Z.ltb_spec 1 (p_width p)); [reflexivity|lia]. }
    destruct o; exact E. }
  split; [exact A|]. intros H. apply (H (fun _ => false) g0 wide "a"%string wide_made eq_refl eq_refl (unused0 _)).
  apply A; [reflexivity|left; reflexivity|reflexivity].
Qed.

(* C481: whether a port is active high is not copied. *)
Definition low_reset : port := {| p_dir := In_; p_width := 1; p_size := [1]; p_type := PAsyncReset; p_signed := false; p_packed := true; p_explicit := false; p_high := Some false; p_kind := Plain |}.
Lemma low_made : made low_reset.
Proof.
  apply (M_high {| p_dir := In_; p_width := 1; p_size := [1]; p_type := PAsyncReset; p_signed := false; p_packed := true; p_explicit := false; p_high := None; p_kind := Plain |} false);
    [|reflexivity]. apply M_plain; [split; reflexivity|reflexivity].
Qed.
Lemma here_last g n q q' : ~ In n (map fst (g_vars g)) -> here {| g_ports := g_ports g ++ [n]; g_vars := g_vars g ++ [(n, Some q)] |} n q' -> q' = q.
Proof.
  intros N (_ & l & r & E & L). cbn [g_vars] in E. revert l E L. induction (g_vars g) as [|[m x] v IH]; intros l E L.
  - destruct l as [|y l]; cbn in E; [injection E as -> _; reflexivity|]. injection E as <- E. exfalso. apply L. left. reflexivity.
  - destruct l as [|y l]; cbn in E; [injection E as -> -> _; exfalso; apply N; left; reflexivity|]. injection E as <- E.
    apply (IH (fun H => N (or_intror H)) l E). intros H. apply L. right. exact H.
Qed.
Lemma added g n q g' q' : unused g n -> add_port g n q = Ok g' -> here g' n q' -> q' = q.
Proof.
  intros (A & B) E. unfold add_port in E. rewrite (existsb_out _ _ A), (existsb_out _ _ B) in E. injection E as <-. apply here_last. exact B.
Qed.
Lemma call_high keyword o g p n g' q : unused g n -> call keyword o g p n = Ok g' -> here g' n q -> p_high q = None.
Proof.
  intros U E Hq. unfold call, copy_enum, copy_struct, copy_plain, new_port in E.
  destruct o, (p_kind p); destruct (keyword n); cbn [obind] in E; try discriminate;
    repeat (match type of E with context [if ?b then _ else _] => destruct b end; cbn [obind] in E; try discriminate);
    rewrite (added _ _ _ _ _ U E Hq); reflexivity.
Qed.
Theorem C481_active_refuted :
  (forall keyword o g p n g' q, unused g n -> call keyword o g p n = Ok g' -> here g' n q -> p_high q = None)
  /\ ~ (forall keyword g p n g' q, made p -> unused g n -> call keyword OPort g p n = Ok g' -> here g' n q -> p_high q = p_high p).
Proof.
  split; [exact call_high|]. intros H.
  specialize (H (fun _ => false) g0 low_reset "r"%string {| g_ports := ["r"%string]; g_vars := [("r"%string, Some {| p_dir := In_; p_width := 1; p_size := [1]; p_type := PAsyncReset; p_signed := false; p_packed := true; p_explicit := false; p_high := None; p_kind := Plain |})] |}
    {| p_dir := In_; p_width := 1; p_size := [1]; p_type := PAsyncReset; p_signed := false; p_packed := true; p_explicit := false; p_high := None; p_kind := Plain |}
    low_made (unused0 _) eq_refl).
  discriminate H. split; [left; reflexivity|]. exists [], []. split; [reflexivity|intros []].
Qed.

(* C482: a struct port copied as one keeps its members, direction and width, and an enumeration port, from C++ or Python, its enumeration. *)
Theorem C482_struct : forall keyword g p l n, made p -> p_kind p = Struct l -> keyword n = false -> unused g n ->
  exists g' q, call keyword OStruct g p n = Ok g' /\ here g' n q /\ kept g g'
    /\ p_kind q = Struct l /\ p_dir q = p_dir p /\ p_width q = p_width p /\ p_type q = p_type p /\ p_signed q = p_signed p /\ p_packed q = p_packed p.
Proof.
  intros keyword g p l n M Pk Kw U. destruct (made_struct p l M Pk) as (A & B & C & D & F & G).
  unfold call. rewrite Pk. unfold copy_struct, new_port. rewrite Kw.
  change (1 =? 0) with false. change (special PData && (1 <? 1)) with false. cbn [obind p_dir p_width p_size p_type p_signed p_high p_kind p_packed p_explicit].
  match goal with |- context [add_port g n ?q] => destruct (add_port_unused g n q U) as (g' & X & Y & V); exists g', q end.
  split; [exact X|]. split; [exact Y|]. split; [exact V|]. cbn [p_dir p_width p_size p_type p_signed p_kind p_packed].
  rewrite (bitwidth_total l C B), A, D, F, G. repeat split.
Qed.
Theorem C482_enum : forall keyword g p e w n, made p -> p_kind p = Enumerated e w -> keyword n = false -> unused g n ->
  exists g' q, call keyword OEnum g p n = Ok g' /\ python_copy keyword g p n = Ok g' /\ here g' n q /\ kept g g'
    /\ p_kind q = Enumerated e w /\ p_dir q = p_dir p /\ p_width q = p_width p /\ p_size q = p_size p /\ p_signed q = p_signed p.
Proof.
  intros keyword g p e w n M Pk Kw U. destruct (made_enum p e w M Pk) as (A & B & C & D).
  assert (E : python_copy keyword g p n = call keyword OEnum g p n) by (unfold python_copy, registered; rewrite Pk; reflexivity).
  rewrite E. unfold call. rewrite Pk. unfold copy_enum, new_port. rewrite Kw. destruct (Z.eqb_spec w 0) as [Z0|_]; [lia|].
  change (special PData && (1 <? w)) with false. cbn [obind].
  match goal with |- context [add_port g n ?q] => destruct (add_port_unused g n q U) as (g' & X & Y & V); exists g', q end.
  split; [exact X|]. split; [exact X|]. split; [exact Y|]. split; [exact V|]. cbn [p_dir p_width p_size p_type p_signed p_kind p_packed].
  rewrite A, B, D. repeat split.
Qed.
Definition sp (size : list Z) : port := {| p_dir := Out_; p_width := total (map snd [("a"%string, 3); ("b"%string, 5)]); p_size := size; p_type := PData; p_signed := false; p_packed := true; p_explicit := false;
            p_high := None; p_kind := Struct [("a"%string, 3); ("b"%string, 5)] |}.
Lemma sp_made size : made (sp size).
Proof. apply M_struct; [reflexivity|]. constructor; [reflexivity|]. constructor; [reflexivity|constructor]. Qed.
Definition ep : port := {| p_dir := In_; p_width := 2; p_size := [1]; p_type := PData; p_signed := false; p_packed := true; p_explicit := false; p_high := None;
            p_kind := Enumerated "state" 2 |}.
Lemma ep_made : made ep. Proof. apply M_enum. split; reflexivity. Qed.
Example C482_ex : call (fun _ => false) OStruct g0 (sp [1]) "s" = Ok {| g_ports := ["s"%string]; g_vars := [("s"%string, Some (sp [1]))] |}
  /\ python_copy (fun _ => false) g0 ep "e" = Ok {| g_ports := ["e"%string]; g_vars := [("e"%string, Some ep)] |} /\ p_width (sp [1]) = 8.
Proof. repeat split; vm_compute; reflexivity. Qed.

(* C483: an array of structs copied as a struct port is one struct. *)
Theorem C483_array_refuted :
  (forall keyword g p l n g' q, p_kind p = Struct l -> unused g n -> call keyword OStruct g p n = Ok g' -> here g' n q -> p_size q = [1])
  /\ ~ (forall keyword g p l n g' q, made p -> p_kind p = Struct l -> unused g n -> call keyword OStruct g p n = Ok g' -> here g' n q -> p_size q = p_size p).
Proof.
  assert (A : forall keyword g p l n g' q, p_kind p = Struct l -> unused g n -> call keyword OStruct g p n = Ok g' -> here g' n q -> p_size q = [1]).
  { intros keyword g p l n g' q Pk U E Hq. unfold call in E. rewrite Pk in E. unfold copy_struct, new_port in E. destruct (keyword n); [discriminate E|].
    cbn [obind Z.eqb Z.ltb Z.compare Pos.compare Pos.compare_cont special andb] in E. rewrite (added _ _ _ _ _ U E Hq). reflexivity. }
  split; [exact A|]. intros H. destruct (C482_struct (fun _ => false) g0 (sp [4]) _ "s"%string (sp_made _) eq_refl eq_refl (unused0 _)) as (g' & q & E & Hq & _).
  pose proof (A _ _ (sp [4]) _ _ _ _ eq_refl (unused0 _) E Hq) as X. pose proof (H _ _ (sp [4]) _ _ _ _ (sp_made _) eq_refl (unused0 _) E Hq) as Y. rewrite X in Y. discriminate Y.
Qed.

(* C484: from Python, the copy of a struct port is an ordinary port without members. *)
Theorem C484_python_refuted :
  (forall keyword g p l n, made p -> 0 < p_width p -> p_kind p = Struct l -> keyword n = false -> unused g n ->
     exists g' q, python_copy keyword g p n = Ok g' /\ here g' n q /\ alike p q /\ p_kind q = Plain)
  /\ ~ (forall keyword g p n g' q, made p -> unused g n -> python_copy keyword g p n = Ok g' -> here g' n q -> p_kind q = p_kind p).
Proof.
  assert (A : forall keyword g p l n, made p -> 0 < p_width p -> p_kind p = Struct l -> keyword n = false -> unused g n ->
     exists g' q, python_copy keyword g p n = Ok g' /\ here g' n q /\ alike p q /\ p_kind q = Plain).
  { intros keyword g p l n M W Pk Kw U. destruct (made_struct p l M Pk) as (_ & _ & _ & D & _ & _).
    assert (E : python_copy keyword g p n = copy_plain keyword g p n) by (unfold python_copy, registered; rewrite Pk; cbn [find accepts call]; rewrite ?Pk; reflexivity).
    rewrite E. unfold copy_plain, new_port. rewrite Kw, D. destruct (Z.eqb_spec (p_width p) 0) as [Z0|_]; [lia|].
    change (special PData && (1 <? p_width p)) with false. cbn [obind p_dir p_width p_size p_type p_signed p_high p_kind].
    match goal with |- context [add_port g n ?q] => destruct (add_port_unused g n q U) as (g' & X & Y & V); exists g', q end.
    split; [exact X|]. split; [exact Y|]. split; [|reflexivity]. unfold alike. cbn [p_dir p_width p_size p_type p_signed p_packed p_explicit]. rewrite D. repeat split. }
  split; [exact A|]. intros H.
  destruct (A (fun _ => false) g0 (sp [1]) _ "s"%string (sp_made _) eq_refl eq_refl eq_refl (unused0 _)) as (g' & q & E & Hq & _ & K).
  pose proof (H _ _ (sp [1]) _ _ _ (sp_made _) (unused0 _) E Hq) as Y. rewrite K in Y. discriminate Y.
Qed.

(* C485: the wrapper of a generator has its single ports as ordinary ports, declared alike. *)
Theorem C485_wrapped : forall keyword g p n, made p -> 0 < p_width p -> (control (p_type p) -> p_width p = 1) -> keyword n = false -> unused g n ->
  (p_dir p = In_ -> forall e w, p_kind p <> Enumerated e w) ->
  exists g' q, wrap keyword g p n = Ok g' /\ here g' n q /\ alike p q /\ p_kind q = Plain /\ kept g g'.
Proof.
  intros keyword g p n M W C Kw U En.
  assert (E : call keyword OPort g p n = copy_plain keyword g p n) by (unfold call; destruct (p_kind p); reflexivity).
  assert (Cn : connect p = Ok tt).
  { unfold connect. destruct (p_dir p) eqn:Ed; try reflexivity. destruct (p_kind p) eqn:Ek; try reflexivity. exfalso. exact (En eq_refl _ _ eq_refl). }
  unfold wrap. rewrite E, Cn. unfold copy_plain, new_port. rewrite Kw. destruct (Z.eqb_spec (p_width p) 0) as [Z0|_]; [lia|].
  assert (Sp : special (p_type p) && (1 <? p_width p) = false).
  { destruct (special (p_type p)) eqn:Es; [|reflexivity]. apply special_control in Es. rewrite (C Es). reflexivity. }
  rewrite Sp. cbn [obind p_dir p_width p_size p_type p_signed p_high p_kind].
  match goal with |- context [add_port g n ?q] => destruct (add_port_unused g n q U) as (g' & A & B & D); exists g', q end.
  split; [rewrite A; reflexivity|]. split; [exact B|]. split; [|split; [reflexivity|exact D]]. unfold alike. repeat split.
Qed.
Example C485_ex : wrap (fun _ => false) g0 (plain 4) "a" = Ok {| g_ports := ["a"%string]; g_vars := [("a"%string, Some (plain 4))] |}
  /\ wrap (fun _ => false) g0 ep "e" = Throw.
Proof. split; reflexivity. Qed.
(* C486: a generator with an input of an enumeration cannot be wrapped. *)
Theorem C486_enum_input_refuted :
  (forall keyword g p e w n, p_dir p = In_ -> p_kind p = Enumerated e w -> wrap keyword g p n = Throw)
  /\ ~ (forall keyword g p n, made p -> keyword n = false -> unused g n -> (control (p_type p) -> p_width p = 1) -> wrap keyword g p n <> Throw).
Proof.
  assert (A : forall keyword g p e w n, p_dir p = In_ -> p_kind p = Enumerated e w -> wrap keyword g p n = Throw).
  { intros keyword g p e w n Pd Pk. unfold wrap.
    assert (N : call keyword OPort g p n <> UB).
    { unfold call. rewrite ?Pk. unfold copy_plain, new_port, add_port.
      repeat (match goal with |- context [if ?b then _ else _] => destruct b end; cbn [obind]; try discriminate). }
    destruct (call keyword OPort g p n); cbn [obind]; [|reflexivity|congruence].
    unfold connect. rewrite Pd, Pk. reflexivity. }
  split; [exact A|]. intros H. apply (H (fun _ => false) g0 ep "e"%string ep_made eq_refl (unused0 _)).
  - intros [E|[E|[E|E]]]; discriminate.
  - apply (A _ _ _ "state"%string 2); reflexivity.
Qed.
Print Assumptions C479_copied.
Print Assumptions C479_refused.
Print Assumptions C480_wide_refuted.
Print Assumptions C481_active_refuted.
Print Assumptions C482_struct.
Print Assumptions C482_enum.
Print Assumptions C483_array_refuted.
Print Assumptions C484_python_refuted.
Print Assumptions C485_wrapped.
Print Assumptions C486_enum_input_refuted.
