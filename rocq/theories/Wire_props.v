From Verif Require Import Base Wire_spec Wire_model Wire_proofs.
From Coq Require Import String.
Local Open Scope nat_scope.

Definition directed (x : signal) : Prop := x_port x = Some DIn \/ x_port x = Some DOut.

(* Two ports: accepted exactly when one must be driven here and the other is a source, and then
   the former is the target. *)
Theorem C34_ports_are_wired_the_legal_way : forall h m x y t s, proper h -> directed x -> directed y ->
  x_iface x = None -> x_iface y = None ->
  (wire h m x y = Ok (t, s) <->
   (t = x /\ s = y \/ t = y /\ s = x) /\ role_in h m t Driven /\ role_in h m s Source).
Proof.
  intros h m x y t s P Dx Dy Ix Iy.
  assert (inst_sig x = false) as Jx by (unfold inst_sig; now rewrite Ix).
  assert (inst_sig y = false) as Jy by (unfold inst_sig; now rewrite Iy).
  assert (is_iface x = false) as Kx by (unfold is_iface; now rewrite Ix).
  rewrite wire_spec by auto. rewrite !Jx, !Jy. rewrite (driven_iff h m t P), (source_iff h m s P).
  assert (forall z, own m z = true -> kid h m z = false) as NB by (intros; now apply not_both).
  split.
  - intros W. destruct (own m x) eqn:Ox, (own m y) eqn:Oy, (kid h m x) eqn:Kx', (kid h m y) eqn:Ky';
      try (rewrite (NB x) in Kx' by assumption; discriminate); try (rewrite (NB y) in Ky' by assumption; discriminate);
      destruct Dx as [Dx|Dx], Dy as [Dy|Dy]; rewrite ?Dx, ?Dy in W; cbn in W; try discriminate; apply Ok_inj in W; injection W as <- <-;
      rewrite ?Jx, ?Jy, ?Ox, ?Oy, ?Kx', ?Ky', ?Dx, ?Dy; auto 10.
  - intros [[[-> ->]|[-> ->]] [T S]]; rewrite ?Jx, ?Jy in *.
    + destruct T as [[O1 D1]|[K1 D1]], S as [[O2 D2]|[K2 D2]]; rewrite ?O1, ?O2, ?K1, ?K2, ?D1, ?D2; cbn;
        repeat match goal with
        | K : kid h m ?z = true |- context [own m ?z] => destruct (own m z) eqn:?; [rewrite (NB z) in K by assumption; discriminate|]
        end; reflexivity.
    + destruct T as [[O1 D1]|[K1 D1]], S as [[O2 D2]|[K2 D2]]; rewrite ?O1, ?O2, ?K1, ?K2, ?D1, ?D2; cbn;
        repeat match goal with
        | K : kid h m ?z = true |- context [own m ?z] => destruct (own m z) eqn:?; [rewrite (NB z) in K by assumption; discriminate|]
        end; rewrite ?K1, ?K2; try reflexivity.
Qed.
(* A port and another signal of the module: the port is the target exactly when it must be driven;
   a port that cannot be reached is rejected. *)
Theorem C34_port_and_variable : forall h m x y, proper h -> directed x -> x_port y = None -> x_owner y = m ->
  (role_in h m x Driven -> wire h m x y = Ok (x, y) /\ wire h m y x = Ok (x, y)) /\
  (role_in h m x Source -> wire h m x y = Ok (y, x) /\ wire h m y x = Ok (y, x)) /\
  (role_in h m x Foreign -> wire h m x y = Throw /\ wire h m y x = Throw).
Proof.
  intros h m x y P Dx Ny Oy.
  assert (exists d, x_port x = Some d) as [d Dd] by (destruct Dx; eauto).
  rewrite (driven_iff h m x P), (source_iff h m x P), (foreign_iff h m x d P Dd). unfold wire, wire_direction. rewrite Ny, Dd.
  fold (own m x). fold (own m y). fold (kid h m x). apply own_iff in Oy. rewrite Oy.
  unfold inst_sig, is_iface, iface_is_port. split; [|split].
  - intros [[O E]|[K E]].
    + rewrite O. destruct (x_iface x) as [[]|]; injection E as ->; split; reflexivity.
    + destruct (own m x) eqn:O; [rewrite (not_both h m x) in K by assumption; discriminate|]. rewrite K. injection E as ->. split; reflexivity.
  - intros [[O E]|[K E]].
    + rewrite O. destruct (x_iface x) as [[]|]; injection E as ->; split; reflexivity.
    + destruct (own m x) eqn:O; [rewrite (not_both h m x) in K by assumption; discriminate|]. rewrite K. injection E as ->. split; reflexivity.
  - intros [O K]. rewrite O, K. split; reflexivity.
Qed.
(* The order of the arguments does not matter. *)
Theorem C34_order_does_not_matter : forall h m x y, proper h -> directed x -> directed y -> x_iface x = None -> x_iface y = None ->
  wire h m x y = wire h m y x.
Proof.
  intros h m x y P Dx Dy Ix Iy.
  pose proof (C34_ports_are_wired_the_legal_way h m x y) as A. pose proof (C34_ports_are_wired_the_legal_way h m y x) as B.
  assert (forall a b, directed a -> directed b -> wire h m a b <> UB) as NU.
  { intros a b Da Db. unfold wire, wire_direction, port_direction. destruct Da as [-> | ->], Db as [-> | ->];
      repeat match goal with |- context [if ?b then _ else _] => destruct b end; discriminate. }
  destruct (wire h m x y) as [[t s]| |] eqn:E1.
  - symmetry. apply B; auto. destruct (A t s P Dx Dy Ix Iy) as [A1 _]. destruct (A1 eq_refl) as [C R]. split; [|exact R]. intuition.
  - destruct (wire h m y x) as [[t s]| |] eqn:E2; [|reflexivity|now apply NU in E2].
    destruct (B t s P Dy Dx Iy Ix) as [B1 _]. destruct (B1 eq_refl) as [C R]. apply (A t s P Dx Dy Ix Iy). split; [|exact R]. intuition.
  - now apply NU in E1.
Qed.

(* a top module 0 with the instances 1 and 2, and 3 inside 1 *)
Definition ex_h : hier := {| h_parent := fun g => match g with 1 | 2 => Some 0 | 3 => Some 1 | _ => None end;
  h_inst := fun g => Nat.iter g (String "a"%char) EmptyString;
  h_kids := fun m => match m with 0 => [1; 2] | 1 => [3] | _ => [] end |}.
Lemma iter_len : forall g, String.length (Nat.iter g (String "a"%char) EmptyString) = g.
Proof. induction g as [|g IH]; [reflexivity|]. cbn [Nat.iter]. exact (f_equal S IH). Qed.
Example C34_ex_proper : proper ex_h.
Proof.
  split; [|split].
  - intros m g. unfold ex_h, h_kids, h_parent. destruct m as [|[|m]]; cbn; split; intros H;
      try (intuition (subst; reflexivity)); destruct g as [|[|[|[|g]]]]; try discriminate; auto; try (injection H as <-; auto; fail); destruct H.
  - intros a b H. cbn in H. rewrite <- (iter_len a), <- (iter_len b), H. reflexivity.
  - intros [|[|[|[|m]]]]; discriminate.
Qed.
Definition prt (o : nat) (d : dir) : signal := {| x_port := Some d; x_owner := o; x_iface := None |}.
Definition vr (o : nat) : signal := {| x_port := None; x_owner := o; x_iface := None |}.
Definition ifc (o : nat) (d : dir) (p : bool) : signal := {| x_port := Some d; x_owner := o; x_iface := Some p |}.
Example C34_ex : wire ex_h 0 (prt 0 DIn) (prt 1 DIn) = Ok (prt 1 DIn, prt 0 DIn)
  /\ wire ex_h 0 (prt 2 DOut) (prt 1 DIn) = Ok (prt 1 DIn, prt 2 DOut)
  /\ wire ex_h 0 (prt 2 DOut) (prt 0 DOut) = Ok (prt 0 DOut, prt 2 DOut)
  /\ wire ex_h 0 (prt 0 DIn) (prt 0 DOut) = Ok (prt 0 DOut, prt 0 DIn)
  /\ wire ex_h 0 (prt 1 DIn) (prt 2 DIn) = Throw /\ wire ex_h 0 (prt 0 DIn) (prt 3 DIn) = Throw
  /\ wire ex_h 0 (vr 0) (prt 1 DOut) = Ok (vr 0, prt 1 DOut) /\ wire ex_h 0 (vr 0) (prt 3 DIn) = Throw.
Proof. repeat split. Qed.

(* With an inout port the second argument is always the target, or the other order is rejected. *)
Theorem C114_inout_depends_on_order_refuted : forall h m x y, proper h -> x_port x = Some DInOut -> x_iface x = None ->
  role_in h m x Both ->
  (x_port y = None -> x_owner y = m -> wire h m x y = Ok (y, x) /\ wire h m y x = Ok (x, y)) /\
  (x_port y = Some DIn -> x_iface y = None -> x_owner x = m -> x_owner y = m -> wire h m x y = Ok (x, y) /\ wire h m y x = Throw).
Proof.
  intros h m x y P Dx Ix R.
  assert (own m x = true \/ own m x = false /\ kid h m x = true) as C.
  { inversion R; subst; try congruence. destruct (own m x) eqn:O; [auto|right]. split; [reflexivity|]. apply kid_iff; [assumption|].
    destruct H as [H|H]; [|assumption]. apply own_iff in H. congruence. }
  split.
  - intros Ny Oy. unfold wire, wire_direction. rewrite Ny, Dx. fold (own m x). fold (own m y). fold (kid h m x). unfold is_iface. rewrite Ix.
    destruct C as [-> | [-> ->]]; split; reflexivity.
  - intros Dy Iy Ox Oy. unfold wire, wire_direction. rewrite Dx, Dy, !port_direction_eq by assumption.
    apply own_iff in Ox, Oy. rewrite Ox, Oy. unfold is_iface. rewrite Ix, Iy. split; reflexivity.
Qed.
Example C114_ex : wire ex_h 0 (prt 1 DInOut) (vr 0) = Ok (vr 0, prt 1 DInOut) /\ wire ex_h 0 (vr 0) (prt 1 DInOut) = Ok (prt 1 DInOut, vr 0)
  /\ wire ex_h 0 (prt 0 DInOut) (prt 0 DIn) = Ok (prt 0 DInOut, prt 0 DIn) /\ wire ex_h 0 (prt 0 DIn) (prt 0 DInOut) = Throw.
Proof. repeat split. Qed.
(* An input port of the module wired to an input of an interface instance: with the interface
   signal second, the module's input is driven. *)
Theorem C115_interface_order_drives_input_refuted : forall h m x y, proper h ->
  x_owner x = m -> x_port x = Some DIn -> x_iface x = None ->
  x_owner y = m -> x_port y = Some DIn -> x_iface y = Some false ->
  role_in h m x Source /\ role_in h m y Driven /\ wire h m y x = Ok (y, x) /\ wire h m x y = Ok (x, y).
Proof.
  intros h m x y P Ox Dx Ix Oy Dy Iy. split; [apply own_in; congruence|]. split; [now apply inst_in|].
  apply own_iff in Ox, Oy. unfold wire, wire_direction. rewrite Dx, Dy, !port_direction_eq by assumption.
  rewrite Ox, Oy. unfold is_iface, iface_is_port. rewrite Ix, Iy. split; reflexivity.
Qed.
Example C115_ex : wire ex_h 0 (prt 0 DIn) (ifc 0 DIn false) = Ok (prt 0 DIn, ifc 0 DIn false)
  /\ wire ex_h 0 (ifc 0 DIn false) (prt 0 DIn) = Ok (ifc 0 DIn false, prt 0 DIn).
Proof. split; reflexivity. Qed.
(* A module elsewhere is taken for an instance with the same instance name; signals of modules
   elsewhere are never rejected. *)
Theorem C116_foreign_signals_are_accepted_refuted : forall h m x y c, x_port x = Some DOut -> x_iface x = None -> x_port y = None ->
  x_owner x <> m ->
  (In c (h_kids h m) -> h_inst h c = h_inst h (x_owner x) -> wire h m y x = Ok (y, x)) /\
  (forall z, x_port z = None -> wire h m y z = Ok (y, z)).
Proof.
  intros h m x y c Dx Ix Ny Ox. split.
  - intros Hc E. unfold wire, wire_direction. rewrite Dx, Ny. apply Nat.eqb_neq in Ox. rewrite Ox.
    assert (has_child h m (x_owner x) = true) as ->; [|reflexivity]. apply existsb_exists. exists c. split; [assumption|]. rewrite E. apply String.eqb_refl.
  - intros z Nz. unfold wire, wire_direction. rewrite Ny, Nz. reflexivity.
Qed.
(* instance 7 of some other module is also called a *)
Example C116_ex : let h := {| h_parent := fun g => match g with 1 => Some 0 | 7 => Some 6 | _ => None end; h_inst := fun _ => "a"%string; h_kids := fun m => match m with 0 => [1] | 6 => [7] | _ => [] end |} in
  wire h 0 (vr 0) (prt 7 DOut) = Ok (vr 0, prt 7 DOut) /\ role_in h 0 (prt 7 DOut) Foreign.
Proof. split; [reflexivity|]. apply (far_port _ _ _ DOut); cbn; congruence. Qed.

Print Assumptions C34_ports_are_wired_the_legal_way.
Print Assumptions C34_port_and_variable.
Print Assumptions C34_order_does_not_matter.
Print Assumptions C114_inout_depends_on_order_refuted.
Print Assumptions C115_interface_order_drives_input_refuted.
Print Assumptions C116_foreign_signals_are_accepted_refuted.
