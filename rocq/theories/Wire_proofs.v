From Verif Require Import Base Wire_spec Wire_model.
From Coq Require Import String.
Local Open Scope nat_scope.

Lemma has_child_iff : forall h m g, proper h -> has_child h m g = true <-> h_parent h g = Some m.
Proof.
  intros h m g (K & I & _). unfold has_child. rewrite existsb_exists. split.
  - intros (c & Hc & E). apply String.eqb_eq, I in E. subst. now apply K.
  - intros P. exists g. split; [now apply K|apply String.eqb_refl].
Qed.
Lemma onat_iff : forall a b, onat_eqb a b = true <-> a = b.
Proof. intros [x|] [y|]; cbn; try (split; congruence). rewrite Nat.eqb_eq. split; congruence. Qed.
Definition own (m : nat) (x : signal) : bool := Nat.eqb (x_owner x) m.
Definition kid (h : hier) (m : nat) (x : signal) : bool := has_child h m (x_owner x).
Lemma own_iff : forall m x, own m x = true <-> x_owner x = m.
Proof. intros. apply Nat.eqb_eq. Qed.
Lemma kid_iff : forall h m x, proper h -> kid h m x = true <-> h_parent h (x_owner x) = Some m.
Proof. intros. now apply has_child_iff. Qed.
Lemma not_both : forall h m x, proper h -> own m x = true -> kid h m x = false.
Proof.
  intros h m x P O. destruct (kid h m x) eqn:K; [|reflexivity]. apply own_iff in O. apply kid_iff in K; [|assumption].
  destruct P as (_ & _ & S). rewrite O in K. now destruct (S m).
Qed.
Lemma siblings : forall h m x y, proper h ->
  onat_eqb (h_parent h (x_owner x)) (h_parent h (x_owner y)) && onat_eqb (h_parent h (x_owner x)) (Some m) = kid h m x && kid h m y.
Proof.
  intros h m x y P. apply eq_true_iff_eq. rewrite !andb_true_iff, !onat_iff, !(kid_iff h m _ P). intuition congruence.
Qed.
Lemma same_module : forall m x y, Nat.eqb (x_owner x) (x_owner y) && Nat.eqb (x_owner x) m = own m x && own m y.
Proof. intros. apply eq_true_iff_eq. unfold own. rewrite !andb_true_iff, !Nat.eqb_eq. intuition congruence. Qed.
Lemma port_direction_eq : forall h m x d1 y d2, proper h -> port_direction h m x d1 y d2 =
  if own m x && own m y then
    let w := if is_iface x && negb (is_iface y) then negb (iface_is_port x)
             else if is_iface y && negb (is_iface x) then negb (iface_is_port y) else false in
    if check_direction d1 d2 w then Ok (Bool.eqb w (dir_eqb d1 DIn)) else Throw
  else if own m x && kid h m y then if check_direction d1 d2 true then Ok (negb (dir_eqb d1 DIn)) else Throw
  else if own m y && kid h m x then if check_direction d1 d2 true then Ok (dir_eqb d1 DIn) else Throw
  else if kid h m x && kid h m y then if check_direction d1 d2 false then Ok (dir_eqb d1 DIn) else Throw
  else Throw.
Proof. intros. unfold port_direction. cbn zeta. rewrite same_module, siblings by assumption. reflexivity. Qed.
Definition inst_sig (x : signal) : bool := match x_iface x with Some false => true | _ => false end.
Lemma driven_iff : forall h m x, proper h -> role_in h m x Driven <->
  own m x = true /\ x_port x = Some (if inst_sig x then DIn else DOut) \/ kid h m x = true /\ x_port x = Some DIn.
Proof.
  intros h m x P. rewrite own_iff, (kid_iff h m x P). unfold inst_sig. split.
  - intros H. inversion H; subst; auto; left; split; auto; destruct (x_iface x) as [[]|]; congruence.
  - intros [[O D]|[K D]]; [|now apply kid_in]. destruct (x_iface x) as [[]|] eqn:I; [apply own_out|apply inst_in|apply own_out]; congruence.
Qed.
Lemma source_iff : forall h m x, proper h -> role_in h m x Source <->
  own m x = true /\ x_port x = Some (if inst_sig x then DOut else DIn) \/ kid h m x = true /\ x_port x = Some DOut.
Proof.
  intros h m x P. rewrite own_iff, (kid_iff h m x P). unfold inst_sig. split.
  - intros H. inversion H; subst; auto; left; split; auto; destruct (x_iface x) as [[]|]; congruence.
  - intros [[O D]|[K D]]; [|now apply kid_out]. destruct (x_iface x) as [[]|] eqn:I; [apply own_in|apply inst_out|apply own_in]; congruence.
Qed.
Lemma foreign_iff : forall h m x d, proper h -> x_port x = Some d -> role_in h m x Foreign <-> own m x = false /\ kid h m x = false.
Proof.
  intros h m x d P D. rewrite <- !not_true_iff_false, own_iff, (kid_iff h m x P). split.
  - intros H. inversion H; subst; auto; congruence.
  - intros [O K]. now apply (far_port h m x d).
Qed.
(* the target of a successful wiring is the driven one, in the cases where the code is right *)
Lemma wire_spec : forall h m x y, proper h -> (x_port x = Some DIn \/ x_port x = Some DOut) -> (x_port y = Some DIn \/ x_port y = Some DOut) ->
  (own m x = false \/ own m y = false \/ inst_sig y = false /\ (is_iface x = false \/ is_iface y = false)) ->
  (own m x = true -> own m y = false -> inst_sig x = false) -> (own m y = true -> own m x = false -> inst_sig y = false) ->
  wire h m x y =
    if (if own m x then dir_eqb (match x_port x with Some d => d | None => DInOut end) (if inst_sig x then DIn else DOut) else kid h m x && dir_eqb (match x_port x with Some d => d | None => DInOut end) DIn)
       && (if own m y then dir_eqb (match x_port y with Some d => d | None => DInOut end) (if inst_sig y then DOut else DIn) else kid h m y && dir_eqb (match x_port y with Some d => d | None => DInOut end) DOut)
    then Ok (x, y)
    else if (if own m y then dir_eqb (match x_port y with Some d => d | None => DInOut end) (if inst_sig y then DIn else DOut) else kid h m y && dir_eqb (match x_port y with Some d => d | None => DInOut end) DIn)
       && (if own m x then dir_eqb (match x_port x with Some d => d | None => DInOut end) (if inst_sig x then DOut else DIn) else kid h m x && dir_eqb (match x_port x with Some d => d | None => DInOut end) DOut)
    then Ok (y, x) else Throw.
Proof.
  intros h m x y P Dx Dy S Ix Iy. unfold wire, wire_direction.
  assert (match x_port x, x_port y with Some d1, Some d2 => True | _, _ => False end) as T by (destruct Dx as [-> | ->], Dy as [-> | ->]; exact I).
  destruct (x_port x) as [d1|], (x_port y) as [d2|]; try contradiction. rewrite port_direction_eq by assumption. clear T.
  unfold inst_sig, is_iface, iface_is_port in *.
  destruct (own m x) eqn:Ox, (own m y) eqn:Oy.
  - cbn [andb]. destruct S as [S|[S|[S1 S2]]]; try discriminate.
    destruct Dx as [Dx|Dx], Dy as [Dy|Dy]; injection Dx as ->; injection Dy as ->;
      destruct (x_iface x) as [[]|], (x_iface y) as [[]|]; cbn in *; try discriminate; try reflexivity; destruct S2; discriminate.
  - cbn [andb]. specialize (Ix eq_refl eq_refl). destruct (x_iface x) as [[]|]; try discriminate;
    destruct (kid h m y); destruct Dx as [Dx|Dx], Dy as [Dy|Dy]; injection Dx as ->; injection Dy as ->; cbn; rewrite ?(not_both h m x) by assumption; reflexivity.
  - cbn [andb]. specialize (Iy eq_refl eq_refl). destruct (x_iface y) as [[]|]; try discriminate;
    destruct (kid h m x); destruct Dx as [Dx|Dx], Dy as [Dy|Dy]; injection Dx as ->; injection Dy as ->; cbn; rewrite ?(not_both h m y) by assumption; reflexivity.
  - cbn [andb]. destruct (kid h m x), (kid h m y); destruct Dx as [Dx|Dx], Dy as [Dy|Dy]; injection Dx as ->; injection Dy as ->; reflexivity.
Qed.
