From Coq Require Import Lia.
From Verif Require Import Base Cpy_spec Cpy_model.
Local Open Scope Z_scope.
Local Open Scope list_scope.

Lemma existsb_in n l : existsb (String.eqb n) l = true <-> In n l.
Proof.
  rewrite existsb_exists. split; [intros (x & H & E); apply String.eqb_eq in E; subst; exact H|intros H; exists n; split; [exact H|apply String.eqb_refl]].
Qed.
Lemma existsb_out n l : ~ In n l -> existsb (String.eqb n) l = false.
Proof. intros H. destruct (existsb (String.eqb n) l) eqn:E; [|reflexivity]. apply existsb_in in E. contradiction. Qed.
Lemma special_control t : special t = true <-> control t.
Proof. unfold control. destruct t; cbn; split; intros H; try reflexivity; try discriminate; try tauto; destruct H as [H|[H|[H|H]]]; discriminate. Qed.
Lemma add_port_unused g n p : unused g n -> exists g', add_port g n p = Ok g' /\ here g' n p /\ kept g g'.
Proof.
  intros (A & B). unfold add_port. rewrite (existsb_out _ _ A), (existsb_out _ _ B). eexists. split; [reflexivity|]. split.
  - split; [cbn [g_ports]; apply in_or_app; right; left; reflexivity|]. exists (g_vars g), []. split; [reflexivity|exact B].
  - split; eexists; reflexivity.
Qed.
Lemma bitwidth_total l : Forall (fun m => 0 < snd m) l -> total (map snd l) < 2 ^ 32 -> bitwidth l = total (map snd l).
Proof.
  intros P. unfold bitwidth.
  assert (G : forall l a, Forall (fun m : string * Z => 0 < snd m) l -> 0 <= a -> a + total (map snd l) < 2 ^ 32 ->
    fold_left (fun a m => (a + snd m) mod 2 ^ 32) l a = a + total (map snd l)).
  { clear. induction l as [|[n w] l IH]; intros a F A B; cbn [fold_left map snd total fold_right] in *; [lia|].
    assert (Fw : 0 < w) by (inversion F; assumption). assert (Fl : Forall (fun m : string * Z => 0 < snd m) l) by (inversion F; assumption).
    assert (T : 0 <= total (map snd l)).
    { clear - Fl. induction Fl as [|m l H Fl IH]; [cbn; lia|]. cbn [map total fold_right]. unfold total in IH. lia. }
    unfold total in *. rewrite Z.mod_small; [rewrite IH; [lia|exact Fl|lia|lia]|]. split; [lia|]. lia. }
  intros B. rewrite G; [lia|exact P|lia|lia].
Qed.
Lemma made_struct p l : made p -> p_kind p = Struct l ->
  p_width p = total (map snd l) /\ total (map snd l) < 2 ^ 32 /\ Forall (fun m => 0 < snd m) l /\ p_type p = PData /\ p_signed p = false /\ p_packed p = true.
Proof.
  intros M. revert l. induction M; cbn [p_kind p_width p_type p_signed p_packed]; intros l' E; try discriminate.
  - injection E as <-. repeat (split; [first [reflexivity|assumption]|]). reflexivity.
  - exfalso. eapply H. exact E.
  - destruct (IHM l' E) as (A & B & C & D & F & G). repeat (split; [assumption|]). eapply H. exact E.
  - exact (IHM l' E).
  - exact (IHM l' E).
Qed.
Lemma made_enum p e w : made p -> p_kind p = Enumerated e w -> p_width p = w /\ p_size p = [1] /\ 0 < w < 2 ^ 32 /\ p_signed p = false.
Proof.
  intros M. revert e w. induction M; cbn [p_kind p_width p_size p_signed]; intros e' w' E; try discriminate; try exact (IHM e' w' E).
  injection E as <- <-. repeat (split; [first [reflexivity|assumption]|]). reflexivity.
Qed.
Lemma made_width p : made p -> p_kind p = Plain -> 0 < p_width p < 2 ^ 32.
Proof. induction 1; cbn [p_kind p_width]; intros E; try discriminate; auto. Qed.
