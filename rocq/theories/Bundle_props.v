From Verif Require Import Base Wire_spec Wire_model Wire_proofs Name_model Name_proofs Bundle_spec Bundle_model Wire_props.
From Coq Require Import String.
Local Open Scope string_scope.

(* a bundle with the fields of l added in order, ignoring rejected calls *)
Definition add_all (u : bundle) (l : list (string * field)) : bundle :=
  fold_left (fun u nf => fst (add_definition u (fst nf) (snd nf))) l u.
Lemma add_find : forall u n f k, f_dir f <> DInOut ->
  find_key (u_defs (fst (add_definition u n f))) k = match find_key (u_defs u) k with Some v => Some v | None => if String.eqb k n then Some f else None end
  /\ (forall k, find_key (u_flipped u) k = option_map reversed (find_key (u_defs u) k)) ->
     forall k, find_key (u_flipped (fst (add_definition u n f))) k = option_map reversed (find_key (u_defs (fst (add_definition u n f))) k).
Proof.
  intros u n f k Hd [_ H]. clear k. intros k. unfold add_definition. destruct (find_key (u_defs u) n) eqn:E; [apply H|].
  destruct (f_dir f) eqn:D; [| |congruence]; cbn [fst u_flipped u_defs]; rewrite !find_emplace, H;
    destruct (find_key (u_defs u) k); cbn; try reflexivity; destruct (k =? n); try reflexivity; cbn; unfold reversed; rewrite D; reflexivity.
Qed.
Lemma add_defs : forall u n f k, find_key (u_defs (fst (add_definition u n f))) k =
  match find_key (u_defs u) k with Some v => Some v | None => if String.eqb k n then Some f else None end.
Proof.
  intros u n f k. unfold add_definition. destruct (find_key (u_defs u) n) eqn:E.
  - cbn [fst]. destruct (find_key (u_defs u) k) eqn:K; [reflexivity|]. destruct (String.eqb_spec k n) as [->|]; [congruence|reflexivity].
  - destruct (f_dir f); cbn [fst u_defs]; apply find_emplace.
Qed.
Lemma add_all_defs : forall l u k, find_key (u_defs (add_all u l)) k = match find_key (u_defs u) k with Some v => Some v | None => first_def l k end.
Proof.
  induction l as [|[n f] r IH]; intros u k; cbn [add_all fold_left first_def fst snd].
  - destruct (find_key (u_defs u) k); reflexivity.
  - fold (add_all (fst (add_definition u n f)) r). rewrite IH, add_defs. destruct (find_key (u_defs u) k); [reflexivity|]. destruct (k =? n); reflexivity.
Qed.
Lemma add_all_flipped : forall l u, Forall (fun nf => f_dir (snd nf) <> DInOut) l ->
  (forall k, find_key (u_flipped u) k = option_map reversed (find_key (u_defs u) k)) ->
  forall k, find_key (u_flipped (add_all u l)) k = option_map reversed (find_key (u_defs (add_all u l)) k).
Proof.
  induction l as [|[n f] r IH]; intros u F H; [exact H|]. inversion F; subst. cbn [add_all fold_left fst snd] in *.
  apply IH; [assumption|]. intros k. apply add_find with (k := k); [assumption|]. split; [apply add_defs|assumption].
Qed.

(* The fields are the first definitions of their names, and the flipped bundle has the same fields
   with the directions reversed. *)
Theorem C36_flip_reverses_directions : forall name l n, Forall (fun nf => f_dir (snd nf) <> DInOut) l ->
  definition (add_all (new_bundle name) l) n = first_def l n /\
  definition (flip (add_all (new_bundle name) l)) n = option_map reversed (first_def l n).
Proof.
  intros name l n F. assert (definition (add_all (new_bundle name) l) n = first_def l n) as D by (unfold definition; now rewrite add_all_defs).
  split; [exact D|]. unfold definition in *. cbn [flip u_defs]. rewrite add_all_flipped; [now rewrite D|assumption|reflexivity].
Qed.
(* A second definition of a name is rejected and changes nothing. *)
Theorem C36_duplicates_are_rejected : forall u n f g, definition u n = Some g -> add_definition u n f = (u, Throw).
Proof. intros u n f g H. unfold add_definition, definition in *. now rewrite H. Qed.
(* Flipping twice gives the same fields, for every bundle; the debug information is kept. *)
Theorem C36_flip_is_an_involution : forall u n, definition (flip (flip u)) n = definition u n
  /\ u_debug (flip u) = u_debug u /\ (forall i, find_key (u_debug (flip (add_debug u n i))) n = find_key (u_debug (add_debug u n i)) n).
Proof. intros. split; [reflexivity|]. split; reflexivity. Qed.
Definition fld (d : dir) : field := {| f_width := 8; f_size := 1; f_signed := false; f_dir := d; f_kind := 0%nat |}.
Definition ex_l : list (string * field) := [("a", fld DIn); ("b", fld DOut); ("a", fld DOut)].
Example C36_ex : definition (flip (add_all (new_bundle "u") ex_l)) "a" = Some (fld DOut)
  /\ definition (flip (add_all (new_bundle "u") ex_l)) "b" = Some (fld DIn) /\ Forall (fun nf => f_dir (snd nf) <> DInOut) ex_l.
Proof. split; [reflexivity|]. split; [reflexivity|]. repeat constructor; discriminate. Qed.
(* The name is lost. *)
Theorem C117_flip_loses_the_name_refuted : forall u, u_name (flip u) = "" /\ (u_name u <> "" -> u_name (flip (flip u)) <> u_name u).
Proof. intros u. split; [reflexivity|]. cbn. congruence. Qed.
Example C117_ex : u_name (flip (new_bundle "bus")) = "".
Proof. reflexivity. Qed.
(* A rejected inout field stays in the bundle, and flipping drops it. *)
Theorem C118_rejected_inout_remains_refuted : forall u n f, definition u n = None -> definition (flip u) n = None -> f_dir f = DInOut ->
  snd (add_definition u n f) = Throw /\ definition (fst (add_definition u n f)) n = Some f /\ definition (flip (fst (add_definition u n f))) n = None.
Proof.
  intros u n f N N2 D. split; [|split].
  - unfold add_definition, definition in *. rewrite N, D. reflexivity.
  - unfold definition in *. rewrite add_defs, N, String.eqb_refl. reflexivity.
  - unfold definition, add_definition in *. rewrite N, D. exact N2.
Qed.
Example C118_ex : definition (fst (add_definition (new_bundle "u") "a" (fld DInOut))) "a" = Some (fld DInOut).
Proof. reflexivity. Qed.

(* ---- connecting two bundles ---- *)
Lemma assign_fields_ok : forall h m l other ws ws', assign_fields h m l other ws = (ws', Ok tt) ->
  exists new, ws' = (ws ++ new)%list /\ Forall2 (fun nf w => exists q, find_key other (fst nf) = Some q /\ wire h m (snd nf) q = Ok w) l new.
Proof.
  induction l as [|[n p] r IH]; intros other ws ws' H; cbn [assign_fields] in H.
  - injection H as <-. exists []. rewrite app_nil_r. auto.
  - destruct (find_key other n) as [q|] eqn:Q; [|discriminate]. destruct (wire h m p q) as [w| |] eqn:W; try discriminate.
    apply IH in H as (new & -> & F). exists (w :: new). rewrite <- app_assoc. split; [reflexivity|]. constructor; [|assumption]. exists q. auto.
Qed.
(* A successful connection adds one legal wire for every field, between the ports of that field,
   and both bundles have the same fields. *)
Theorem C119_bundle_connection : forall h m self other ws, proper h ->
  NoDup (map fst self) -> NoDup (map fst other) ->
  (forall n p, In (n, p) self \/ In (n, p) other -> directed p /\ x_iface p = None) ->
  assign_bundle h m self other = (ws, Ok tt) ->
  (forall n, In n (map fst self) <-> In n (map fst other)) /\
  Forall2 (fun nf w => exists q, In (fst nf, q) other /\ (w = (snd nf, q) \/ w = (q, snd nf)) /\ role_in h m (fst w) Driven /\ role_in h m (snd w) Source) self ws.
Proof.
  intros h m self other ws P N1 N2 D H. unfold assign_bundle in H. destruct (Nat.eqb_spec (List.length self) (List.length other)) as [L|]; [|discriminate].
  apply assign_fields_ok in H as (new & -> & F). cbn [app].
  assert (incl (map fst self) (map fst other)) as I.
  { intros n Hn. clear -F Hn. induction F as [|[k p] w l l' (q & Q & W) _ IH]; [destruct Hn|]. cbn in Hn. destruct Hn as [->|Hn]; [|auto].
    apply find_in in Q. apply in_map_iff. exists (n, q). auto. }
  split.
  - intros n. split; [apply I|]. apply NoDup_length_incl; [assumption|rewrite !map_length; lia|exact I].
  - assert (forall n p, In (n, p) self -> directed p /\ x_iface p = None) as D1 by eauto. clear I L N1 N2. induction F as [|[k p] w l l' (q & Q & W) _ IH]; [constructor|].
    constructor; [|apply IH; [|intros n p0 H0; apply (D1 n); now right]; intros n p0 [H0|H0]; [apply (D n); left; now right|apply (D n); auto]].
    cbn [fst snd] in *. apply find_in in Q. exists q. split; [assumption|].
    destruct (D1 k p (or_introl eq_refl)) as [Dp Ip]. destruct (D k q (or_intror Q)) as [Dq Iq]. destruct w as [t s].
    apply C34_ports_are_wired_the_legal_way in W; auto. cbn [fst snd]. destruct W as [C R]. split; [|exact R]. destruct C as [[-> ->]|[-> ->]]; auto.
Qed.
Example C119_ex : assign_bundle ex_h 0 [("a", prt 1 DOut); ("b", prt 1 DIn)] [("b", prt 2 DOut); ("a", prt 2 DIn)]
  = ([(prt 2 DIn, prt 1 DOut); (prt 1 DIn, prt 2 DOut)], Ok tt).
Proof. reflexivity. Qed.
(* A rejected connection leaves the wires of the earlier fields. *)
Theorem C120_rejected_connection_leaves_wires_refuted : forall h m n k p q r s w, n <> k -> s <> k -> wire h m p q = Ok w -> n <> s ->
  assign_bundle h m [(n, p); (k, r)] [(n, q); (s, r)] = ([w], Throw).
Proof.
  intros h m n k p q r s w N S W N2. unfold assign_bundle. cbn [List.length Nat.eqb assign_fields find_key]. rewrite String.eqb_refl, W.
  destruct (String.eqb_spec k n); [congruence|]. destruct (String.eqb_spec k s); [congruence|]. reflexivity.
Qed.
Example C120_ex : assign_bundle ex_h 0 [("a", prt 1 DOut); ("b", prt 1 DIn)] [("a", prt 2 DIn); ("c", prt 2 DOut)] = ([(prt 2 DIn, prt 1 DOut)], Throw).
Proof. reflexivity. Qed.

Print Assumptions C36_flip_reverses_directions.
Print Assumptions C36_duplicates_are_rejected.
Print Assumptions C36_flip_is_an_involution.
Print Assumptions C117_flip_loses_the_name_refuted.
Print Assumptions C118_rejected_inout_remains_refuted.
Print Assumptions C119_bundle_connection.
Print Assumptions C120_rejected_connection_leaves_wires_refuted.
