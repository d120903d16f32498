From Verif Require Import Base Pm_spec Pm_model.
Local Open Scope list_scope.

Lemma find_app l n k f : find_pass (l ++ [(k, f)]) n = match find_pass l n with Some g => Some g | None => if String.eqb n k then Some f else None end.
Proof. induction l as [|(j & g) l IH]; cbn [app find_pass]; [reflexivity|]. destruct (String.eqb n j); [reflexivity|exact IH]. Qed.
Lemma after_snoc h c : after (h ++ [c]) = fst (do_call (after h) c).
Proof. unfold after. rewrite fold_left_app. reflexivity. Qed.
Lemma snoc_split {A} (h h1 h2 : list A) x y : h ++ [x] = h1 ++ y :: h2 -> (h2 = [] /\ h = h1 /\ x = y) \/ exists h3, h2 = h3 ++ [x] /\ h = h1 ++ y :: h3.
Proof.
  intros E. destruct h2 as [|z h2 _] using rev_ind.
  - left. apply app_inj_tail in E. destruct E as (-> & ->). repeat split.
  - right. exists h2. change (y :: h2 ++ [z]) with ((y :: h2) ++ [z]) in E. rewrite app_assoc in E. apply app_inj_tail in E. destruct E as (-> & ->). split; reflexivity.
Qed.
Lemma registered_snoc h c n f : registered (h ++ [c]) n f <-> registered h n f \/ (c = Register n f /\ forall g, ~ In (Register n g) h).
Proof.
  split.
  - intros (h1 & h2 & E & N). destruct (snoc_split _ _ _ _ _ E) as [(_ & -> & ->)|(h3 & _ & ->)]; [right; split; [reflexivity|exact N]|left; exists h1, h3; split; [reflexivity|exact N]].
  - intros [(h1 & h2 & -> & N)|(-> & N)]; [exists h1, (h2 ++ [c])|exists h, []]; (split; [|exact N]); [rewrite <- app_assoc; reflexivity|reflexivity].
Qed.
Lemma registered_first h n g : In (Register n g) h -> exists f, registered h n f.
Proof.
  induction h as [|c h IH] using rev_ind; intros H; [destruct H|]. destruct (in_app_or _ _ _ H) as [H'|[H'|[]]].
  - destruct (IH H') as (f & R). exists f. apply registered_snoc. left. exact R.
  - subst c. assert (D : (exists f, registered h n f) \/ forall f, ~ In (Register n f) h).
    { clear -IH. induction h as [|c h IH'] using rev_ind; [right; intros f []|]. destruct IH' as [(f & R)|N].
      - intros H. destruct (IH (in_or_app _ _ _ (or_introl H))) as (f & R). apply registered_snoc in R. destruct R as [R|(_ & R)]; [exists f; exact R|]. exfalso. exact (R g H).
      - left. exists f. apply registered_snoc. left. exact R.
      - destruct c as [k f|k]; [destruct (String.eqb_spec k n) as [->|Nk]|].
        + left. exists f. apply registered_snoc. right. split; [reflexivity|exact N].
        + right. intros f' H. destruct (in_app_or _ _ _ H) as [H'|[H'|[]]]; [exact (N f' H')|injection H' as H1 H2; contradiction].
        + right. intros f' H. destruct (in_app_or _ _ _ H) as [H'|[H'|[]]]; [exact (N f' H')|discriminate H']. }
    destruct D as [(f & R)|N]; [exists f; apply registered_snoc; left; exact R|exists g; apply registered_snoc; right; split; [reflexivity|exact N]].
Qed.
Lemma registered_in h n f : registered h n f -> In (Register n f) h.
Proof. intros (h1 & h2 & -> & _). apply in_or_app. right. left. reflexivity. Qed.
(* what is registered is found *)
Lemma find_registered h n f : find_pass (m_passes (after h)) n = Some f <-> registered h n f.
Proof.
  revert f. induction h as [|c h IH] using rev_ind; intros f.
  - split; [discriminate|]. intros (h1 & h2 & E & _). destruct h1; discriminate E.
  - rewrite after_snoc, registered_snoc. destruct c as [k g|k]; cbn [do_call].
    + unfold register_pass, has_pass. destruct (find_pass (m_passes (after h)) k) as [g'|] eqn:Ek; cbn [fst m_passes].
      * rewrite IH. split; [intros R; left; exact R|]. intros [R|(E & N)]; [exact R|]. injection E as -> ->. apply (IH g') in Ek. exfalso. exact (N g' (registered_in _ _ _ Ek)).
      * rewrite find_app. destruct (find_pass (m_passes (after h)) n) as [g'|] eqn:En.
        -- rewrite IH. split; [intros R; left; exact R|]. intros [R|(E & N)]; [exact R|]. injection E as -> ->. congruence.
        -- assert (Nn : forall f, ~ registered h n f) by (intros f' R; apply IH in R; discriminate R).
           destruct (String.eqb_spec n k) as [->|Nk].
           ++ split; [intros E; injection E as ->; right; split; [reflexivity|]; intros g' H; destruct (registered_first _ _ _ H) as (f' & R); exact (Nn f' R)|].
              intros [R|(E & _)]; [exfalso; exact (Nn f R)|]. injection E as ->. reflexivity.
           ++ split; [discriminate|]. intros [R|(E & _)]; [exfalso; exact (Nn f R)|]. injection E as E1 E2. congruence.
    + assert (X : m_passes (fst (add_pass (after h) k)) = m_passes (after h)) by (unfold add_pass; destruct (negb _); reflexivity). rewrite X, IH.
      split; [intros R; left; exact R|]. intros [R|(E & _)]; [exact R|discriminate E].
Qed.
Lemma Forall2_mono {A B} (P Q : A -> B -> Prop) l k : (forall a b, P a b -> Q a b) -> Forall2 P l k -> Forall2 Q l k.
Proof. intros H F. induction F; constructor; auto. Qed.
(* every name in the order has its pass, and these are those that were added *)
Lemma order_added h : exists l, added h l /\ Forall2 (fun n f => registered h n f) (m_order (after h)) l.
Proof.
  induction h as [|c h IH] using rev_ind; [exists []; split; constructor|]. destruct IH as (l & A & F). rewrite after_snoc.
  assert (F' : Forall2 (fun n f => registered (h ++ [c]) n f) (m_order (after h)) l) by (eapply Forall2_mono; [|exact F]; intros n f R; apply registered_snoc; left; exact R).
  destruct c as [k g|k]; cbn [do_call].
  - exists l. split; [constructor; exact A|]. unfold register_pass. destruct (has_pass _ _); exact F'.
  - unfold add_pass, has_pass. destruct (find_pass (m_passes (after h)) k) as [f|] eqn:Ek; cbn [negb fst m_order].
    + apply find_registered in Ek. exists (l ++ [f]). split; [constructor; assumption|]. apply Forall2_app; [exact F'|]. constructor; [|constructor]. apply registered_snoc. left. exact Ek.
    + exists l. split; [|exact F']. apply A_unknown; [exact A|]. intros f R. apply find_registered in R. congruence.
Qed.
Lemma registered_fun h n f g : registered h n f -> registered h n g -> f = g.
Proof. intros A B. apply find_registered in A. apply find_registered in B. congruence. Qed.
Lemma snoc_inj {A} (h h' : list A) x y : h ++ [x] = h' ++ [y] -> h = h' /\ x = y.
Proof. apply app_inj_tail. Qed.
Lemma added_fun h l : added h l -> forall l', added h l' -> l' = l.
Proof.
  induction 1 as [|h l n f A IH|h l n f A IH R|h l n A IH N]; intros l' B; inversion B as [E|h' k n' f' A' E|h' k n' f' A' R' E|h' k n' A' N' E]; subst;
    try (destruct h; discriminate); try (destruct h'; discriminate); try (apply snoc_inj in E; destruct E as (-> & E); try discriminate E; injection E; intros; subst); try reflexivity; try (apply IH; assumption).
  - rewrite (IH _ A'), (registered_fun _ _ _ _ R R'). reflexivity.
  - exfalso. exact (N' _ R).
  - exfalso. exact (N _ R').
Qed.
Lemma run_runs G (pass : nat -> G -> G * outcome unit) m ns l : Forall2 (fun n f => find_pass (m_passes m) n = Some f) ns l -> forall x, runs G pass l x (fst (run_order G pass m ns x)) (snd (run_order G pass m ns x)).
Proof.
  induction 1 as [|n f ns l E F IH]; intros x; cbn [run_order]; [constructor|]. rewrite E. destruct (pass f x) as (y & o) eqn:P. destruct o as [[]| |].
  - eapply R_ok; [exact P|]. apply IH.
  - apply R_end; [exact P|discriminate].
  - apply R_end; [exact P|discriminate].
Qed.
