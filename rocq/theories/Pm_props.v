From Verif Require Import Base Pm_spec Pm_model Pm_proofs.
Local Open Scope list_scope.
Local Open Scope string_scope.

(* C508: a pass manager runs the passes that were added, in order, each the first that was registered under its name, until one ends with an
   exception. *)
Theorem C508_run : forall G (pass : nat -> G -> G * outcome unit) h, exists l,
  (forall l', added h l' <-> l' = l) /\ forall x, runs G pass l x (fst (run_passes G pass (after h) x)) (snd (run_passes G pass (after h) x)).
Proof.
  intros G pass h. destruct (order_added h) as (l & A & F). exists l. split.
  - intros l'. split; [intros B; exact (added_fun h l A l' B)|intros ->; exact A].
  - intros x. apply run_runs. eapply Forall2_mono; [|exact F]. intros n f R. apply find_registered, R.
Qed.
(* ... a name is registered once, and only a name that is registered can be added; what is refused changes nothing. *)
Theorem C508_refused : forall h n f,
  (snd (do_call (after h) (Register n f)) = Throw <-> exists g, registered h n g) /\ (snd (do_call (after h) (Add n)) = Throw <-> forall g, ~ registered h n g)
  /\ forall c, snd (do_call (after h) c) = Throw -> fst (do_call (after h) c) = after h.
Proof.
  intros h n f. cbn [do_call]. unfold register_pass, add_pass, has_pass. destruct (find_pass (m_passes (after h)) n) as [g|] eqn:E; cbn [negb snd].
  - apply find_registered in E. split; [split; [intros _; exists g; exact E|reflexivity]|]. split; [split; [discriminate|intros H; exfalso; exact (H g E)]|].
    intros c. destruct c as [k j|k]; cbn [do_call]; unfold register_pass, add_pass; [destruct (has_pass _ _)|destruct (negb _)]; cbn [fst snd]; (reflexivity || discriminate).
  - assert (N : forall g, ~ registered h n g) by (intros g R; apply find_registered in R; congruence). split; [split; [discriminate|intros (g & R); exfalso; exact (N g R)]|]. split; [split; [intros _; exact N|reflexivity]|].
    intros c. destruct c as [k j|k]; cbn [do_call]; unfold register_pass, add_pass; [destruct (has_pass _ _)|destruct (negb _)]; cbn [fst snd]; (reflexivity || discriminate).
Qed.
Example C508_ex : run_passes (list nat) (fun f x => ((x ++ [f])%list, if Nat.eqb f 9 then Throw else Ok tt)) (after [Register "a" 1; Register "b" 2; Register "a" 3; Add "b"; Add "c"; Add "a"; Add "b"]) [] = ([2; 1; 2]%nat, Ok tt)
  /\ registered [Register "a" 1; Register "b" 2; Register "a" 3] "a" 1.
Proof. split; [reflexivity|]. exists [], [Register "b" 2; Register "a" 3]. split; [reflexivity|intros g []]. Qed.
Print Assumptions C508_run.
Print Assumptions C508_refused.
