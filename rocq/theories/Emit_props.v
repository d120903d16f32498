(* C229-C234: the lines noted for debugging are the lines of the text. *)
From Verif Require Import Base Emit_spec Emit_model Emit_proofs.

Definition counted_only (m : mod_) : Prop := forall f, In f (m_funcs m) -> f_extern f = true \/ f_ports f <> [].
Lemma only_counted : forall src m, counted_only m -> forall a b, module_code src m = a ++ b -> uncounted a = 0.
Proof.
  intros src m C a b E.
  assert (U : uncounted (module_code src m) = 0).
  { unfold module_code. rewrite !uncounted_app, (no_std_0 _ (header_no_std src m)), funcs_uncounted.
    rewrite (no_std_0 (flat_map (top_code src) (m_stmts m))) by (apply no_std_flat, Forall_forall; intros; apply top_no_std).
    cut (filter bare (m_funcs m) = []); [intros ->; reflexivity|]. unfold counted_only in C. induction (m_funcs m) as [|f l IH]; [reflexivity|].
    cbn [filter]. unfold bare. destruct (C f (or_introl eq_refl)) as [X|X].
    - rewrite X. cbn. apply IH. intros g G. apply C. now right.
    - destruct (f_ports f); [congruence|]. rewrite andb_false_r. apply IH. intros g G. apply C. now right. }
  rewrite E, uncounted_app in U. lia.
Qed.
Lemma lines_iff : forall src m x n, counted_only m -> ~ is_case x ->
  (noted (module_code src m) x n -> on_line (module_code src m) x (n + off x))
  /\ (on_line (module_code src m) x n -> exists k, noted (module_code src m) x k /\ n = k + off x).
Proof.
  intros src m x n C K. split.
  - intros (a & b & E & ->). pose proof (noted_line _ a x b (module_good src m) E) as H. rewrite (only_counted src m C a _ E), Nat.add_0_r in H. exact H.
  - intros (a & b & E & ->). pose proof (module_good src m) as (_ & Q & _). destruct (Q a x b E) as [X|(c & d & -> & N)]; [contradiction|].
    exists (S (counted c)). split.
    + exists c, (d ++ Key x :: b). rewrite <- app_assoc in E. auto.
    + rewrite newlines_app, newlines_split. change (newlines (Note x :: d)) with (newlines d).
      rewrite (only_counted src m C c ((Note x :: d) ++ Key x :: b)) by (now rewrite app_assoc). lia.
Qed.

(* C229 *)
Theorem C229_lines : forall src m x n, counted_only m -> (forall i, x <> NFf i) -> (forall i k, x <> NConn i k) -> (forall i, x <> NCase i) ->
  (noted (module_code src m) x n <-> on_line (module_code src m) x n).
Proof.
  intros src m x n C F K S. assert (O : off x = 0) by (destruct x; auto; [destruct (F i); reflexivity|destruct (K i k); reflexivity]).
  assert (N : ~ is_case x) by (destruct x; cbn; auto; destruct (S i); reflexivity).
  destruct (lines_iff src m x n C N) as [A B]. rewrite O, Nat.add_0_r in *. split; [exact A|]. intros H. destruct (B H) as (k & Nk & ->). rewrite Nat.add_0_r. exact Nk.
Qed.
Definition fx ports : func := {| f_id := 20; f_extern := false; f_ports := ports; f_body := [SReturn 21] |}.
Definition mx funcs : mod_ := {| m_pkg := false; m_imports := 0; m_params := 1; m_ifaces := 0; m_ports := [(1, false); (2, true)]; m_enums := [[3; 4]];
  m_vars := [(5, false)]; m_insts := []; m_funcs := funcs;
  m_stmts := [TStmt (SAssign 10 true 1); TBlock 11 false [SIf 12 13 [SAssign 14 false 0] 15 [SAssign 16 false 0]; SCase 17 [Some (18, false, [SAssign 19 false 0]); None]];
              TFf 30 false [SAssign 31 false 0]; TInst 40 false 2 3] |}.
Example C229_ex : counted_only (mx [fx [22]]) /\ on_line (module_code (fun _ => false) (mx [fx [22]])) (NStmt 16) 29
  /\ noted (module_code (fun _ => false) (mx [fx [22]])) (NStmt 16) 29.
Proof.
  assert (C : counted_only (mx [fx [22]])) by (intros f [<-|[]]; right; discriminate).
  assert (H : on_line (module_code (fun _ => false) (mx [fx [22]])) (NStmt 16) 29).
  { first [apply on_line_of|apply noted_of]; vm_compute; tauto. }
  split; [exact C|]. split; [exact H|]. apply C229_lines; auto; discriminate.
Qed.

(* C230 *)
Theorem C230_clocked_blocks_refuted : forall src m i n, counted_only m ->
  (noted (module_code src m) (NFf i) n <-> on_line (module_code src m) (NFf i) (S n)).
Proof.
  intros src m i n C. destruct (lines_iff src m (NFf i) n C (fun x => x)) as [A _]. destruct (lines_iff src m (NFf i) (S n) C (fun x => x)) as [_ B]. cbn [off] in *. split.
  - intros H. apply A in H. now rewrite Nat.add_1_r in H.
  - intros H. destruct (B H) as (k & Nk & E). rewrite Nat.add_1_r in E. injection E as ->. exact Nk.
Qed.
Example C230_ex : exists n, noted (module_code (fun _ => false) (mx [])) (NFf 30) n /\ on_line (module_code (fun _ => false) (mx [])) (NFf 30) (S n).
Proof.
  exists 28. assert (H : on_line (module_code (fun _ => false) (mx [])) (NFf 30) 29).
  { first [apply on_line_of|apply noted_of]; vm_compute; tauto. }
  split; [|exact H]. apply C230_clocked_blocks_refuted; [intros f []|exact H].
Qed.

(* C231: what is noted among the statements is early by one line for each function without ports before them *)
Theorem C231_function_without_ports_refuted : forall src m x a b,
  let before := header_code src m ++ flat_map (func_code src) (m_funcs m) in
  module_code src m = (before ++ a) ++ Note x :: b -> a ++ Note x :: b = flat_map (top_code src) (m_stmts m) ++ [Text; Nl] ->
  on_line (module_code src m) x (S (counted (before ++ a)) + off x + List.length (filter (fun f => negb (f_extern f) && match f_ports f with [] => true | _ => false end) (m_funcs m))).
Proof.
  intros src m x a b before E T. pose proof (noted_line _ _ x b (module_good src m) E) as H.
  assert (U : uncounted (before ++ a) = List.length (filter bare (m_funcs m))).
  { unfold before. rewrite !uncounted_app, (no_std_0 _ (header_no_std src m)), funcs_uncounted.
    assert (Z : uncounted (a ++ Note x :: b) = 0).
    { rewrite T. apply no_std_0. rewrite no_std_app. apply andb_true_iff. split; [|reflexivity]. apply no_std_flat, Forall_forall. intros; apply top_no_std. }
    rewrite uncounted_app in Z. lia. }
  rewrite U in H. exact H.
Qed.
Example C231_ex : noted (module_code (fun _ => false) (mx [fx []])) (NStmt 16) 26 /\ on_line (module_code (fun _ => false) (mx [fx []])) (NStmt 16) 27.
Proof.
  split.
  - first [apply on_line_of|apply noted_of]; vm_compute; tauto.
  - first [apply on_line_of|apply noted_of]; vm_compute; tauto.
Qed.

(* C232 *)
Theorem C232_connections_refuted : forall src m i k n, counted_only m ->
  (noted (module_code src m) (NConn i k) n <-> on_line (module_code src m) (NConn i k) (n + k)).
Proof.
  intros src m i k n C. destruct (lines_iff src m (NConn i k) n C (fun x => x)) as [A _]. destruct (lines_iff src m (NConn i k) (n + k) C (fun x => x)) as [_ B]. cbn [off] in *.
  split; [exact A|]. intros H. destruct (B H) as (j & Nj & E). assert (j = n) by lia. now subst.
Qed.
Example C232_ex : exists n, noted (module_code (fun _ => false) (mx [])) (NConn 40 2) n /\ on_line (module_code (fun _ => false) (mx [])) (NConn 40 2) (n + 2)
  /\ noted (module_code (fun _ => false) (mx [])) (NConn 40 0) n.
Proof.
  exists 36. split; [|split].
  - first [apply on_line_of|apply noted_of]; vm_compute; tauto.
  - first [apply on_line_of|apply noted_of]; vm_compute; tauto.
  - first [apply on_line_of|apply noted_of]; vm_compute; tauto.
Qed.

(* C233 *)
Theorem C233_case_statements_refuted : forall src m i n, ~ noted (module_code src m) (NCase i) n.
Proof.
  intros src m i n (a & b & E & _). pose proof (module_good src m) as (_ & _ & Q). apply (Q i). rewrite E. apply in_app_iff. right. now left.
Qed.
Example C233_ex : exists n, on_line (module_code (fun _ => false) (mx [])) (NCase 17) n.
Proof. exists 23. first [apply on_line_of|apply noted_of]; vm_compute; tauto. Qed.

(* C234 *)
Theorem C234_module_entry_refuted : forall src m, m_pkg m = true ->
  on_line (module_code src m) NModule 4 /\ noted (module_code src m) NModule 4 /\ ~ on_line (module_code src m) NModule module_entry.
Proof.
  intros src m P. unfold module_code, header_code. rewrite P. split; [|split].
  - exists [Text; Nl; Nl; Text; Nl; Note NModule]. eexists. split; reflexivity.
  - exists [Text; Nl; Nl; Text; Nl]. eexists. split; reflexivity.
  - intros ([|? [|? a]] & b & E & N); cbn in E; try discriminate; inversion E; subst. cbn in N. discriminate.
Qed.
Example C234_ex : module_entry = 1 /\ on_line (module_code (fun _ => false) (mx [])) NModule 1.
Proof. split; [reflexivity|]. exists [Note NModule]. eexists. split; reflexivity. Qed.
Print Assumptions C229_lines.
Print Assumptions C230_clocked_blocks_refuted.
Print Assumptions C231_function_without_ports_refuted.
Print Assumptions C232_connections_refuted.
Print Assumptions C233_case_statements_refuted.
Print Assumptions C234_module_entry_refuted.
