(* C274-C279: connecting the ports of instances. *)
From Verif Require Import Base SV_spec IR IRSem_spec IR_lemmas IfCase_proofs IR_frame Flow_spec Flow_proofs Design_spec Design_proofs Dce_spec Dce_model Dce_proofs
  Fan_spec Fan_model Retarget_proofs Fan_proofs Tie_model Tie_proofs Tie_props Move_spec Move_model Move_proofs Move_props Pass_spec Pass_proofs Inline_spec Inline_model Inline_proofs
  Graph_proofs Decl_proofs Inst_spec Inst_model Inst_proofs Inst_steps Inst_run Inst_inv Inst_whole.
Local Open Scope Z_scope.
Local Open Scope nat_scope.

Lemma root_gen : forall H e x, root e = Some x -> gen_of H e = Some (h_owner H x).
Proof. intros H. induction e; intros z R; cbn in *; try discriminate; [injection R as ->; reflexivity|auto]. Qed.

(* C274: every generator of the list that is in another one is instantiated once, in it; every input is connected once, to a
   signal, constant or slice of the generator around it, and no process drives it any more; an output is connected if the
   generator around it uses it, to a signal of that generator *)
Theorem C274_connected : forall G H new cs d, sound G H new cs d -> drives_only H cs d -> exists d' is, connect H new cs d = Ok (d', is) /\
  map (fun i => (in_child i, in_parent i)) is = flat_map (fun c => match h_parent H c with Some g => [(c, g)] | None => [] end) cs /\
  forall i, In i is -> NoDup (map link_port (in_links i)) /\
    (forall k, In k (in_links i) -> In (link_port k) (h_ports H (in_child i)) /\ h_kind H (link_port k) = match k with LinkIn _ _ => KIn | LinkOut _ _ => KOut end) /\
    (forall p, In p (h_ports H (in_child i)) -> h_kind H p = KIn ->
      (exists e, In (LinkIn p e) (in_links i) /\ connectable e /\ forall x, root e = Some x -> h_owner H x = in_parent i) /\ forall it, In it d' -> ~ assigns p (body_of (i_proc it))) /\
    (forall p, In p (h_ports H (in_child i)) -> h_kind H p = KOut -> ((exists x, In (LinkOut p (LVar x)) (in_links i) /\ h_owner H x = in_parent i) <-> uses_port d (in_parent i) p)).
Proof.
  intros G H new cs d S0 Dr. assert (legal G H new cs d) as LG by (now split). destruct (decoupled G H new cs d LG) as (st & E & V). destruct (instantiated G H new cs d LG st V) as (d' & is & E2 & A & B & Sub & _).
  exists d', is. unfold connect. rewrite E. cbn [obind]. split; [exact E2|]. split; [exact A|]. intros i Ii. destruct (B i Ii) as (ks & -> & (N & L & C) & Rm). split; [exact N|]. split; [|split].
  - intros k J. apply in_map_iff in J. destruct J as ((n, k') & <- & J). destruct (L _ J) as [L1 L2]. cbn [snd] in *. split; [exact L1|]. destruct L2 as (_ & _ & L2). destruct k'; apply L2.
  - intros p Ip K. destruct (C p Ip) as [((n, k) & J & Ek)|[X _]]; [|congruence]. cbn [snd] in Ek. subst p. destruct (L _ J) as (_ & _ & _ & L2). cbn [snd] in *. destruct k as [p e|p l]; cbn [link_port] in *; [|destruct L2; congruence].
    destruct L2 as (_ & Ce & Ge & Un). split.
    + exists e. split; [apply in_map_iff; exists (n, LinkIn p e); auto|]. split; [exact Ce|]. intros x R. unfold in_gen in Ge. rewrite (root_gen H e x R) in Ge. now apply Nat.eqb_eq.
    + intros it I As. apply (Rm it I). rewrite (Un it (Sub it I) As). apply in_map_iff. exists (n, LinkIn p e). auto.
  - intros p Ip K. split.
    + intros (x & J & O). apply in_map_iff in J. destruct J as ((n, k) & Ek & J). cbn [snd] in Ek. subst k. destruct (L _ J) as (_ & _ & _ & L2). cbn [snd link_port] in *. apply L2.
    + intros U. destruct (C p Ip) as [((n, k) & J & Ek)|[_ X]]; [|contradiction]. cbn [snd] in Ek. subst p. destruct (L _ J) as (_ & _ & _ & L2). cbn [snd] in *. destruct k as [p e|p l]; cbn [link_port] in *; [destruct L2; congruence|].
      destruct L2 as (_ & _ & x & -> & O). exists x. split; [|exact O]. apply in_map_iff. exists (n, LinkOut p (LVar x)). auto.
Qed.
(* C275: the processes that are left and the connections go through the states the design went through before *)
Theorem C275_same_states : forall G H new cs d d' is, sound G H new cs d -> drives_only H cs d -> connect H new cs d = Ok (d', is) -> same_states G H new cs d (elaborated d' is).
Proof.
  intros G H new cs d d' is S0 Dr E. assert (legal G H new cs d) as LG by (now split). destruct (decoupled G H new cs d LG) as (st & E1 & V). destruct (instantiated G H new cs d LG st V) as (d2 & is2 & E2 & _ & _ & _ & [X1 X2]).
  unfold connect in E. rewrite E1 in E. cbn [obind] in E. rewrite E2 in E. injection E as <- <-. split; [|exact X2]. intros h R Hh. destruct (X1 h R Hh) as (h' & R' & Hh' & Ag). exists h'. split; [exact R'|]. split; [exact Hh'|].
  clear - Ag. induction Ag as [|r r' l l' Q _ IH]; constructor; [|exact IH]. intros x Nx. apply Q. intros (c & g & p & Ic & Pp & ->). exact (Nx c g p Ic Pp eq_refl).
Qed.

(* ---- designs to try this on ---- *)
Definition touched (s : stmt) : list var := match s with SAssign _ l _ => [lhs_var l] | SFor x _ _ _ _ => [x] | _ => [] end.
Definition looped (s : stmt) : list var := match s with SFor x _ _ _ _ => [x] | _ => [] end.
Lemma reads_list : forall x b, reads x b <-> In x (collect_body stmt_sinks b).
Proof. intros x b. rewrite collect_in. split; intros (s & I & R); exists s; (split; [exact I|]); now apply reads_sinks. Qed.
Lemma touches_list : forall x b, touches x b <-> In x (collect_body touched b).
Proof.
  intros x b. rewrite collect_in. split.
  - intros [(k & l & e & I & <-)|(u & v & st & bd & I)]; eexists; (split; [exact I|]); now left.
  - intros (s & I & J). destruct s; cbn in J; try tauto; destruct J as [<-|[]]; [left; do 3 eexists; split; [exact I|reflexivity]|right; do 4 eexists; exact I].
Qed.
Lemma loops_list : forall x b, loops_over x b <-> In x (collect_body looped b).
Proof.
  intros x b. rewrite collect_in. split.
  - intros (u & v & st & bd & I); eexists; (split; [exact I|]); now left.
  - intros (s & I & J). destruct s; cbn in J; try tauto; destruct J as [<-|[]]. do 4 eexists; exact I.
Qed.
(* one instance, 1, in generator 0: signals 0 to 4 are of 0, 5 to 9 of 1, 10 + p is made for port p *)
Definition TG : tenv := fun _ => {| d_width := 4; d_signed := false |}.
Definition made_for (p : var) : var := p + 10.
Definition TH (ins outs : list var) : hierarchy := {| h_gens := [1; 0]; h_parent := fun g => match g with 1 => Some 0 | _ => None end;
  h_vars := fun _ => []; h_ports := fun g => match g with 1 => ins ++ outs | _ => [] end;
  h_kind := fun x => if mem x ins then KIn else if mem x outs then KOut else KVar; h_owner := fun x => if Nat.ltb x 5 then 0 else if Nat.ltb x 10 then 1 else 0 |}.
Definition names (it : item) : list var := collect_body stmt_sinks (body_of (i_proc it)) ++ collect_body touched (body_of (i_proc it)) ++ map snd (events_of (i_proc it)).
Fixpoint distinct (l : list nat) : bool := match l with [] => true | x :: r => negb (mem x r) && distinct r end.
Definition try_ok (ins outs : list var) (d : design) : bool :=
  distinct (ins ++ outs) && forallb (fun p => Nat.leb 5 p && Nat.ltb p 10) (ins ++ outs) && distinct (map i_id d) &&
  forallb (fun it => forallb (fun x => Nat.ltb x 10 && (Nat.eqb (h_owner (TH ins outs) x) (i_gen it) || (Nat.eqb (i_gen it) 0 && mem x (ins ++ outs)))) (names it)) d &&
  forallb (fun it => forallb (fun x => negb (mem x ins && Nat.eqb (i_gen it) 1)) (collect_body touched (body_of (i_proc it)))) d &&
  forallb (fun p => existsb (fun it => mem p (collect_body (fun s => match s with SAssign _ l _ => [lhs_var l] | _ => [] end) (body_of (i_proc it)))) d) outs &&
  forallb (fun it => forallb (fun x => negb (mem x outs) || Nat.eqb (i_gen it) 1) (collect_body touched (body_of (i_proc it)))) d &&
  forallb (fun p => negb (existsb (fun it => Nat.eqb (i_gen it) 0 && existsb (fails p (made_for p)) (collect_body (fun s => [s]) (body_of (i_proc it)))) d)) outs.
Definition try_drives (ins : list var) (d : design) : bool :=
  forallb (fun it => forallb (fun p => negb (mem p (collect_body touched (body_of (i_proc it))) && mem p (collect_body stmt_sinks (body_of (i_proc it)))) && negb (mem p (collect_body looped (body_of (i_proc it))))) ins) d.
Lemma distinct_nodup : forall l, distinct l = true -> NoDup l.
Proof. induction l as [|x r IH]; intros D; [constructor|]. cbn in D. apply andb_true_iff in D. destruct D as [D1 D2]. constructor; [|auto]. apply negb_true_iff, mem_false in D1. exact D1. Qed.
Lemma test_kinds : forall ins outs x, NoDup (ins ++ outs) -> (h_kind (TH ins outs) x = KIn <-> In x ins) /\ (h_kind (TH ins outs) x = KOut <-> In x outs).
Proof.
  intros ins outs x N. apply nodup_app in N. destruct N as (_ & _ & N). cbn. destruct (mem x ins) eqn:A.
  - apply mem_In in A. split; (split; [auto; discriminate|]); auto. intros B. exfalso. exact (N x A B).
  - apply mem_false in A. destruct (mem x outs) eqn:B; [apply mem_In in B|apply mem_false in B]; split; split; try discriminate; try contradiction; auto.
Qed.
Lemma try_sound : forall ins outs d, try_ok ins outs d = true -> sound TG (TH ins outs) made_for [1; 0] d.
Proof.
  intros ins outs d B. unfold try_ok in B. repeat (apply andb_true_iff in B; destruct B as [B ?]). rename B into B1. rename H5 into B2. rename H4 into B3. rename H3 into B4. rename H2 into B5. rename H1 into B6. rename H0 into B7. rename H into B8.
  apply distinct_nodup in B1, B3. rewrite forallb_forall in B2, B4, B5, B6, B7, B8.
  assert (forall c g p, In c [1; 0] -> port_of (TH ins outs) g c p -> c = 1 /\ g = 0 /\ In p (ins ++ outs) /\ 5 <= p < 10) as Po.
  { intros c g p [<-|[<-|[]]] [P I]; cbn in P, I; [|destruct I]. injection P as <-. split; [reflexivity|]. split; [reflexivity|]. split; [exact I|]. specialize (B2 p I). apply andb_true_iff in B2. destruct B2 as [X Y]. apply Nat.leb_le in X. apply Nat.ltb_lt in Y. auto. }
  assert (forall p, In p (ins ++ outs) -> 5 <= p < 10) as Rg by (intros p I; apply (Po 1 0 p); [now left|split; [reflexivity|exact I]]).
  assert (forall p, In p (ins ++ outs) -> h_owner (TH ins outs) p = 1) as Ow by (intros p I; specialize (Rg p I); cbn [TH h_owner]; destruct (Nat.ltb_spec p 5), (Nat.ltb_spec p 10); lia || reflexivity).
  assert (forall p, In p (ins ++ outs) -> h_kind (TH ins outs) p <> KVar) as Kv.
  { intros p I. destruct (test_kinds ins outs p B1) as [X Y]. apply in_app_or in I. destruct I as [I|I]; [apply X in I|apply Y in I]; congruence. }
  assert (forall it x, In it d -> reads x (body_of (i_proc it)) \/ touches x (body_of (i_proc it)) \/ In x (map snd (events_of (i_proc it))) ->
    x < 10 /\ (h_owner (TH ins outs) x = i_gen it \/ (i_gen it = 0 /\ In x (ins ++ outs)))) as Nm.
  { intros it x I R. assert (In x (names it)) as J by (unfold names; rewrite !in_app_iff, <- reads_list, <- touches_list; tauto). specialize (B4 it I). rewrite forallb_forall in B4. specialize (B4 x J).
    apply andb_true_iff in B4. destruct B4 as [X Y]. apply Nat.ltb_lt in X. split; [exact X|]. apply orb_true_iff in Y. destruct Y as [Y|Y]; [left; now apply Nat.eqb_eq|right]. apply andb_true_iff in Y. destruct Y as [Y Z0]. apply Nat.eqb_eq in Y. apply mem_In in Z0. auto. }
  constructor.
  - constructor.
    + cbn. repeat constructor; cbn; lia.
    + intros l1 g l2 p E P. cbn in E, P. destruct g as [|[|]]; try discriminate. injection P as <-. destruct l1 as [|a [|b [|e l1]]]; cbn in E; inversion E; subst; now left.
    + exact B3.
    + intros g x [].
    + intros g x I. cbn in I. destruct g as [|[|]]; try destruct I; auto.
    + intros it x I R. destruct (Nm it x I R) as [_ [E|[E J]]]; [now left|right]. rewrite (Ow x J), E. split; [reflexivity|]. split; [now left|exact J].
    + intros it x I A K. specialize (B5 it I). rewrite forallb_forall in B5. specialize (B5 x (proj1 (touches_list x _) (or_introl A))). apply (test_kinds ins outs x B1) in K.
      rewrite (proj2 (mem_In x ins) K) in B5. cbn [andb] in B5. apply negb_true_iff, Nat.eqb_neq in B5. rewrite Ow; [auto|apply in_or_app; now left].
    + intros g x I K _ _. cbn in I. destruct g as [|[|]]; try destruct I. apply (test_kinds ins outs x B1) in K. specialize (B6 x K). apply existsb_exists in B6. destruct B6 as (it & J & M). apply mem_In, collect_in in M. destruct M as (s & S1 & S2).
      destruct s; cbn in S2; try tauto. destruct S2 as [S2|[]]. exists it. split; [exact J|]. do 3 eexists. split; [exact S1|exact S2].
  - split; [repeat constructor; cbn; lia|]. intros c I. exact I.
  - intros c. cbn. destruct c as [|[|]]; try constructor. exact B1.
  - intros c g p it I P J. destruct (Po c g p I P) as (_ & _ & _ & R). unfold made_for. assert (~ p + 10 < 10) as N by lia. repeat split; intros X; apply N; apply (Nm it (p + 10) J); auto.
  - intros c c' g g' p q I J P Q. destruct (Po c g p I P) as (_ & _ & _ & R), (Po c' g' q J Q) as (_ & _ & _ & R'). unfold made_for. lia.
  - intros c g p I P. destruct (Po c g p I P) as (_ & -> & _ & R). unfold made_for. split; [reflexivity|]. cbn [TH h_kind h_owner].
    assert (forall l, (forall q, In q l -> In q (ins ++ outs)) -> mem (p + 10) l = false) as M by (intros l Sb; apply mem_false; intros X; specialize (Rg _ (Sb _ X)); lia).
    rewrite !M by (intros q X; apply in_or_app; auto). split; [reflexivity|]. destruct (Nat.ltb_spec (p + 10) 5), (Nat.ltb_spec (p + 10) 10); lia || reflexivity.
  - intros c g p it I P K J X. destruct (Po c g p I P) as (-> & _). apply (test_kinds ins outs p B1) in K. specialize (B7 it J). rewrite forallb_forall in B7. specialize (B7 p (proj1 (touches_list p _) X)).
    rewrite (proj2 (mem_In p outs) K) in B7. now apply Nat.eqb_eq.
  - intros c g p it s I P K J E In0 St. destruct (Po c g p I P) as (_ & -> & _). apply (test_kinds ins outs p B1) in K. specialize (B8 p K). apply negb_true_iff in B8.
    assert (exists s, inside_gen d 0 s /\ stuck p s) as X by (exists s; split; [exists it; auto|exact St]). apply (throws_when p (made_for p)) in X. congruence.
Qed.
Lemma try_drives_only : forall ins outs d, NoDup (ins ++ outs) -> try_drives ins d = true -> drives_only (TH ins outs) [1; 0] d.
Proof.
  intros ins outs d N B c g p it I P K J. apply (test_kinds ins outs p N) in K. unfold try_drives in B. rewrite forallb_forall in B. specialize (B it J). rewrite forallb_forall in B. specialize (B p K).
  apply andb_true_iff in B. destruct B as [B1 B2]. apply negb_true_iff in B1, B2. split.
  - intros T R. apply touches_list, mem_In in T. apply reads_list, mem_In in R. rewrite T, R in B1. discriminate.
  - intros T. apply loops_list, mem_In in T. congruence.
Qed.

(* two inputs, one with its own expression, and three outputs: one copied, one used in an expression, one not used *)
Definition J1 : design :=
  [ {| i_id := 0; i_gen := 0; i_proc := PWire (LVar 5) (EVar 0) |};
    {| i_id := 1; i_gen := 0; i_proc := PComb [SAssign Blocking (LVar 6) (EBin Add (EVar 0) (EVar 1))] |};
    {| i_id := 2; i_gen := 0; i_proc := PWire (LVar 2) (EVar 7) |};
    {| i_id := 3; i_gen := 0; i_proc := PWire (LVar 3) (EBin And (EVar 8) (EVar 0)) |};
    {| i_id := 4; i_gen := 1; i_proc := PWire (LVar 7) (EVar 5) |};
    {| i_id := 5; i_gen := 1; i_proc := PFf [(true, 5)] [SAssign NonBlocking (LVar 8) (EVar 6)] |};
    {| i_id := 6; i_gen := 1; i_proc := PWire (LVar 9) (EConst 3 4 false) |} ].
Definition J1' : design :=
  [ {| i_id := 1; i_gen := 0; i_proc := PComb [SAssign Blocking (LVar 16) (EBin Add (EVar 0) (EVar 1))] |};
    {| i_id := 3; i_gen := 0; i_proc := PWire (LVar 3) (EBin And (EVar 18) (EVar 0)) |};
    {| i_id := 4; i_gen := 1; i_proc := PWire (LVar 7) (EVar 5) |};
    {| i_id := 5; i_gen := 1; i_proc := PFf [(true, 5)] [SAssign NonBlocking (LVar 8) (EVar 6)] |};
    {| i_id := 6; i_gen := 1; i_proc := PWire (LVar 9) (EConst 3 4 false) |} ].
Definition J1_links : list instance := [ {| in_child := 1; in_parent := 0; in_links := [LinkIn 5 (EVar 0); LinkIn 6 (EVar 16); LinkOut 7 (LVar 2); LinkOut 8 (LVar 18)] |} ].
Lemma J1_ok : sound TG (TH [5; 6] [7; 8; 9]) made_for [1; 0] J1 /\ drives_only (TH [5; 6] [7; 8; 9]) [1; 0] J1.
Proof. split; [apply try_sound; vm_compute; reflexivity|apply try_drives_only; [apply distinct_nodup|]; vm_compute; reflexivity]. Qed.
Example C274_ex : sound TG (TH [5; 6] [7; 8; 9]) made_for [1; 0] J1 /\ drives_only (TH [5; 6] [7; 8; 9]) [1; 0] J1 /\ connect (TH [5; 6] [7; 8; 9]) made_for [1; 0] J1 = Ok (J1', J1_links).
Proof. split; [apply J1_ok|]. split; [apply J1_ok|]. vm_compute. reflexivity. Qed.
Example C275_ex : same_states TG (TH [5; 6] [7; 8; 9]) made_for [1; 0] J1 (elaborated J1' J1_links).
Proof. apply C275_same_states; [apply J1_ok|apply J1_ok|]. vm_compute. reflexivity. Qed.

(* C276: a process that reads an input it drives reads what the instance sees in the end, not what it has just assigned *)
Definition J2 : design := [ {| i_id := 0; i_gen := 0; i_proc := PComb [SAssign Blocking (LVar 5) (EVar 0); SAssign Blocking (LVar 2) (EVar 5); SAssign Blocking (LVar 5) (EVar 1)] |} ].
Definition J2' : design := [ {| i_id := 0; i_gen := 0; i_proc := PComb [SAssign Blocking (LVar 15) (EVar 0); SAssign Blocking (LVar 2) (EVar 5); SAssign Blocking (LVar 15) (EVar 1)] |} ].
Lemma J2_runs : connect (TH [5] []) made_for [1; 0] J2 = Ok (J2', [ {| in_child := 1; in_parent := 0; in_links := [LinkIn 5 (EVar 15)] |} ]).
Proof. vm_compute. reflexivity. Qed.
Definition r2 : venv := fun x => match x with 0 | 2 => 1%Z | 1 | 5 => 2%Z | _ => 0%Z end.
Lemma r2_range : in_range TG r2.
Proof. intros x. unfold r2. cbn. do 6 (destruct x as [|x]; [lia|]). lia. Qed.
Theorem C276_read_back_refuted : ~ forall G H new cs d d' is, sound G H new cs d -> connect H new cs d = Ok (d', is) -> same_states G H new cs d (elaborated d' is).
Proof.
  intros C. assert (sound TG (TH [5] []) made_for [1; 0] J2) as S0 by (apply try_sound; vm_compute; reflexivity). destruct (C _ _ _ _ _ _ _ S0 J2_runs) as [X _].
  destruct (X [r2]) as (h' & R & Hh & F).
  - constructor; [exact r2_range|constructor].
  - apply h_first. intros it [<-|[]] _ x. do 6 (destruct x; [vm_compute; reflexivity|]). vm_compute. reflexivity.
  - inversion F as [|? r' ? ? Ag F']; subst. inversion F'; subst. inversion Hh as [? St|]; subst. specialize (St _ (or_introl eq_refl) eq_refl 2).
    assert (forall x, x < 10 -> r' x = r2 x) as Ag' by (intros x L; symmetry; apply Ag; intros c g p [<-|[<-|[]]] [P I]; cbn in I; [destruct I as [<-|[]]; unfold made_for; lia|destruct I]).
    vm_compute in St. rewrite (Ag' 5), (Ag' 2) in St by lia. vm_compute in St. discriminate St.
Qed.
Example C276_ex : sound TG (TH [5] []) made_for [1; 0] J2 /\ ~ drives_only (TH [5] []) [1; 0] J2.
Proof.
  split; [apply try_sound; vm_compute; reflexivity|]. intros D. destruct (D 1 0 5 _ (or_introl eq_refl) (conj eq_refl (or_introl eq_refl)) eq_refl (or_introl eq_refl)) as [X _].
  apply X; [apply touches_list|apply reads_list]; cbn; auto.
Qed.

(* C277: an input that nothing drives is connected like the others, to a signal that is made for it *)
Theorem C277_open_refuted : forall G H new cs d c g p, sound G H new cs d -> drives_only H cs d -> In c cs -> port_of H g c p -> h_kind H p = KIn -> ~ d_assigns p d ->
  exists d' is i e, connect H new cs d = Ok (d', is) /\ In i is /\ in_child i = c /\ In (LinkIn p e) (in_links i).
Proof.
  intros G H new cs d c g p S0 Dr Ic [P Ip] K _. destruct (C274_connected G H new cs d S0 Dr) as (d' & is & E & A & B). exists d', is.
  assert (In (c, g) (map (fun i => (in_child i, in_parent i)) is)) as J by (rewrite A; apply in_flat_map; exists c; split; [exact Ic|]; rewrite P; now left).
  apply in_map_iff in J. destruct J as (i & Ei & J). injection Ei as Ec Eg. destruct (B i J) as (_ & _ & B1 & _). rewrite Ec in B1. destruct (B1 p Ip K) as [(e & X & _) _]. exists i, e. auto.
Qed.
Definition J3 : design := [ {| i_id := 0; i_gen := 0; i_proc := PWire (LVar 2) (EVar 7) |}; {| i_id := 1; i_gen := 1; i_proc := PWire (LVar 7) (EVar 5) |} ].
Example C277_ex : sound TG (TH [5] [7]) made_for [1; 0] J3 /\ drives_only (TH [5] [7]) [1; 0] J3 /\ ~ d_assigns 5 J3 /\
  connect (TH [5] [7]) made_for [1; 0] J3 = Ok ([ {| i_id := 1; i_gen := 1; i_proc := PWire (LVar 7) (EVar 5) |} ], [ {| in_child := 1; in_parent := 0; in_links := [LinkIn 5 (EVar 15); LinkOut 7 (LVar 2)] |} ]).
Proof.
  split; [apply try_sound; vm_compute; reflexivity|]. split; [apply try_drives_only; [apply distinct_nodup|]; vm_compute; reflexivity|]. split; [|vm_compute; reflexivity].
  intros (it & I & A). assert (touches 5 (body_of (i_proc it))) as X by (now left). apply touches_list in X. destruct I as [<-|[<-|[]]]; cbn in X; lia.
Qed.

(* C278: a test keeps naming the port of the instance (C176) although it is connected *)
Definition J4 : design := [ {| i_id := 0; i_gen := 0; i_proc := PComb [SIf (EVar 7) [SAssign Blocking (LVar 2) (EVar 0)] [SAssign Blocking (LVar 2) (EVar 1)]] |}; {| i_id := 1; i_gen := 1; i_proc := PWire (LVar 7) (EConst 1 4 false) |} ].
Lemma J4_runs : connect (TH [] [7]) made_for [1; 0] J4 = Ok (J4, [ {| in_child := 1; in_parent := 0; in_links := [LinkOut 7 (LVar 17)] |} ]).
Proof. vm_compute. reflexivity. Qed.
Theorem C278_test_refuted : ~ forall G H new cs d d' is, sound G H new cs d -> drives_only H cs d -> connect H new cs d = Ok (d', is) ->
  forall c g p, In c cs -> port_of H g c p -> h_kind H p = KOut -> ~ uses_port d' g p.
Proof.
  intros C. assert (sound TG (TH [] [7]) made_for [1; 0] J4) as S0 by (apply try_sound; vm_compute; reflexivity).
  assert (drives_only (TH [] [7]) [1; 0] J4) as Dr by (apply try_drives_only; [apply distinct_nodup|]; vm_compute; reflexivity).
  apply (C _ _ _ _ _ _ _ S0 Dr J4_runs 1 0 7 (or_introl eq_refl) (conj eq_refl (or_introl eq_refl)) eq_refl). eexists. split; [left; reflexivity|]. split; [reflexivity|]. apply reads_list. now left.
Qed.
Example C278_ex : connect (TH [] [7]) made_for [1; 0] J4 = Ok (J4, [ {| in_child := 1; in_parent := 0; in_links := [LinkOut 7 (LVar 17)] |} ]) /\ uses_port J4 0 7.
Proof. split; [exact J4_runs|]. eexists. split; [left; reflexivity|]. split; [reflexivity|]. apply reads_list. now left. Qed.

(* C279: without the first pass a signal that takes a slice of an output, or anything computed from it, is connected to the output itself *)
Definition J5 : design := [ {| i_id := 0; i_gen := 0; i_proc := PWire (LVar 2) (ESlice (EVar 7) 2 1) |}; {| i_id := 1; i_gen := 1; i_proc := PWire (LVar 7) (EConst 2 4 false) |} ].
Definition J5' : design := [ {| i_id := 1; i_gen := 1; i_proc := PWire (LVar 7) (EConst 2 4 false) |} ].
Lemma J5_runs : instantiate (TH [] [7]) made_for [1; 0] {| p_design := J5; p_moved := [] |} = Ok (J5', [ {| in_child := 1; in_parent := 0; in_links := [LinkOut 7 (LVar 2)] |} ]).
Proof. vm_compute. reflexivity. Qed.
Definition r5 : venv := fun x => match x with 2 => 1%Z | 7 => 2%Z | _ => 0%Z end.
Theorem C279_alone_refuted : ~ forall G H new cs d d' is, sound G H new cs d -> drives_only H cs d -> instantiate H new cs {| p_design := d; p_moved := [] |} = Ok (d', is) -> same_states G H new cs d (elaborated d' is).
Proof.
  intros C. assert (sound TG (TH [] [7]) made_for [1; 0] J5) as S0 by (apply try_sound; vm_compute; reflexivity).
  assert (drives_only (TH [] [7]) [1; 0] J5) as Dr by (apply try_drives_only; [apply distinct_nodup|]; vm_compute; reflexivity).
  destruct (C _ _ _ _ _ _ _ S0 Dr J5_runs) as [X _]. destruct (X [r5]) as (h' & R & Hh & F).
  - constructor; [|constructor]. intros x. unfold r5. cbn. do 8 (destruct x as [|x]; [lia|]). lia.
  - apply h_first. intros it [<-|[<-|[]]] _ x; do 8 (destruct x as [|x]; [vm_compute; reflexivity|]); vm_compute; reflexivity.
  - inversion F as [|? r' ? ? Ag F']; subst. inversion F'; subst. inversion Hh as [? St|]; subst. specialize (St _ (or_intror (or_introl eq_refl)) eq_refl 2).
    assert (forall x, x < 10 -> r' x = r5 x) as Ag' by (intros x L; symmetry; apply Ag; intros c g p [<-|[<-|[]]] [P I]; cbn in I; [destruct I as [<-|[]]; unfold made_for; lia|destruct I]).
    vm_compute in St. rewrite (Ag' 7), (Ag' 2) in St by lia. vm_compute in St. discriminate St.
Qed.
Example C279_ex : connect (TH [] [7]) made_for [1; 0] J5 = Ok ({| i_id := 0; i_gen := 0; i_proc := PWire (LVar 2) (ESlice (EVar 17) 2 1) |} :: J5', [ {| in_child := 1; in_parent := 0; in_links := [LinkOut 7 (LVar 17)] |} ]).
Proof. vm_compute. reflexivity. Qed.
Print Assumptions C274_connected.
Print Assumptions C275_same_states.
Print Assumptions C276_read_back_refuted.
Print Assumptions C277_open_refuted.
Print Assumptions C278_test_refuted.
Print Assumptions C279_alone_refuted.
