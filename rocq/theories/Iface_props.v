(* C250-C264: interfaces, modports and the connections of instances. *)
From Coq Require Import Permutation Sorted.
From Verif Require Import Base Decl_spec Decl_model Decl_proofs Call_model Call_proofs Iface_spec Iface_model Iface_proofs.
Local Open Scope Z_scope.
Local Open Scope string_scope.
Local Open Scope list_scope.

Definition made (d : idef) : Prop := exists n l, isteps (new_idef n) l = Ok d.
Lemma made_inv : forall d, made d -> inv d.
Proof. intros d (n & l & H). eapply isteps_inv; [apply new_idef_inv|exact H]. Qed.
Definition is_var (d : idef) (n : string) : Prop := In n (map fst (i_vars d)).
Definition is_port (d : idef) (n : string) (o : dir) : Prop := exists p, In (n, p) (i_ports d) /\ ip_dir p = o.

(* C250 *)
Theorem C250_definitions : forall n l d, isteps (new_idef n) l = Ok d ->
  NoDup (map fst (i_ports d)) /\ NoDup (map fst (i_vars d)) /\ NoDup (map fst (i_mods d)) /\
  (forall m p, In (DPort m p) l -> In (m, p) (i_ports d)) /\
  forall m md, In (m, md) (i_mods d) -> (forall k, In k (m_in md) -> is_port d k In_ \/ is_var d k) /\ (forall k, In k (m_out md) -> is_port d k Out_ \/ is_var d k).
Proof.
  intros n l d H. pose proof (isteps_inv l _ d (new_idef_inv n) H) as (A & B & C & D). split; [exact A|]. split; [exact B|]. split; [exact C|]. split.
  - intros m p Hm. apply find_in. eapply isteps_ports; eauto.
  - intros m md Hm. destruct (D m md Hm) as (_ & _ & E & F).
    assert (K : forall ok o, (forall x, ok x = true -> x = o) -> forall k, side ok d k \/ has k (i_vars d) = true -> is_port d k o \/ is_var d k).
    { intros ok o Ho k [Sd|Hv]; [|right; now apply has_in]. unfold side in Sd. destruct (find k (i_ports d)) as [p|] eqn:Fp; [|right; now apply has_in].
      left. exists p. split; [now apply find_in|auto]. }
    split; intros k Hk; [apply (K is_in In_)|apply (K is_out Out_)]; auto; intros []; cbn; congruence.
Qed.
Definition ip (d : dir) : iport := {| ip_width := 8; ip_size := [1]; ip_dir := d; ip_type := 0%nat |}.
Definition bus : list iop := [DPort "clk" (ip In_); DVar "data" (8, [1]); DPort "done" (ip Out_); DMod "master"; DIn "master" "data"; DOut "master" "done"].
(* the definition after some calls *)
Definition built (l : list iop) : idef := match isteps (new_idef "bus") l with Ok d => d | _ => new_idef "" end.
Example C250_ex : exists d, isteps (new_idef "bus") bus = Ok d /\ i_mods d = [("master", {| m_in := ["data"]; m_out := ["done"] |})]
  /\ istep d (DIn "master" "done") = Throw /\ istep d (DPort "clk" (ip Out_)) = Throw.
Proof. exists (built bus). vm_compute. repeat split. Qed.

(* C251: a port and a variable of one name *)
Theorem C251_names_refuted : forall d n p v, made d -> ~ In n (map fst (i_ports d)) -> ~ In n (map fst (i_vars d)) ->
  exists e, isteps d [DPort n p; DVar n v] = Ok e /\ made e /\ In n (map fst (i_ports e)) /\ In n (map fst (i_vars e)).
Proof.
  intros d n p v (k & l & H) Hp Hv.
  assert (E1 : has n (i_ports d) = false) by (destruct (has n (i_ports d)) eqn:E; [apply has_in in E; tauto|reflexivity]).
  assert (E2 : has n (i_vars d) = false) by (destruct (has n (i_vars d)) eqn:E; [apply has_in in E; tauto|reflexivity]).
  eexists. assert (S1 : isteps d [DPort n p; DVar n v] = Ok {| i_name := i_name d; i_ports := i_ports d ++ [(n, p)]; i_vars := i_vars d ++ [(n, v)]; i_mods := i_mods d |}).
  { cbn. rewrite E1. cbn. rewrite E2. reflexivity. }
  split; [exact S1|]. split.
  - exists k, (l ++ [DPort n p; DVar n v]). clear E1 E2 Hp Hv. revert H S1. generalize (new_idef k) as c. induction l as [|x l IH]; intros c H S1; [cbn in H; injection H as ->; exact S1|].
    cbn [app isteps] in H |- *. apply obind_Ok in H as (g & Hg & H). rewrite Hg. cbn [obind]. now apply IH.
  - cbn. rewrite !map_app, !in_app_iff. cbn. auto.
Qed.
Example C251_ex : exists d, isteps (new_idef "bus") [DPort "x" (ip In_); DVar "x" (4, [1])] = Ok d.
Proof. eexists. reflexivity. Qed.

(* C252: names that do not exist are ignored *)
Theorem C252_unknown_refuted : forall d m md n, In (m, md) (i_mods d) -> NoDup (map fst (i_mods d)) -> ~ In n (map fst (i_ports d)) -> ~ is_var d n ->
  istep d (DIn m n) = Ok d /\ istep d (DOut m n) = Ok d.
Proof.
  intros d m md n Hm N Hp Hv. cbn. unfold set_dir. rewrite (find_nodup _ m md N Hm). rewrite (proj2 (find_none (i_ports d) n) Hp).
  destruct (has n (i_vars d)) eqn:E; [apply has_in in E; contradiction|]. auto.
Qed.
Example C252_ex : exists d, isteps (new_idef "bus") bus = Ok d /\ istep d (DIn "master" "dataa") = Ok d.
Proof. exists (built bus). vm_compute. repeat split. Qed.
(* C253: ports of both directions *)
Theorem C253_inout_refuted : forall d m n p, find n (i_ports d) = Some p -> ip_dir p = Inout_ -> istep d (DIn m n) = Throw /\ istep d (DOut m n) = Throw.
Proof. intros d m n p F E. cbn. unfold set_dir. rewrite F, E. destruct (find m (i_mods d)); auto. Qed.
Example C253_ex : isteps (new_idef "bus") [DPort "x" (ip Inout_); DMod "m"; DIn "m" "x"] = Throw.
Proof. reflexivity. Qed.

(* C254: the text of a modport no name of which is both an input and an output *)
Theorem C254_modport : forall d m md t, made d -> In (m, md) (i_mods d) -> (forall n, In n (m_in md) -> ~ In n (m_out md)) -> mod_text (m, md) = Ok t ->
  fst t = m /\ exists es, snd t = comma_list es /\ es <> [] /\ NoDup (map snd es) /\ forall o n, In (o, n) es <-> (o = In_ /\ In n (m_in md)) \/ (o = Out_ /\ In n (m_out md)).
Proof.
  intros d m md t Md Hm Dj H. destruct (made_inv d Md) as (_ & _ & _ & M). destruct (M m md Hm) as (Ni & No & _). unfold mod_text in H. cbn [snd fst] in H.
  destruct (Nat.eqb _ 0) eqn:Z0; [discriminate|]. injection H as <-. split; [reflexivity|]. cbn [snd].
  set (es := map (fun n => (In_, n)) (set_order (m_in md)) ++ map (fun n => (Out_, n)) (set_order (m_out md))).
  assert (Pi : Permutation (m_in md) (set_order (m_in md))) by apply ssort_perm. assert (Po : Permutation (m_out md) (set_order (m_out md))) by apply ssort_perm.
  assert (Mn : mod_names md = m_in md ++ m_out md) by (apply mod_names_disjoint; [exact No|]; intros n H K; exact (Dj n K H)).
  assert (L : List.length (mod_names md) = List.length es).
  { unfold es. rewrite Mn, !app_length, !map_length, (Permutation_length Pi), (Permutation_length Po). reflexivity. }
  exists es. split; [rewrite L; exact (commas_ok es 0)|]. split; [intros E; rewrite E in L; rewrite L in Z0; discriminate|]. split.
  - unfold es. rewrite map_app, !map_map. cbn. rewrite !map_id. apply nodup_app2; [eapply Permutation_NoDup; eauto|eapply Permutation_NoDup; eauto|].
    intros x Hx Hy. apply (Dj x); [eapply Permutation_in; [symmetry; exact Pi|exact Hx]|eapply Permutation_in; [symmetry; exact Po|exact Hy]].
  - intros o n. unfold es. rewrite in_app_iff, !in_map_iff. split.
    + intros [(x & E & Hx)|(x & E & Hx)]; injection E as <- <-; [left|right]; (split; [reflexivity|]); (eapply Permutation_in; [symmetry; eassumption|exact Hx]).
    + intros [[-> H]|[-> H]]; [left|right]; exists n; (split; [reflexivity|]); (eapply Permutation_in; [eassumption|exact H]).
Qed.
Example C254_ex : exists d md, isteps (new_idef "bus") bus = Ok d /\ find "master" (i_mods d) = Some md
  /\ mod_text ("master", md) = Ok ("master", [LItem (In_, "data"); LComma; LItem (Out_, "done")]).
Proof. exists (built bus), {| m_in := ["data"]; m_out := ["done"] |}. vm_compute. repeat split. Qed.
(* every modport of a definition is printed with it *)
Theorem C254_every_modport : forall d t, text_of d = Ok t -> forall m md, In (m, md) (i_mods d) -> exists x, In x (it_mods t) /\ mod_text (m, md) = Ok x.
Proof.
  intros d t H m md Hm. unfold text_of in H. apply obind_Ok in H as (ms & Hs & H). injection H as <-. apply omapM_in in Hs.
  assert (K : In (m, md) (in_order (i_mods d))) by (eapply Permutation_in; [apply in_order_perm|exact Hm]).
  destruct (Forall2_in_l _ _ _ _ Hs K) as (x & Hx & E). exists x. auto.
Qed.
(* C255: a name that is both *)
Theorem C255_both_refuted : forall d m md t n, made d -> In (m, md) (i_mods d) -> In n (m_in md) -> In n (m_out md) -> mod_text (m, md) = Ok t ->
  forall es, snd t <> comma_list es.
Proof.
  intros d m md t n Md Hm Hi Ho H es. unfold mod_text in H. cbn [snd fst] in H. destruct (Nat.eqb _ 0) eqn:Z0; [discriminate|]. injection H as <-. cbn [snd].
  set (l := map (fun n => (In_, n)) (set_order (m_in md)) ++ map (fun n => (Out_, n)) (set_order (m_out md))).
  assert (L : (List.length l = List.length (m_in md) + List.length (m_out md))%nat).
  { unfold l. rewrite app_length, !map_length. unfold set_order. rewrite <- !(Permutation_length (ssort_perm str_ltb _)). reflexivity. }
  pose proof (mod_len_lt (m_out md) (m_in md) n Ho Hi) as Lt. fold (mod_names md) in Lt.
  destruct (commas_last l 0 (List.length (mod_names md))) as (r & E).
  - intros E. rewrite E in L. cbn in L. destruct (m_in md); [easy|discriminate].
  - cbn. lia.
  - rewrite E. intros K. symmetry in K. exact (comma_list_last es r K).
Qed.
Example C255_ex : exists d, isteps (new_idef "bus") (bus ++ [DOut "master" "data"]) = Ok d /\
  omapM mod_text (i_mods d) = Ok [("master", [LItem (In_, "data"); LComma; LItem (Out_, "data"); LItem (Out_, "done"); LComma])].
Proof. exists (built (bus ++ [DOut "master" "data"])). vm_compute. repeat split. Qed.

(* C256: ports seen through a modport; names that are variables are left to C257 *)
Theorem C256_directions : forall d m md r, made d -> In (m, md) (i_mods d) -> modport_ref d m = Ok r ->
  forall n, ~ is_var d n -> (In (n, In_) r <-> In n (m_in md)) /\ (In (n, Out_) r <-> In n (m_out md)) /\ ~ In (n, Inout_) r.
Proof.
  intros d m md r Md Hm H n Nv. destruct (made_inv d Md) as (Np & _ & Nm & M). destruct (M m md Hm) as (Ni & No & Si & So).
  unfold modport_ref in H. rewrite (find_nodup _ m md Nm Hm) in H. injection H as <-.
  assert (Hv : has n (i_vars d) = false) by (destruct (has n (i_vars d)) eqn:E; [apply has_in in E; contradiction|reflexivity]).
  assert (Pn : forall x, In x (set_order (mod_names md)) <-> In x (m_in md) \/ In x (m_out md)).
  { intros x. rewrite <- (mod_names_in md x Ni). unfold set_order. split; apply Permutation_in; [symmetry|]; apply ssort_perm. }
  assert (K : forall o, In (n, o) (flat_map (fun n => if has n (i_vars d) then [(n, if mem m (m_in md) then In_ else Out_)]
                             else match find n (i_ports d) with Some p => [(n, ip_dir p)] | None => [] end) (set_order (mod_names md)))
              <-> (In n (m_in md) \/ In n (m_out md)) /\ exists p, find n (i_ports d) = Some p /\ ip_dir p = o).
  { intros o. rewrite in_flat_map. split.
    - intros (x & Hx & Hin). destruct (has x (i_vars d)) eqn:E.
      + destruct Hin as [Q|[]]. injection Q as -> _. congruence.
      + destruct (find x (i_ports d)) as [p|] eqn:F; [|destruct Hin]. destruct Hin as [Q|[]]. injection Q as -> <-. rewrite <- Pn. eauto.
    - intros (Hn & p & F & E). exists n. split; [now apply Pn|]. rewrite Hv, F, E. now left. }
  assert (Pi : In n (m_in md) -> exists p, find n (i_ports d) = Some p /\ ip_dir p = In_).
  { intros H. destruct (Si n H) as [Sd|E]; [|congruence]. unfold side in Sd. destruct (find n (i_ports d)) as [p|]; [|congruence]. exists p. split; [reflexivity|]. now destruct (ip_dir p). }
  assert (Po : In n (m_out md) -> exists p, find n (i_ports d) = Some p /\ ip_dir p = Out_).
  { intros H. destruct (So n H) as [Sd|E]; [|congruence]. unfold side in Sd. destruct (find n (i_ports d)) as [p|]; [|congruence]. exists p. split; [reflexivity|]. now destruct (ip_dir p). }
  split; [|split].
  - rewrite K. split; [intros ([A|A] & p & F & E); [exact A|]; destruct (Po A) as (q & F' & E'); congruence|intros A; auto].
  - rewrite K. split; [intros ([A|A] & p & F & E); [|exact A]; destruct (Pi A) as (q & F' & E'); congruence|intros A; auto].
  - rewrite K. intros ([A|A] & p & F & E); [destruct (Pi A) as (q & F' & E')|destruct (Po A) as (q & F' & E')]; congruence.
Qed.
Example C256_ex : exists d, isteps (new_idef "bus") (bus ++ [DIn "master" "clk"]) = Ok d /\ modport_ref d "master" = Ok [("clk", In_); ("data", Out_); ("done", Out_)].
Proof. exists (built (bus ++ [DIn "master" "clk"])). vm_compute. repeat split. Qed.
(* C257: a variable that is an input of a modport is an output of its reference *)
Theorem C257_variables_refuted : forall d m md n r, made d -> In (m, md) (i_mods d) -> modport_ref d m = Ok r -> ~ In m (m_in md) ->
  is_var d n -> In n (m_in md) -> In (n, Out_) r /\ ~ In (n, In_) r.
Proof.
  intros d m md n r Md Hm H Nm Hv Hn. destruct (made_inv d Md) as (_ & _ & Nd & M). destruct (M m md Hm) as (Ni & _).
  unfold modport_ref in H. rewrite (find_nodup _ m md Nd Hm) in H. injection H as <-. apply has_in in Hv.
  assert (E : mem m (m_in md) = false) by (destruct (mem m (m_in md)) eqn:E; [apply mem_in in E; contradiction|reflexivity]). rewrite E. split.
  - apply in_flat_map. exists n. split.
    + unfold set_order. eapply Permutation_in; [apply ssort_perm|]. apply mod_names_in; auto.
    + rewrite Hv. now left.
  - rewrite in_flat_map. intros (x & _ & Hx). destruct (has x (i_vars d)) eqn:Ex.
    + destruct Hx as [Q|[]]. discriminate.
    + destruct (find x (i_ports d)) as [p|]; [|destruct Hx]. destruct Hx as [Q|[]]. injection Q as -> _. congruence.
Qed.
Example C257_ex : exists d, isteps (new_idef "bus") bus = Ok d /\ modport_ref d "master" = Ok [("data", Out_); ("done", Out_)]
  /\ find "master" (i_mods d) = Some {| m_in := ["data"]; m_out := ["done"] |}.
Proof. exists (built bus). vm_compute. repeat split. Qed.

(* C258: the text of an interface fits every use of the interface *)
Theorem C258_text : forall uses r, Forall (fun u => made (u_def u)) uses ->
  (forall u v, In u uses -> In v uses -> u_mod u = None -> u_mod v <> None -> def_name u <> def_name v) ->
  extract uses = Ok r ->
  NoDup (map fst r) /\ forall u, In u uses -> u_mod u = None -> exists t es, In (i_name (u_def u), t) r /\
    it_ports t = comma_list es /\ Permutation es (i_ports (u_def u)) /\ Permutation (it_vars t) (i_vars (u_def u)).
Proof.
  intros uses r F Nm H. unfold extract in H. apply obind_Ok in H as (seen & V & H). apply omapM_in in H. rewrite Forall_forall in F.
  destruct (visit_origin uses [] seen V (NoDup_nil _)) as (Ns & From); [easy|]. split.
  - assert (E : map fst r = map fst (filter (fun e : string * use => match u_mod (snd e) with None => true | Some _ => false end) (in_order seen))).
    { clear - H. induction H as [|(n, f) b l r X Fo IH]; [reflexivity|]. cbn in X. apply obind_Ok in X as (i & _ & X). injection X as <-. cbn. now rewrite IH. }
    rewrite E. assert (N : NoDup (map fst (in_order seen))) by (eapply Permutation_NoDup; [apply Permutation_map, in_order_perm|exact Ns]).
    clear - N. induction (in_order seen) as [|a l IH]; cbn in *; [constructor|]. inversion N; subst. destruct (u_mod (snd a)); cbn; [auto|].
    constructor; [|auto]. intros K. apply H1. apply in_map_iff in K as (x & <- & Hx). apply filter_In in Hx as [Hx _]. now apply in_map.
  - intros u Hu Eu. destruct (visit_every uses [] seen u V Hu) as (v & Fv & Ag). apply find_in in Fv. destruct (From _ _ Fv) as (Dv & [[]|Iv]).
    assert (Ev : u_mod v = None) by (destruct (u_mod v) eqn:E; [|reflexivity]; exfalso; apply (Nm u v Hu Iv Eu); congruence).
    assert (Fl : In (def_name u, v) (filter (fun e : string * use => match u_mod (snd e) with None => true | Some _ => false end) (in_order seen))).
    { apply filter_In. split; [eapply Permutation_in; [apply in_order_perm|exact Fv]|]. cbn. now rewrite Ev. }
    destruct (Forall2_in_l _ _ _ _ H Fl) as (b & Hb & Eb). cbn in Eb. apply obind_Ok in Eb as (t & Et & Eb). injection Eb as <-.
    assert (Dn : def_name u = i_name (u_def u)) by (unfold def_name; now rewrite Eu). rewrite Dn in Hb.
    unfold text_of in Et. apply obind_Ok in Et as (ms & _ & Et). injection Et as <-. eexists. exists (in_order (i_ports (u_def v))). split; [exact Hb|]. cbn.
    assert (Same : in_order (i_ports (u_def v)) = in_order (i_ports (u_def u)) /\ in_order (i_vars (u_def v)) = in_order (i_vars (u_def u))).
    { destruct Ag as [->|Ag]; [auto|]. apply same_whole; auto; apply made_inv; now apply F. }
    destruct Same as (Sp & Sv). split; [exact (commas_ok _ 0)|]. rewrite Sp, Sv. split; symmetry; apply in_order_perm.
Qed.
Definition bus_ex : idef := match isteps (new_idef "bus") bus with Ok d => d | _ => new_idef "bus" end.
Example C258_ex : extract [{| u_def := bus_ex; u_mod := None |}; {| u_def := bus_ex; u_mod := None |}; {| u_def := bus_ex; u_mod := Some ("master", {| m_in := ["data"]; m_out := ["done"] |}) |}]
  = Ok [("bus", {| it_ports := [LItem ("clk", ip In_); LComma; LItem ("done", ip Out_)]; it_vars := [("data", (8, [1]))];
                   it_mods := [("master", [LItem (In_, "data"); LComma; LItem (Out_, "done")])] |})]
  /\ extract [{| u_def := bus_ex; u_mod := None |}; {| u_def := new_idef "bus"; u_mod := None |}] = Throw.
Proof. split; reflexivity. Qed.

(* C259: modports of another definition of the same name are not looked at *)
Lemma eqb_self : forall l, names_eqb l l = true.
Proof. induction l as [|a l IH]; [reflexivity|]. unfold names_eqb in *. cbn. rewrite String.eqb_refl. exact IH. Qed.
Lemma zs_self : forall l, zs_eqb l l = true.
Proof. induction l as [|a l IH]; [reflexivity|]. unfold zs_eqb in *. cbn. rewrite Z.eqb_refl. exact IH. Qed.
Theorem C259_modports_refuted : forall d e r, made d -> made e -> i_name d = i_name e -> i_ports d = i_ports e -> i_vars d = i_vars e ->
  extract [{| u_def := d; u_mod := None |}] = Ok r -> extract [{| u_def := d; u_mod := None |}; {| u_def := e; u_mod := None |}] = Ok r.
Proof.
  intros d e r _ _ En Ep Ev H. rewrite <- H. unfold extract. cbn [visit]. unfold def_name. cbn [u_mod u_def]. cbn [find].
  assert (F : find (i_name e) (emplace (i_name d) {| u_def := d; u_mod := None |} []) = Some {| u_def := d; u_mod := None |}) by (cbn; rewrite En, String.eqb_refl; reflexivity).
  rewrite F. assert (Sa : same_interface {| u_def := d; u_mod := None |} {| u_def := e; u_mod := None |} = true); [|rewrite Sa; reflexivity].
  unfold same_interface, port_names, port_of, var_names, var_of. cbn [u_mod u_def]. rewrite Ep, Ev, !eqb_self. cbn [andb].
  apply andb_true_iff. split; [apply andb_true_iff; split; [|reflexivity]|]; apply forallb_forall; intros n _.
  - destruct (find n (i_ports e)) as [p|]; [|reflexivity]. cbn. unfold iport_eqb. rewrite Z.eqb_refl, zs_self, Nat.eqb_refl. now destruct (ip_dir p).
  - destruct (find n (i_vars e)) as [p|]; [|reflexivity]. cbn. unfold ivar_eqb. now rewrite Z.eqb_refl, zs_self.
Qed.
Example C259_ex : exists d e r, isteps (new_idef "b") [DVar "x" (1, [1]); DMod "m"; DIn "m" "x"] = Ok d /\ isteps (new_idef "b") [DVar "x" (1, [1]); DMod "k"; DOut "k" "x"] = Ok e
  /\ extract [{| u_def := d; u_mod := None |}; {| u_def := e; u_mod := None |}] = Ok r /\ map (fun t => map fst (it_mods (snd t))) r = [["m"]].
Proof. eexists. eexists. eexists. repeat split; reflexivity. Qed.
(* C260: a design that uses modports only *)
Theorem C260_modports_only_refuted : forall uses r, Forall (fun u => u_mod u <> None) uses -> extract uses = Ok r -> r = [].
Proof.
  intros uses r F H. unfold extract in H. apply obind_Ok in H as (seen & V & H). destruct (visit_origin uses [] seen V (NoDup_nil _)) as (_ & From); [easy|].
  assert (E : filter (fun e : string * use => match u_mod (snd e) with None => true | Some _ => false end) (in_order seen) = []).
  { rewrite Forall_forall in F. destruct (filter _ (in_order seen)) as [|(n, u) l] eqn:E; [reflexivity|].
    assert (K : In (n, u) (filter (fun e : string * use => match u_mod (snd e) with None => true | Some _ => false end) (in_order seen))) by (rewrite E; now left).
    apply filter_In in K as [K Eu]. cbn in Eu. assert (K' : In (n, u) seen) by (eapply Permutation_in; [symmetry; apply in_order_perm|exact K]).
    destruct (From _ _ K') as (_ & [[]|I]). specialize (F u I). destruct (u_mod u); [discriminate|congruence]. }
  rewrite E in H. cbn in H. now injection H as <-.
Qed.
Example C260_ex : extract [{| u_def := bus_ex; u_mod := Some ("master", {| m_in := ["data"]; m_out := ["done"] |}) |}] = Ok [].
Proof. reflexivity. Qed.

(* C261: names of instances of interfaces *)
Definition no_names : names := {| g_vars := []; g_ifaces := [] |}.
Lemma vars_grow : forall ms n m s, In m s -> In m (fold_left (fun s k => set_add (n ++ "." ++ k)%string s) ms s).
Proof. induction ms as [|k ms IH]; intros n m s H; cbn; [exact H|]. apply IH. apply set_add_in. auto. Qed.
Lemma nsteps_grow : forall l g h, nsteps g l = Ok h -> (forall n, In n (g_vars g) -> In n (g_vars h)) /\ (forall n, In n (g_ifaces g) -> In n (g_ifaces h)).
Proof.
  induction l as [|x l IH]; cbn; intros g h H; [injection H as <-; auto|]. apply obind_Ok in H as (k & Hk & H). destruct (IH k h H) as (A & B).
  destruct x as [n|n ms]; cbn in Hk.
  - injection Hk as <-. cbn in *. split; intros m Hm; auto. apply A, set_add_in. auto.
  - destruct (mem n (g_vars g)); [discriminate|]. destruct (mem n (g_ifaces g)); [discriminate|]. injection Hk as <-. cbn in *. split; intros m Hm; [apply A, vars_grow; auto|apply B, in_app_iff; auto].
Qed.
Lemma nsteps_app : forall l1 l2 g h, nsteps g (l1 ++ l2) = Ok h -> exists k, nsteps g l1 = Ok k /\ nsteps k l2 = Ok h.
Proof.
  induction l1 as [|x l1 IH]; cbn; intros l2 g h H; [eauto|]. apply obind_Ok in H as (k & Hk & H). rewrite Hk. cbn. apply IH, H.
Qed.
Lemma nsteps_has : forall l g h, nsteps g l = Ok h -> forall x, In x l -> match x with NVar n => In n (g_vars h) | NIface n _ => In n (g_ifaces h) end.
Proof.
  induction l as [|y l IH]; cbn; intros g h H x Hx; [easy|]. apply obind_Ok in H as (k & Hk & H). destruct Hx as [->|Hx]; [|eapply IH; eauto].
  destruct (nsteps_grow l k h H) as (A & B). destruct x as [n|n ms]; cbn in Hk.
  - injection Hk as <-. apply A. cbn. apply set_add_in. auto.
  - destruct (mem n (g_vars g)); [discriminate|]. destruct (mem n (g_ifaces g)); [discriminate|]. injection Hk as <-. apply B. cbn. apply in_app_iff. right. now left.
Qed.
Theorem C261_instances : forall l1 n ms l2 g, nsteps no_names (l1 ++ NIface n ms :: l2) = Ok g ->
  ~ In (NVar n) l1 /\ forall ks, ~ In (NIface n ks) l1 /\ ~ In (NIface n ks) l2.
Proof.
  intros l1 n ms l2 g H. apply nsteps_app in H as (k & Hk & H). cbn in H. apply obind_Ok in H as (j & Hj & H).
  destruct (mem n (g_vars k)) eqn:E1; [discriminate|]. destruct (mem n (g_ifaces k)) eqn:E2; [discriminate|]. split; [|intros ks; split].
  - intros I. pose proof (nsteps_has l1 _ k Hk _ I) as X. cbn in X. apply mem_in in X. congruence.
  - intros I. pose proof (nsteps_has l1 _ k Hk _ I) as X. cbn in X. apply mem_in in X. congruence.
  - intros I. apply in_split in I as (a & b & ->). apply nsteps_app in H as (j' & Hj' & H). cbn in H. apply obind_Ok in H as (q & Hq & _).
    destruct (nsteps_grow a j j' Hj') as (_ & B). injection Hj as <-. specialize (B n). cbn in B. rewrite in_app_iff in B. specialize (B (or_intror (or_introl eq_refl))).
    apply mem_in in B. rewrite B in Hq. destruct (mem n (g_vars j')); discriminate.
Qed.
Example C261_ex : exists g, nsteps no_names [NVar "a"; NIface "bus" ["x"]; NIface "bus2" ["x"]] = Ok g /\ g_vars g = ["a"; "bus.x"; "bus2.x"]
  /\ nsteps no_names [NVar "a"; NIface "a" []] = Throw /\ nsteps no_names [NIface "a" []; NIface "a" []] = Throw.
Proof. eexists. repeat split; reflexivity. Qed.
(* C262: a signal declared later may take the name of an instance *)
Theorem C262_later_signal_refuted : forall n ms, exists g, nsteps no_names [NIface n ms; NVar n] = Ok g /\ In n (g_ifaces g) /\ In n (g_vars g).
Proof. intros n ms. eexists. split; [reflexivity|]. cbn. split; [auto|]. apply set_add_in. auto. Qed.
Example C262_ex : exists g, nsteps no_names [NIface "bus" ["x"]; NVar "bus"] = Ok g /\ g_vars g = ["bus.x"; "bus"] /\ g_ifaces g = ["bus"].
Proof. eexists. repeat split; reflexivity. Qed.

(* C263: connections of an instance of a module *)
Definition inner_name (p : inner) : string := match p with PPlain n => n | PIface i _ => i end.
Definition plain_names (l : list (inner * outer)) : list string := flat_map (fun e => match fst e with PPlain n => [n] | _ => [] end) l.
Lemma connections_ok : forall l seen cs, connections seen l = Ok cs ->
  (forall p x, In (p, x) l -> In (inner_name p, outer_name p x) cs \/ exists i m, p = PIface i m /\ find i seen = Some (outer_name p x)) /\
  (forall c, In c cs -> exists p x, In (p, x) l /\ c = (inner_name p, outer_name p x) /\ (forall i m, p = PIface i m -> find i seen = None)) /\
  (NoDup (plain_names l) -> (forall p x i m, In (p, x) l -> p = PIface i m -> ~ In i (plain_names l)) -> NoDup (map fst cs)).
Proof.
  induction l as [|(p, x) l IH]; intros seen cs H; cbn [connections] in H.
  - injection H as <-. split; [easy|]. split; [easy|]. intros. constructor.
  - destruct p as [n|i m].
    + apply obind_Ok in H as (ds & Hd & H). injection H as <-. destruct (IH _ _ Hd) as (A & B & C). split; [|split].
      * intros p y [E|I]; [injection E as <- <-; left; now left|]. destruct (A p y I) as [K|K]; [left; now right|auto].
      * intros c [<-|Ic]; [exists (PPlain n), x; split; [now left|]; split; [reflexivity|discriminate]|]. destruct (B c Ic) as (p & y & I & E & K). exists p, y. split; [now right|auto].
      * cbn. intros N D. inversion N; subst. constructor.
        { intros K. apply in_map_iff in K as (c & Ec & Ic). destruct (B c Ic) as (p & y & I & -> & _). cbn in Ec. destruct p as [k|i m]; cbn in Ec; subst.
          - apply H1. unfold plain_names. apply in_flat_map. exists (PPlain n, y). split; [exact I|]. now left.
          - apply (D _ _ n m (or_intror I) eq_refl). now left. }
        apply C; [exact H2|]. intros p y j m I E K. apply (D p y j m (or_intror I) E). now right.
    + destruct (find i seen) as [e|] eqn:F.
      * destruct (String.eqb_spec e (outer_name (PIface i m) x)) as [->|]; [|discriminate]. destruct (IH _ _ H) as (A & B & C). split; [|split].
        { intros p y [E|I]; [injection E as <- <-; right; exists i, m; auto|auto]. }
        { intros c Ic. destruct (B c Ic) as (p & y & I & E & K). exists p, y. split; [now right|auto]. }
        { cbn. intros N D. apply C; [exact N|]. intros p y j k I E. apply (D p y j k (or_intror I) E). }
      * apply obind_Ok in H as (ds & Hd & H). injection H as <-. destruct (IH _ _ Hd) as (A & B & C). split; [|split].
        { intros p y [E|I]; [injection E as <- <-; left; now left|]. destruct (A p y I) as [K|(j & k & -> & K)]; [left; now right|].
          rewrite find_emplace in K. destruct (find j seen) as [w|] eqn:Fj; [right; exists j, k; split; [reflexivity|congruence]|].
          destruct (String.eqb_spec j i); [|discriminate]. subst j. injection K as K. left. left. cbn. now rewrite K. }
        { intros c [<-|Ic]; [exists (PIface i m), x; split; [now left|]; split; [reflexivity|]; intros j k E; injection E as <- <-; exact F|].
          destruct (B c Ic) as (p & y & I & E & K). exists p, y. split; [now right|]. split; [exact E|]. intros j k Ej. specialize (K j k Ej). rewrite find_emplace in K.
          destruct (find j seen); [discriminate|reflexivity]. }
        { cbn. intros N D. constructor.
          - intros K. apply in_map_iff in K as (c & Ec & Ic). destruct (B c Ic) as (p & y & I & -> & Kp). cbn in Ec. destruct p as [k|j k]; cbn in Ec; subst.
            + apply (D (PIface i m) x i m (or_introl eq_refl) eq_refl). unfold plain_names. apply in_flat_map. exists (PPlain i, y). split; [exact I|]. now left.
            + specialize (Kp i k eq_refl). rewrite find_emplace, F, String.eqb_refl in Kp. discriminate.
          - apply C; [exact N|]. intros p y j k I E. apply (D p y j k (or_intror I) E). }
Qed.
Theorem C263_connections : forall l cs, connections [] l = Ok cs -> NoDup (plain_names l) ->
  (forall p x i m, In (p, x) l -> p = PIface i m -> ~ In i (plain_names l)) ->
  NoDup (map fst cs) /\ forall n e, In (n, e) cs <-> exists p x, In (p, x) l /\ inner_name p = n /\ outer_name p x = e.
Proof.
  intros l cs H N D. destruct (connections_ok l [] cs H) as (A & B & C). split; [auto|]. intros n e. split.
  - intros I. destruct (B _ I) as (p & x & Ip & E & _). injection E as -> ->. eauto.
  - intros (p & x & I & <- & <-). destruct (A p x I) as [K|(i & m & _ & K)]; [exact K|discriminate].
Qed.
(* a plain port is connected to the text, an interface to the interface, a modport to the modport of the interface; where the other side is
   itself a modport, to that *)
Theorem C263_texts : forall l cs, connections [] l = Ok cs ->
  (forall n x, In (PPlain n, x) l -> In (n, x_text x) cs) /\
  (forall i x, In (PIface i None, x) l -> In (i, x_base x) cs) /\
  (forall i m x, In (PIface i (Some m), x) l -> x_iface x = true -> In (i, (x_base x ++ "." ++ m)%string) cs) /\
  (forall i m x, In (PIface i (Some m), x) l -> x_iface x = false -> In (i, x_base x) cs).
Proof.
  intros l cs H. destruct (connections_ok l [] cs H) as (A & _). repeat split.
  - intros n x I. destruct (A _ _ I) as [K|(i & m & _ & K)]; [exact K|discriminate].
  - intros i x I. destruct (A _ _ I) as [K|(j & m & _ & K)]; [exact K|discriminate].
  - intros i m x I E. destruct (A _ _ I) as [K|(j & k & _ & K)]; [cbn in K; rewrite E in K; exact K|discriminate].
  - intros i m x I E. destruct (A _ _ I) as [K|(j & k & _ & K)]; [cbn in K; rewrite E in K; exact K|discriminate].
Qed.
Definition ox (n b : string) (i : bool) : outer := {| x_name := n; x_text := n; x_base := b; x_iface := i |}.
Example C263_ex : connections [] [(PPlain "clk", ox "clk" "clk" false); (PIface "bus" (Some "master"), ox "a" "top_bus" true); (PIface "bus" (Some "master"), ox "b" "top_bus" true)]
  = Ok [("clk", "clk"); ("bus", "top_bus.master")]
  /\ connections [] [(PIface "bus" None, ox "a" "b1" true); (PIface "bus" None, ox "b" "b2" true)] = Throw.
Proof. split; reflexivity. Qed.
(* C264: slices and expressions connected to a port of an interface are not printed *)
Theorem C264_slices_refuted : forall l n x, In (n, x) l -> x_name x = "" -> In (n, "") (iface_connections l).
Proof. intros l n x I E. unfold iface_connections. apply in_map_iff. exists (n, x). cbn. rewrite E. auto. Qed.
Example C264_ex : iface_connections [("clk", {| x_name := "clk"; x_text := "clk"; x_base := "clk"; x_iface := false |}); ("en", {| x_name := ""; x_text := "a[0]"; x_base := ""; x_iface := false |})]
  = [("clk", "clk"); ("en", "")].
Proof. reflexivity. Qed.
Print Assumptions C250_definitions.
Print Assumptions C251_names_refuted.
Print Assumptions C252_unknown_refuted.
Print Assumptions C253_inout_refuted.
Print Assumptions C254_modport.
Print Assumptions C254_every_modport.
Print Assumptions C255_both_refuted.
Print Assumptions C256_directions.
Print Assumptions C257_variables_refuted.
Print Assumptions C258_text.
Print Assumptions C259_modports_refuted.
Print Assumptions C260_modports_only_refuted.
Print Assumptions C261_instances.
Print Assumptions C262_later_signal_refuted.
Print Assumptions C263_connections.
Print Assumptions C263_texts.
Print Assumptions C264_slices_refuted.
