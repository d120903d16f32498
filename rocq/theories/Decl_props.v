(* C213-C226: what the generated declarations, port lists, parameters, enums, assertions, packages and files say. *)
From Coq Require Import Permutation Sorted.
From Verif Require Import Base SV_spec IR IRSem_spec Print_spec Print_model Print_proofs Num_spec Num_model Num_proofs Decl_spec Decl_model Decl_proofs.
Local Open Scope Z_scope.
Local Open Scope list_scope.

(* C213 *)
Theorem C213_port : forall G d g, sound G g -> declares G (Some d) g (get_port_str d g).
Proof.
  intros G d g Sd. pose proof Sd as (Ne & Sz & _). unfold declares, get_port_str. rewrite (port_array_is g Ne).
  destruct (size_ranges G (g_size_of g) Sz (g_size g) 0) as (ms & E & B). fold (size_dims g) in B. fold (get_var_size_str g) in E.
  assert (W : exists ws, match g_kind g with Logic => get_var_width_str g | _ => [] end = map DRange ws /\ Forall2 (bound G) (width_dims g) ws).
  { destruct (g_kind g) eqn:K; try (exists []; unfold width_dims; rewrite K; split; [reflexivity|constructor]). now apply width_ranges. }
  destruct W as (ws & -> & Bw). rewrite E.
  destruct (is_array g && g_packed g) eqn:P; destruct (is_array g && negb (g_packed g)) eqn:U.
  - destruct (is_array g), (g_packed g); discriminate.
  - eexists. split; [exact (eq_trans (f_equal read_decl (f_equal (fun l => _ :: _ :: l) (f_equal (app _) (app_assoc (map DRange ms) (map DRange ws) _))))
      (eq_trans (f_equal (fun l => read_decl (_ :: _ :: _ ++ l ++ _)) (eq_sym (map_app DRange ms ws))) (read_all (Some d) (type_of (g_kind g)) (g_signed g) (ms ++ ws) (g_name g) [])))|].
    cbn. repeat split; auto. now apply Forall2_app.
  - eexists. split; [exact (read_all (Some d) (type_of (g_kind g)) (g_signed g) ws (g_name g) ms)|]. cbn. repeat split; auto.
  - eexists. split; [exact (read_all (Some d) (type_of (g_kind g)) (g_signed g) ws (g_name g) [])|]. cbn. repeat split; auto.
Qed.
(* a variable: its type is not a parameter, an array of an enum type has one-bit elements, and a single element is not given by a parameter *)
Theorem C213_variable : forall G g, sound G g -> (forall n, g_kind g <> TypeParam n) ->
  (forall n, g_kind g = EnumOf n -> is_array g = true -> g_width g <= 1) ->
  (forall e, g_size g = [1] -> g_size_of g 0%nat = Some e -> g_explicit g = true) -> Forall (fun n => 1 <= n) (g_size g) ->
  declares G None g (get_var_decl g).
Proof.
  intros G g Sd NT NE NS Pos. pose proof Sd as (Ne & Sz & Wd). unfold declares, get_var_decl.
  assert (A : var_array g = is_array g).
  { unfold var_array, is_array, front in *. destruct (g_size g) as [|n [|m l]]; [congruence| |now rewrite orb_true_r].
    cbn [List.length Nat.ltb Nat.leb]. rewrite orb_false_r. destruct (g_size_of g 0%nat) as [e|] eqn:Eg; [|now rewrite orb_false_r].
    rewrite orb_true_r. inversion Pos as [|? ? P1 ?]; subst. destruct (Z.eq_dec n 1) as [->|X].
    - now rewrite (NS e eq_refl eq_refl), orb_true_r.
    - destruct (Z.ltb_spec 1 n); [reflexivity|lia]. }
  rewrite A. destruct (size_ranges G (g_size_of g) Sz (g_size g) 0) as (ms & E & B). fold (size_dims g) in B. fold (get_var_size_str g) in E. rewrite E.
  assert (Tn : match g_kind g with TypeParam _ => "logic"%string | k => type_of k end = type_of (g_kind g)).
  { destruct (g_kind g) as [| | |n] eqn:K; auto. now destruct (NT n). }
  rewrite Tn.
  assert (W : exists ws, get_var_width_str g = map DRange ws /\ (is_array g = true -> Forall2 (bound G) (width_dims g) ws)
            /\ match g_kind g with EnumOf _ => True | _ => Forall2 (bound G) (width_dims g) ws end).
  { destruct (g_kind g) as [|n|n|n] eqn:K.
    - destruct (width_ranges G g Sd K) as (ws & X & Y). exists ws. auto.
    - exists []. unfold get_var_width_str, width_dims. rewrite K. destruct (g_width_of g) as [e|] eqn:We; [destruct (Wd e eq_refl); congruence|].
      cbn [negb]. rewrite andb_false_r. cbn. repeat split; auto.
    - unfold get_var_width_str, width_dims. rewrite K. destruct (g_width_of g) as [e|] eqn:We; [destruct (Wd e eq_refl); congruence|].
      cbn [negb]. rewrite andb_true_r, orb_false_r. destruct (Z.ltb_spec 1 (g_width g)).
      + eexists [_]. split; [reflexivity|]. split; [|exact I]. intros X. specialize (NE n eq_refl X). lia.
      + exists []. repeat split; constructor.
    - now destruct (NT n). }
  destruct W as (ws & -> & Bw & Bk).
  destruct (is_array g) eqn:Ar; cbn [andb negb].
  - destruct (g_packed g); cbn [andb negb].
    + eexists. split; [rewrite (app_assoc (map DRange ms)), <- map_app; exact (read_all None (type_of (g_kind g)) (g_signed g) (ms ++ ws) (g_name g) [])|].
      cbn. repeat split; auto. apply Forall2_app; auto.
    + eexists. split; [exact (read_all None (type_of (g_kind g)) (g_signed g) ws (g_name g) ms)|]. cbn. repeat split; auto.
  - assert (X : exists vs, match g_kind g with EnumOf _ => [] | _ => map DRange ws end = map DRange vs /\ Forall2 (bound G) (width_dims g) vs).
    { unfold width_dims in *. destruct (g_kind g); [exists ws|exists ws|exists []|exists ws]; auto. }
    destruct X as (vs & -> & Bv). eexists. split; [exact (read_all None (type_of (g_kind g)) (g_signed g) vs (g_name g) [])|]. cbn. repeat split; auto.
Qed.
Definition gx : sig := {| g_name := "x"; g_kind := Logic; g_signed := true; g_width := 8; g_width_of := Some (EVar 0%nat);
  g_size := [4; 2]; g_size_of := fun i => if Nat.eqb i 1 then Some (EBin ShiftLeft (EVar 0%nat) (EVar 1%nat)) else None;
  g_packed := false; g_explicit := false |}.
Definition GX : tenv := fun _ => {| d_width := 32; d_signed := true |}.
Lemma gx_sound : sound GX gx.
Proof.
  split; [discriminate|]. split.
  - intros i e. cbn. destruct (Nat.eqb i 1); [|discriminate]. intros H. injection H as <-. cbn. repeat split; auto; lia.
  - intros e H. injection H as <-. cbn. repeat split; auto; lia.
Qed.
Example C213_ex : declares GX (Some In_) gx (get_port_str In_ gx) /\ declares GX None gx (get_var_decl gx)
  /\ get_var_decl gx = [DType "logic"; DSigned; DRange [TAtom (EVar 0%nat); TSym YMinus; one_tok]; DName "x"; DRange [num_tok 3];
       DRange [TLP; TAtom (EVar 0%nat); TSym YShl; TAtom (EVar 1%nat); TRP; TSym YMinus; one_tok]].
Proof.
  split; [apply C213_port, gx_sound|]. split; [|reflexivity].
  apply C213_variable; [apply gx_sound|discriminate|discriminate|discriminate|repeat constructor; lia].
Qed.

(* C214 *)
Definition loose (op : expr_op) : bool := binary_op op && negb (tight_op op).
Theorem C214_width_expression_refuted : forall op x y, loose op = true ->
  exists m, (forall g, g_kind g = Logic -> g_width_of g = Some (EBin op (EVar x) (EVar y)) -> get_var_width_str g = [DRange m])
    /\ reads m (EBin op (EVar x) (EBin Minus (EVar y) one)) /\ forall G, ~ bound G (Of (EBin op (EVar x) (EVar y))) m.
Proof.
  intros op x y L. exists (to_string (EBin op (EVar x) (EVar y)) ++ [TSym YMinus; one_tok]). split.
  - intros g K W. unfold get_var_width_str. rewrite K, W. cbn [negb]. now rewrite orb_true_r.
  - assert (R : reads (to_string (EBin op (EVar x) (EVar y)) ++ [TSym YMinus; one_tok]) (EBin op (EVar x) (EBin Minus (EVar y) one))).
    { exists 12%nat. destruct op; try discriminate; reflexivity. }
    split; [exact R|]. intros G (e' & R' & _). pose proof (reads_fun _ _ _ R R') as X. injection X as X _. subst op. discriminate.
Qed.
Example C214_ex : loose ShiftLeft = true /\ loose LessThan = true /\ loose Minus = false
  /\ get_var_width_str {| g_name := "y"; g_kind := Logic; g_signed := false; g_width := 8; g_width_of := Some (EBin ShiftLeft (EVar 0%nat) (EVar 1%nat));
       g_size := [1]; g_size_of := fun _ => None; g_packed := false; g_explicit := false |}
     = [DRange [TAtom (EVar 0%nat); TSym YShl; TAtom (EVar 1%nat); TSym YMinus; one_tok]].
Proof. repeat split. Qed.

(* C215 *)
Theorem C215_parameter_of_one_refuted : forall G g e, sound G g -> g_kind g = Logic -> g_size g = [1] -> g_size_of g 0%nat = Some e -> g_explicit g = false ->
  ~ declares G None g (get_var_decl g) /\ declares G (Some In_) g (get_port_str In_ g).
Proof.
  intros G g e Sd K Sz Se Ex. split; [|now apply C213_port]. intros (x & R & _ & _ & _ & _ & P & U).
  unfold get_var_decl in R. assert (V : var_array g = false) by (unfold var_array, front; rewrite Sz, Ex; reflexivity).
  assert (A : is_array g = true) by (unfold is_array; rewrite Sz, Se; now rewrite !orb_true_r).
  rewrite V, K in R. destruct (width_ranges G g Sd K) as (ws & W & Bw). rewrite W in R.
  pose proof (eq_trans (eq_sym R) (read_all None (type_of Logic) (g_signed g) ws (g_name g) [])) as R'. injection R' as ->. cbn [de_packed de_unpacked] in P, U.
  assert (SD : size_dims g = [Of e]) by (unfold size_dims; rewrite Sz; cbn; now rewrite Se). rewrite A, SD in P, U. cbn [andb negb] in P, U.
  destruct (g_packed g); cbn in P, U.
  - apply Forall2_len in P. apply Forall2_len in Bw. cbn in P. rewrite <- Bw in P. lia.
  - inversion U.
Qed.
Theorem C215_type_parameter_refuted : forall G g n, g_kind g = TypeParam n -> n <> "logic"%string -> ~ declares G None g (get_var_decl g).
Proof.
  intros G g n K N (x & R & _ & Ty & _). rewrite K in Ty. unfold get_var_decl in R. rewrite K in R. unfold read_decl in R. cbn [app] in R.
  destruct (match _ with DSigned :: _ => _ | _ => _ end) as [s l] eqn:E1 in R. destruct (read_ranges l) as [p l2].
  destruct l2 as [|[| | | |nm] l2]; try discriminate. destruct (read_ranges l2) as [u [|]]; [|discriminate]. injection R as <-. cbn in Ty. congruence.
Qed.
Definition g1 : sig := {| g_name := "v"; g_kind := Logic; g_signed := false; g_width := 8; g_width_of := None; g_size := [1];
  g_size_of := fun i => if Nat.eqb i 0 then Some (EVar 0%nat) else None; g_packed := true; g_explicit := false |}.
Example C215_ex : sound GX g1 /\ get_var_decl g1 = [DType "logic"; DRange [num_tok 7]; DName "v"]
  /\ get_port_str Out_ g1 = [DDir Out_; DType "logic"; DRange [TAtom (EVar 0%nat); TSym YMinus; one_tok]; DRange [num_tok 7]; DName "v"].
Proof.
  split; [|split; reflexivity]. split; [discriminate|]. split; [|discriminate]. intros i e. cbn. destruct (Nat.eqb i 0); [|discriminate].
  intros H. injection H as <-. cbn. repeat split; auto; lia.
Qed.

(* C216 *)
Theorem C216_port_list : forall l, ~ (has_dir In_ l = true /\ has_dir Out_ l = true /\ has_dir Inout_ l = true) ->
  exists o, Permutation l o /\ generate_ports l = Ok (comma_list (entries o))
    (* an output never precedes an input, ports of one direction are in alphabetical order *)
    /\ (forall a p b q c, o = a ++ p :: b ++ q :: c -> ~ (p_dir p = Out_ /\ p_dir q = In_) /\ (p_dir p = p_dir q -> str_ltb (p_name q) (p_name p) = false))
    (* the plain ports in this order, each interface instance once, before them *)
    /\ (forall p, In p l -> p_iface p = None -> In (EPort (p_name p)) (entries o))
    /\ (forall p d i, In p l -> p_iface p = Some (d, i) -> exists d', In (EIface d' i) (entries o))
    /\ (forall d i, In (EIface d i) (entries o) -> exists p, In p l /\ p_iface p = Some (d, i))
    /\ (forall n, In (EPort n) (entries o) -> exists p, In p l /\ p_iface p = None /\ p_name p = n)
    /\ (NoDup (map p_name l) -> NoDup (entries o)).
Proof.
  intros l N. unfold generate_ports. assert (H : exists o, port_order l = Ok o).
  { unfold port_order, stable_sort_ports. rewrite <- !(has_dir_perm _ _ _ (ssort_perm (fun a b => str_ltb (p_name a) (p_name b)) l)).
    destruct (has_dir In_ l && has_dir Out_ l && has_dir Inout_ l) eqn:E; [|eauto]. exfalso. apply N.
    apply andb_true_iff in E as [E C]. apply andb_true_iff in E as [A B]. auto. }
  destruct H as [o H]. rewrite H. cbn [obind]. destruct (port_order_ok l o H) as [P So]. exists o. split; [exact P|]. split.
  { exact (f_equal Ok (with_commas_ok (entries o) 0)). }
  split.
  { intros a p b q c ->. apply (StronglySorted_app_r (R := listed_ok)) in So. apply StronglySorted_inv in So as [_ F]. rewrite Forall_forall in F.
    apply F. apply in_app_iff. right. now left. }
  unfold entries. split; [|split; [|split; [|split]]].
  - intros p I F. apply in_app_iff. right. apply (in_map (fun p => EPort (p_name p))). apply filter_In. split; [eapply Permutation_in; eauto|now rewrite F].
  - intros p d i I F. destruct (ifaces_all o [] p d i) as [[]|K]; [eapply Permutation_in; eauto|exact F|].
    apply in_map_iff in K as ([d' i'] & X & K). cbn in X. subst i'. exists d'. apply in_app_iff. left. apply in_map_iff. exists (d', i). auto.
  - intros d i I. apply in_app_iff in I as [I|I]; apply in_map_iff in I as (x & E & I); [|discriminate]. injection E as <- <-. destruct x as [d i].
    apply ifaces_in in I as (_ & p & I & F). exists p. split; [eapply Permutation_in; [apply Permutation_sym|]; eauto|exact F].
  - intros n I. apply in_app_iff in I as [I|I]; apply in_map_iff in I as (x & E & I); [discriminate|]. injection E as <-.
    apply filter_In in I as [I F]. exists x. split; [eapply Permutation_in; [apply Permutation_sym|]; eauto|]. split; [|reflexivity]. destruct (p_iface x); [discriminate|reflexivity].
  - intros D. apply nodup_app2.
    + pose proof (ifaces_nodup o []) as Q. induction (ifaces [] o) as [|[d i] r IH]; [constructor|]. cbn [map snd] in Q. inversion Q as [|? ? X Y]; subst.
      cbn [map]. constructor; [|now apply IH]. intros K. apply in_map_iff in K as (z & E & K). cbn in E. apply X. injection E as _ <-. now apply in_map.
    + assert (D' : NoDup (map p_name o)) by (eapply Permutation_NoDup; [apply Permutation_map; exact P|exact D]). clear - D'.
      induction o as [|p o IH]; [constructor|]. cbn [map] in D'. inversion D' as [|? ? X Y]; subst. cbn [filter]. destruct (p_iface p); [now apply IH|].
      cbn [map]. constructor; [|now apply IH]. intros K. apply in_map_iff in K as (z & E & K). injection E as E. apply filter_In in K as [K _]. apply X. rewrite <- E. now apply in_map.
    + intros x A B. apply in_map_iff in A as (? & <- & _). apply in_map_iff in B as (? & E & _). discriminate.
Qed.
Definition px n d : pinfo := {| p_name := n; p_dir := d; p_iface := None |}.
Example C216_ex : generate_ports [px "z" Out_; px "b" In_; {| p_name := "i.c"; p_dir := In_; p_iface := Some ("bus.m", "i")%string |}; px "a" Out_; px "clk" In_]
  = Ok [LItem (EIface "bus.m" "i"); LComma; LItem (EPort "b"); LComma; LItem (EPort "clk"); LComma; LItem (EPort "a"); LComma; LItem (EPort "z")].
Proof. reflexivity. Qed.

(* C217 *)
Theorem C217_order_refuted : forall l, strict_weak in_before_out l <-> ~ (has_dir In_ l = true /\ has_dir Out_ l = true /\ has_dir Inout_ l = true).
Proof.
  intros l. split.
  - intros (_ & _ & T) (A & B & C). apply has_dir_in in A as (a & Ia & A). apply has_dir_in in B as (b & Ib & B). apply has_dir_in in C as (c & Ic & C).
    destruct (T a c b Ia Ic Ib) as [X _]; unfold in_before_out; rewrite ?A, ?B, ?C; auto. unfold in_before_out in X. rewrite A, B in X. discriminate.
  - intros N. split; [intros a _; unfold in_before_out; now destruct (p_dir a)|]. split.
    + intros a b c _ _ _ H K. apply in_out in H as [_ H]. apply in_out in K as [K _]. congruence.
    + assert (Q : forall a b c, In a l -> In b l -> In c l -> in_before_out a b = false -> in_before_out b c = false -> in_before_out a c = false).
      { intros a b c Ia Ib Ic H K. destruct (in_before_out a c) eqn:E; [|reflexivity]. apply in_out in E as [A C].
        unfold in_before_out in H, K. rewrite A in H. rewrite C in K. destruct (p_dir b) eqn:B; try discriminate. exfalso. apply N. rewrite !has_dir_in. split; [exists a; auto|]. split; [exists c; auto|exists b; auto]. }
      intros a b c Ia Ib Ic H1 H2 H3 H4. split; eapply Q; eauto.
Qed.
Theorem C217_undefined_refuted : forall l, has_dir In_ l = true -> has_dir Out_ l = true -> has_dir Inout_ l = true -> generate_ports l = UB.
Proof.
  intros l A B C. unfold generate_ports, port_order, stable_sort_ports. rewrite <- !(has_dir_perm _ _ _ (ssort_perm (fun a b => str_ltb (p_name a) (p_name b)) l)).
  now rewrite A, B, C.
Qed.
Example C217_ex : generate_ports [px "pad" Inout_; px "oe" In_; px "val" Out_] = UB
  /\ in_before_out (px "oe" In_) (px "val" Out_) = true /\ in_before_out (px "oe" In_) (px "pad" Inout_) = false /\ in_before_out (px "pad" Inout_) (px "val" Out_) = false.
Proof. repeat split. Qed.

(* C218: modules along a path of instances, outermost first; a parameter in a module elaborates to its override, else its default *)
Definition penv := string -> option Z.
Definition tval (env : penv) (t : ptext) : option Z := match t with TNum z => Some z | TRef n => env n end.
Definition find_par (l : list par) (n : string) : option par := find (fun p => String.eqb (a_name p) n) l.
Definition top_env (l : list par) : penv := fun n => match find_par l n with
  | Some p => match default_of p with Some t => tval (fun _ => None) t | None => None end | None => None end.
Definition inst_env (env : penv) (l : list par) : penv := fun n => match find_par l n with
  | Some p => match override_of p with Some t => tval env t | None => match default_of p with Some t => tval (fun _ => None) t | None => None end end | None => None end.
Fixpoint path_env (env : penv) (path : list (list par)) : penv := match path with [] => env | l :: r => path_env (inst_env env l) r end.
Definition ok_in (outer : list par) (p : par) : Prop :=
  match a_type p with
  | PIntegral => a_parent p = None
  | PParameter => exists q, a_parent p = Some (a_name q) /\ find_par outer (a_name q) = Some q /\ a_value p = a_value q
  | PEnum => False
  end.
Fixpoint ok_path (outer : list par) (path : list (list par)) : Prop :=
  match path with [] => True | l :: r => Forall (ok_in outer) l /\ ok_path l r end.
Lemma inst_ok : forall env outer l, (forall n q, find_par outer n = Some q -> env n = Some (a_value q)) -> Forall (ok_in outer) l ->
  forall n p, find_par l n = Some p -> inst_env env l n = Some (a_value p).
Proof.
  intros env outer l E F n p H. unfold inst_env. rewrite H. pose proof (find_some _ _ H) as [I _]. rewrite Forall_forall in F. specialize (F p I).
  unfold ok_in in F. unfold override_of, skipped, value_str, default_of. destruct (a_type p); [| |contradiction].
  - rewrite F. destruct (a_init p) as [v|]; [|reflexivity]. destruct (Z.eqb_spec v (a_value p)) as [->|]; reflexivity.
  - destruct F as (q & -> & Fq & ->). cbn. now apply E.
Qed.
Theorem C218_parameters : forall top path last n p,
  Forall (fun p => a_type p = PIntegral /\ match a_init p with Some v => v = a_value p | None => a_has p = true end) top ->
  ok_path top (path ++ [last]) -> find_par last n = Some p ->
  path_env (top_env top) (path ++ [last]) n = Some (a_value p).
Proof.
  intros top path last n p T O H.
  assert (E : forall n q, find_par top n = Some q -> top_env top n = Some (a_value q)).
  { intros m q F. unfold top_env. rewrite F. pose proof (find_some _ _ F) as [I _]. rewrite Forall_forall in T. destruct (T q I) as [Ty X].
    unfold default_of, value_str. rewrite Ty. destruct (a_init q) as [v|]; [now subst|]. now rewrite X. }
  clear T. revert E. generalize (top_env top) as env. revert top O. induction path as [|l path IH]; intros top O env E; cbn [app path_env ok_path] in *.
  - destruct O as [O _]. eapply inst_ok; eauto.
  - destruct O as [F O]. apply (IH l O (inst_env env l)). intros m q Q. eapply inst_ok; eauto.
Qed.
Definition ax n t v h i pa : par := {| a_name := n; a_type := t; a_value := v; a_has := h; a_init := i; a_parent := pa |}.
Example C218_ex : let top := [ax "W" PIntegral 8 true (Some 8) None] in
  let path := [[ax "P" PParameter 8 true (Some 4) (Some "W"%string); ax "Q" PIntegral 3 true (Some 3) None; ax "R" PIntegral 5 true (Some 1) None]; [ax "P" PParameter 8 true None (Some "P"%string)]] in
  ok_path top path /\ path_env (top_env top) path "P"%string = Some 8 /\ map override_of (hd [] path) = [Some (TRef "W"); None; Some (TNum 5)].
Proof.
  cbv zeta. split; [|split; reflexivity]. cbn [ok_path]. repeat split; repeat constructor; cbn.
  - exists (ax "W" PIntegral 8 true (Some 8) None). repeat split.
  - exists (ax "P" PParameter 8 true (Some 4) (Some "W"%string)). repeat split.
Qed.

(* C219 *)
Theorem C219_enum_parameter_refuted : forall env l n p, find_par l n = Some p -> a_type p = PEnum -> a_parent p = None ->
  a_value p <> 0 -> a_init p <> Some (a_value p) -> inst_env env l n = Some 0 /\ inst_env env l n <> Some (a_value p).
Proof.
  intros env l n p F T P V N. unfold inst_env, override_of, skipped, value_str. rewrite F, T, P.
  assert (X : match a_init p with Some v => Z.eqb v (a_value p) | None => false end = false).
  { destruct (a_init p) as [v|]; [|reflexivity]. destruct (Z.eqb_spec v (a_value p)); congruence. }
  rewrite X. split; [reflexivity|]. cbn. congruence.
Qed.
Example C219_ex : inst_env (fun _ => None) [ax "MODE" PEnum 2 true None None] "MODE"%string = Some 0.
Proof. reflexivity. Qed.

(* C220 *)
Theorem C220_enum_type : forall vs, exists l, Permutation vs l /\ enum_text vs = comma_list l
  /\ forall a x b y c, l = a ++ x :: b ++ y :: c -> snd x <= snd y.
Proof.
  intros vs. exists (ssort (fun a b => snd a <? snd b) vs). split; [apply ssort_perm|]. split; [apply enum_text_ok|].
  intros a x b y c E. pose proof (ssort_sorted (fun a b : string * Z => snd a <? snd b) z_asym z_neg vs) as So. rewrite E in So.
  apply (StronglySorted_app_r (R := leq (fun a b : string * Z => snd a <? snd b))) in So. apply StronglySorted_inv in So as [_ F]. rewrite Forall_forall in F.
  specialize (F y ltac:(apply in_app_iff; right; now left)). unfold leq in F. lia.
Qed.
Fixpoint define_all (es : enums) (l : list (string * list (string * Z) * Z)) : outcome enums :=
  match l with [] => Ok es | (n, vs, w) :: r => olet es := define_enum es n vs w in define_all es r end.
Theorem C220_labels : forall l es, Forall (fun d => NoDup (map fst (snd (fst d)))) l -> define_all [] l = Ok es ->
  NoDup (flat_map (fun e => map fst (snd e)) es) /\ NoDup (map fst es) /\ es = map fst l
  /\ Forall (fun d => Forall (fun v => 0 <= snd v < 2 ^ snd d) (snd (fst d))) l.
Proof.
  intros l es. assert (G : forall l0 l es0, Forall (fun d : string * list (string * Z) * Z => NoDup (map fst (snd (fst d)))) l ->
    NoDup (flat_map (fun e : string * list (string * Z) => map fst (snd e)) es0) -> NoDup (map fst es0) -> es0 = map fst l0 -> define_all es0 l = Ok es ->
    NoDup (flat_map (fun e => map fst (snd e)) es) /\ NoDup (map fst es) /\ es = map fst (l0 ++ l)
    /\ Forall (fun d => Forall (fun v => 0 <= snd v < 2 ^ snd d) (snd (fst d))) l).
  { clear l. intros l0 l. revert l0. induction l as [|[[n vs] w] l IH]; intros l0 es0 F A B C H; cbn [define_all] in H.
    - injection H as <-. rewrite app_nil_r. auto.
    - inversion F as [|? ? F1 F2]; subst. cbn [fst snd] in F1. unfold define_enum in H.
      destruct (forallb (fun e => fits w (snd e)) vs) eqn:E1; cbn [negb] in H; [|discriminate].
      destruct (existsb (fun e => String.eqb (fst e) n) (map fst l0)) eqn:E2; [discriminate|].
      destruct (existsb _ vs) eqn:E3 in H; [discriminate|]. cbn [obind] in H.
      destruct (IH (l0 ++ [(n, vs, w)]) (map fst l0 ++ [(n, vs)])) as (R1 & R2 & R3 & R4); auto.
      + rewrite flat_map_app. cbn [flat_map snd]. rewrite app_nil_r. apply nodup_app2; auto. intros x X Y.
        apply not_true_iff_false in E3. apply E3. apply in_map_iff in Y as (v & <- & Y). apply in_flat_map in X as (e & X & Z). apply in_map_iff in Z as (u & Z & U).
        apply existsb_exists. exists v. split; [exact Y|]. apply existsb_exists. exists e. split; [exact X|]. apply existsb_exists. exists u. split; [exact U|]. rewrite Z. apply String.eqb_refl.
      + rewrite map_app. cbn [map fst]. apply nodup_app2; auto; [repeat constructor; intros []|]. intros x X [<-|[]]. apply not_true_iff_false in E2. apply E2.
        apply in_map_iff in X as (e & X & Y). apply existsb_exists. exists e. split; [exact Y|]. rewrite X. apply String.eqb_refl.
      + now rewrite map_app.
      + split; [exact R1|]. split; [exact R2|]. split; [rewrite R3, <- app_assoc; reflexivity|]. constructor; [|exact R4]. cbn [fst snd].
        apply Forall_forall. intros v V. rewrite forallb_forall in E1. specialize (E1 v V). unfold fits in E1. lia. }
  intros F H. exact (G [] l [] F ltac:(constructor) ltac:(constructor) eq_refl H).
Qed.
Example C220_ex : enum_text [("B", 2); ("A", 0); ("C", 5)]%string = comma_list [("A", 0); ("B", 2); ("C", 5)]%string
  /\ define_all [] [("E", [("A", 0); ("B", 1)], 1); ("F", [("C", 3)], 2)]%string = Ok [("E", [("A", 0); ("B", 1)]); ("F", [("C", 3)])]%string
  /\ define_all [] [("E", [("A", 0)], 1); ("F", [("A", 3)], 2)]%string = Throw.
Proof. repeat split. Qed.

(* C221 *)
Theorem C221_equal_values_refuted : forall es n a b v w, 0 <= v < 2 ^ w -> a <> b -> (forall e, In e es -> fst e <> n /\ forall u, In u (snd e) -> fst u <> a /\ fst u <> b) ->
  define_enum es n [(a, v); (b, v)] w = Ok (es ++ [(n, [(a, v); (b, v)])]).
Proof.
  intros es n a b v w V N H. unfold define_enum. assert (F : fits w v = true) by (unfold fits; lia). cbn [forallb snd]. rewrite F. cbn [andb negb].
  assert (X : existsb (fun e => String.eqb (fst e) n) es = false).
  { apply not_true_iff_false. intros K. apply existsb_exists in K as (e & I & K). apply String.eqb_eq in K. now destruct (H e I). }
  rewrite X. assert (Y : forall c, c = a \/ c = b -> existsb (fun e => existsb (fun u => String.eqb (fst u) c) (snd e)) es = false).
  { intros c C. apply not_true_iff_false. intros K. apply existsb_exists in K as (e & I & K). apply existsb_exists in K as (u & U & K). apply String.eqb_eq in K.
    destruct (H e I) as [_ Q]. destruct (Q u U). destruct C; congruence. }
  cbn [existsb fst]. rewrite !Y by auto. reflexivity.
Qed.
Example C221_ex : enum_text [("IDLE", 1); ("RUN", 1)]%string = [LItem ("IDLE", 1); LComma; LItem ("RUN", 1)]%string
  /\ define_enum [] "S" [("IDLE", 1); ("RUN", 1)]%string 1 = Ok [("S", [("IDLE", 1); ("RUN", 1)])]%string.
Proof. split; reflexivity. Qed.

(* C222 *)
Theorem C222_property_action_refuted : forall p s, actions (property_text true p (Some s)) = Some (p, Some s, None)
  /\ actions (value_text p (Some s)) = Some (p, None, Some s).
Proof. split; reflexivity. Qed.
Example C222_ex : actions (property_text true "p" (Some "hgdb_assert_fail();"%string)) = Some ("p", Some "hgdb_assert_fail();", None)%string
  /\ actions (property_text true "p" None) = Some ("p", None, None)%string.
Proof. split; reflexivity. Qed.

(* C223 *)
Theorem C223_package_header : forall defs, header_ok [] (package_header true defs) = true.
Proof. intros defs. unfold package_header. cbn [app header_ok]. rewrite header_defs. reflexivity. Qed.
Theorem C223_definitions_kept : forall guard defs d s, In d defs -> In s d -> In (HText s) (package_header guard defs).
Proof.
  intros guard defs d s D I. unfold package_header. apply in_app_iff. right. apply in_app_iff. left. apply in_flat_map. exists d. split; [exact D|].
  apply in_app_iff. left. now apply in_map.
Qed.
Example C223_ex : package_header true [["typedef enum logic {A} E;"]]%string = [HIfndef; HDefine; HPackage; HText "typedef enum logic {A} E;"; HText ""; HEndpackage; HEndif].
Proof. reflexivity. Qed.
(* C227 *)
Theorem C227_header_without_guard_refuted : forall defs, header_ok [] (package_header false defs) = false.
Proof. intros defs. unfold package_header. cbn [app]. rewrite header_defs. reflexivity. Qed.
Example C227_ex : package_header false [["x"]]%string = [HText "x"; HText ""; HEndpackage].
Proof. reflexivity. Qed.

(* C224 *)
Theorem C224_elements : forall n sz, sz <> [1%nat] -> NoDup (wrapper_names (n, sz))
  /\ forall s, In s (wrapper_names (n, sz)) <-> exists ix, Forall2 lt ix sz /\ s = slice_name n ix.
Proof.
  intros n sz N. assert (W : wrapper_names (n, sz) = map (slice_name n) (indices sz)).
  { unfold wrapper_names. cbn [fst snd]. destruct sz as [|[|[|k]] [|m r]]; auto. congruence. }
  rewrite W. split.
  - apply FinFun.Injective_map_NoDup; [|apply indices_nodup]. intros a b H. rewrite !slice_suffix in H. apply append_inj_l in H. now apply suffix_inj.
  - intros s. rewrite in_map_iff. split; intros (ix & A & B); exists ix.
    + split; [now apply indices_in|auto].
    + split; [auto|now apply indices_in].
Qed.
Theorem C224_wrapper : forall ports o, create_wrapper ports = Ok o -> NoDup o /\ o = flat_map wrapper_names ports.
Proof.
  intros ports o H. pose proof (add_names_val _ _ _ H) as E. cbn [app] in E. split; [|exact E]. rewrite E.
  destruct (add_names_ok (flat_map wrapper_names ports) []) as [X _]. apply X. unfold create_wrapper in H. eauto.
Qed.
Example C224_ex : create_wrapper [("a", [2%nat; 2%nat]); ("clk", [1%nat])]%string = Ok ["a_0_0"; "a_0_1"; "a_1_0"; "a_1_1"; "clk"]%string.
Proof. reflexivity. Qed.
(* C228 *)
Theorem C228_clash_refuted : forall n sz ix l r m, sz <> [1%nat] -> Forall2 lt ix sz -> create_wrapper (l ++ (n, sz) :: m ++ (slice_name n ix, [1%nat]) :: r) = Throw.
Proof.
  intros n sz ix l r m N F. unfold create_wrapper. destruct (add_names [] _) as [o| |] eqn:E; [|reflexivity|].
  - exfalso. assert (D : NoDup (flat_map wrapper_names (l ++ (n, sz) :: m ++ (slice_name n ix, [1%nat]) :: r))).
    { apply (add_names_ok _ []). eauto. }
    rewrite flat_map_app in D. apply nodup_tail in D. cbn [flat_map] in D. rewrite flat_map_app in D. cbn [flat_map] in D.
    assert (I : In (slice_name n ix) (wrapper_names (n, sz))) by (apply (C224_elements n sz N); eauto).
    apply in_split in I as (a & b & I). rewrite I in D. rewrite <- app_assoc in D. apply nodup_tail in D. cbn [app] in D. inversion D as [|? ? X _]; subst. apply X.
    rewrite !in_app_iff. right. right. cbn. left. reflexivity.
  - exfalso. revert E. generalize (@nil string) (flat_map wrapper_names (l ++ (n, sz) :: m ++ (slice_name n ix, [1%nat]) :: r)). intros t k. revert t.
    induction k as [|x k IH]; intros t E; cbn [add_names] in E; [discriminate|]. destruct (existsb _ _); [discriminate|]. eapply IH; eauto.
Qed.
Example C228_ex : create_wrapper [("a", [2%nat]); ("a_0", [1%nat])]%string = Throw.
Proof. reflexivity. Qed.

(* C225 *)
Theorem C225_files : forall now fs mods pkg header, NoDup (map fst mods) ->
  let fs' := fst (generate_pkg now fs mods pkg header) in
  let holds path text := exists f, fs' path = Some f /\ f_text f = text
    /\ (forall f0, fs path = Some f0 -> f_text f0 = text -> f = f0)
    /\ ((forall f0, fs path = Some f0 -> f_text f0 <> text) -> f_stamp f = now) in
  (forall n t, In (n, t) mods -> holds (n ++ ".sv")%string t) /\ holds (pkg ++ ".svh")%string header
  /\ forall p, (forall n t, In (n, t) mods -> p <> (n ++ ".sv")%string) -> p <> (pkg ++ ".svh")%string -> fs' p = fs p.
Proof.
  intros now fs mods pkg header D. cbv zeta. unfold generate_pkg. cbn [fst]. split; [|split].
  - intros n t I. rewrite write_other by (apply sv_svh). exact (write_all_in now mods fs n t D I).
  - destruct (write_spec now (fst (write_all now fs mods)) (svh pkg) header) as (f & A & B). exists f. split; [exact A|].
    rewrite write_all_other in B; [exact B|]. intros n t _ X. symmetry in X. now apply sv_svh in X.
  - intros p H N. rewrite write_other by exact N. now apply write_all_other.
Qed.
Definition fs0 : fsys := fun p => if String.eqb p "a.sv" then Some {| f_text := "module a"; f_stamp := 1 |} else if String.eqb p "b.sv" then Some {| f_text := "old"; f_stamp := 1 |} else None.
Example C225_ex : let r := generate_pkg 2 fs0 [("a", "module a"); ("b", "module b")]%string "p" "pkg" in
  fst r "a.sv"%string = Some {| f_text := "module a"; f_stamp := 1 |} /\ fst r "b.sv"%string = Some {| f_text := "module b"; f_stamp := 2 |}
  /\ fst r "p.svh"%string = Some {| f_text := "pkg"; f_stamp := 2 |} /\ snd r = ["b"%string].
Proof. repeat split. Qed.
(* C226 *)
Theorem C226_file_name_refuted : forall now fs mods pkg header n t f, NoDup (map fst mods) -> In (n, t) mods -> fs (sv n) = Some f -> f_text f = t ->
  ~ In n (snd (generate_pkg now fs mods pkg header)).
Proof.
  intros now fs mods pkg header n t f D I F X K. unfold generate_pkg in K. cbn [snd] in K. apply write_all_ids in K as (u & J & K); [|exact D].
  assert (u = t). { clear - D I J. induction mods as [|[m v] mods IH]; [destruct I|]. cbn in D. inversion D as [|? ? N D']; subst.
    destruct I as [I|I], J as [J|J].
    - congruence.
    - injection I as -> ->. exfalso. apply N. apply (in_map fst) in J. exact J.
    - injection J as -> ->. exfalso. apply N. apply (in_map fst) in I. exact I.
    - auto. }
  subst u. exact (K f F X).
Qed.
Theorem C226_second_run_refuted : forall now fs mods pkg header, NoDup (map fst mods) ->
  snd (generate_pkg now (fst (generate_pkg now fs mods pkg header)) mods pkg header) = [].
Proof.
  intros now fs mods pkg header D. destruct (snd (generate_pkg now (fst (generate_pkg now fs mods pkg header)) mods pkg header)) as [|n r] eqn:E; [reflexivity|]. exfalso.
  assert (I : In n (snd (generate_pkg now (fst (generate_pkg now fs mods pkg header)) mods pkg header))) by (rewrite E; now left).
  assert (J := I). unfold generate_pkg in J at 1. cbn [snd] in J. apply write_all_ids in J as (t & J & _); [|exact D].
  destruct (C225_files now fs mods pkg header D) as (H & _). destruct (H n t J) as (f & F & X & _). exact (C226_file_name_refuted _ _ _ _ _ n t f D J F X I).
Qed.
Example C226_ex : snd (generate_pkg 2 fs0 [("a", "module a")]%string "p" "pkg") = [].
Proof. reflexivity. Qed.
Print Assumptions C213_port.
Print Assumptions C213_variable.
Print Assumptions C214_width_expression_refuted.
Print Assumptions C215_parameter_of_one_refuted.
Print Assumptions C215_type_parameter_refuted.
Print Assumptions C216_port_list.
Print Assumptions C217_order_refuted.
Print Assumptions C217_undefined_refuted.
Print Assumptions C218_parameters.
Print Assumptions C219_enum_parameter_refuted.
Print Assumptions C220_enum_type.
Print Assumptions C220_labels.
Print Assumptions C221_equal_values_refuted.
Print Assumptions C222_property_action_refuted.
Print Assumptions C223_package_header.
Print Assumptions C223_definitions_kept.
Print Assumptions C227_header_without_guard_refuted.
Print Assumptions C224_elements.
Print Assumptions C224_wrapper.
Print Assumptions C228_clash_refuted.
Print Assumptions C225_files.
Print Assumptions C226_file_name_refuted.
Print Assumptions C226_second_run_refuted.
