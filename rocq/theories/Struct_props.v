(* C10, C68-C71: packed structs. *)
From Verif Require Import Base Num_model Struct_spec Struct_model Struct_proofs.
Local Open Scope Z_scope.

(* The vectors of a struct, however deeply nested, lie one after the other from bit 0 in
   declaration order, each with its declared width, and fill the struct. *)
Theorem C10_fields_tile_in_declaration_order :
  forall (s : list field), wf_struct s ->
    struct_width s = total (struct_leaves s) /\
    forall before path w after, struct_leaves s = before ++ (path, w) :: after ->
      exists r, access s path = Ok r /\ ps_low r = total before
                /\ ps_high r = total before + w - 1.
Proof.
  intros s W. split; [apply struct_width_total|]. intros b p w a E.
  destruct (access_leaf s b p w a W E) as (r & R1 & R2 & R3 & _). eauto.
Qed.
Print Assumptions C10_fields_tile_in_declaration_order.

(* So every bit belongs to exactly one vector. *)
Theorem C10_every_bit_in_one_field :
  forall (s : list field) (b : Z), wf_struct s -> 0 <= b < struct_width s ->
    exists! path, In path (map fst (struct_leaves s)) /\
                  exists r, access s path = Ok r /\ ps_low r <= b <= ps_high r.
Proof. exact bit_leaf. Qed.
Print Assumptions C10_every_bit_in_one_field.

(* A member access, of a vector or of a nested struct, is inside the struct, as wide as the
   member; an unknown name is refused. *)
Theorem C10_member_inside_struct :
  forall (s : list field) (n : string), wf_struct s ->
    match access s [n] with
    | Ok r => In n (map fname s) /\ 0 <= ps_low r /\ ps_low r <= ps_high r
              /\ ps_high r < struct_width s
              /\ ps_high r = ps_low r + bitwidth (ps_def r) - 1
              /\ In (ps_def r) s /\ fname (ps_def r) = n
    | Throw => ~ In n (map fname s)
    | UB => False
    end.
Proof.
  intros s n [N W]. cbn [access slice_members obind].
  assert (forall base off, (exists q, set_up s base off n = Ok q) \/
                           (set_up s base off n = Throw /\ ~ In n (map fname s))) as K.
  { clear. induction s as [|d s IH]; intros base off; [right; split; [reflexivity|intros []]|].
    cbn [set_up map]. destruct (String.eqb_spec (fname d) n) as [Q|Q]; [left; eexists; reflexivity|].
    destruct (IH base (off + bitwidth d)) as [H|[H1 H2]]; [left; exact H|].
    right. split; [exact H1|]. intros [H|H]; tauto. }
  destruct (K 0 0) as [(q & Q)|[Q1 Q2]].
  - rewrite Q. cbn [obind]. apply set_up_inside in Q; [|exact W].
    destruct Q as (E1 & E2 & E3 & E4 & E5 & E6). repeat split; try lia; auto.
    rewrite <- E5. apply in_map. exact E4.
  - rewrite Q1. exact Q2.
Qed.
Print Assumptions C10_member_inside_struct.

Definition ex_struct : list field :=
  [FLeaf "valid" 1 false;
   FSub "hdr" [FLeaf "src" 4 false; FLeaf "dst" 4 false];
   FLeaf "data" 16 true].
Example C10_ex_wf : wf_struct ex_struct.
Proof.
  assert (forall l : list string, NoDup l <-> NoDup l) as _ by tauto.
  split; [repeat constructor; cbn; intuition congruence|].
  unfold ex_struct. apply Forall_cons; [constructor; lia|].
  apply Forall_cons; [|apply Forall_cons; [constructor; lia|constructor]].
  constructor; [discriminate| |].
  - repeat constructor; cbn; intuition congruence.
  - apply Forall_cons; [constructor; lia|]. apply Forall_cons; [constructor; lia|constructor].
Qed.
Example C10_ex_access :
  exists r, access ex_struct ["hdr"; "dst"]%string = Ok r /\ ps_low r = 5 /\ ps_high r = 8.
Proof. eexists. repeat split. Qed.

(* The emitted typedef lists the members in declaration order, which SystemVerilog lays out
   from the top: the first of several members is never where the generator thinks it is. *)
Theorem C68_struct_layout_matches_typedef_refuted :
  forall (d e : field) (s : list field), wf_struct (d :: e :: s) ->
    exists r b, access (d :: e :: s) [fname d] = Ok r
      /\ sv_low (typedef_members (d :: e :: s)) (fname d) = Some b /\ ps_low r <> b.
Proof.
  intros d e s W. pose proof W as [N F]. do 2 eexists. cbn [access set_up typedef_members map sv_low].
  rewrite String.eqb_refl. cbn [obind slice_members]. split; [reflexivity|]. split; [reflexivity|].
  cbn [ps_low fold_right snd].
  assert (forall l, Forall wf l -> 0 <= fold_right (fun x a => snd x + a) 0
            (map (fun d => (fname d, bitwidth d)) l)) as K.
  { induction 1 as [|x l Wx _ IH]; cbn; [lia|].
    pose proof (total_nonneg _ (wf_leaves_pos x Wx)). rewrite <- bitwidth_total in H. lia. }
  apply Forall_cons_iff in F as [_ F]. pose proof F as F'.
  apply Forall_cons_iff in F as [_ F]. specialize (K s F).
  destruct (set_up_inside (e :: s) 0 0 (fname e)
              {| ps_low := 0; ps_high := bitwidth e - 1; ps_def := e |}) as (_ & P & _); [exact F'| |].
  - cbn [set_up]. rewrite String.eqb_refl. do 2 f_equal; lia.
  - cbn in P. change (fold_right _ 0 (map _ s)) with
      (fold_right (fun x a => snd x + a) 0 (map (fun d => (fname d, bitwidth d)) s)). lia.
Qed.
Print Assumptions C68_struct_layout_matches_typedef_refuted.

(* A member of a member that is not a struct is looked up in the struct of the variable:
   accepted, and beyond the end of the variable. *)
Theorem C69_member_of_vector_rejected_refuted :
  exists s a b r, wf_struct s /\ access s [a; b] = Ok r
    /\ (exists q n w sg, access s [a] = Ok q /\ ps_def q = FLeaf n w sg)
    /\ ps_high r >= struct_width s.
Proof.
  exists [FLeaf "a" 4 false; FLeaf "b" 8 false], "b"%string, "b"%string. eexists.
  split; [split; [repeat constructor; cbn; intuition congruence|repeat constructor]|].
  split; [reflexivity|]. split; [|cbn; lia].
  do 4 eexists. split; reflexivity.
Qed.
Print Assumptions C69_member_of_vector_rejected_refuted.

(* Every signed vector member wider than a bit is printed with the sign after the range,
   which is not SystemVerilog; all other members are. *)
Theorem C70_struct_member_text_refuted :
  forall n w, 1 < w -> vector_decl (member_words n w true) = false.
Proof.
  intros n w H. unfold member_words. rewrite (proj2 (Z.ltb_lt 1 w) H). reflexivity.
Qed.
Print Assumptions C70_struct_member_text_refuted.
Theorem C70_other_member_text_partial :
  forall n w sg, sg = false \/ w = 1 -> 0 < w -> is_dim n = false -> is_signing n = false ->
    vector_decl (member_words n w sg) = true.
Proof.
  intros n w sg H W D S. unfold member_words. destruct (1 <? w) eqn:E.
  - destruct H as [-> | ->]; [|discriminate]. cbn. rewrite D, S. reflexivity.
  - destruct sg; cbn; [|unfold optional at 1]; rewrite ?S; cbn; rewrite ?D; cbn; rewrite ?S; cbn; rewrite ?D; reflexivity.
Qed.
Print Assumptions C70_other_member_text_partial.
Example C70_ex :
  member_words "data" 16 false = ["logic"; "[15:0]"; "data"]%string
  /\ member_words "data" 16 true = ["logic"; "[15:0]"; "signed"; "data"]%string.
Proof. split; reflexivity. Qed.

(* Two structs declared under one name are accepted only if their vectors agree in name,
   width and sign ... *)
Theorem C71_redefinition_of_flat_struct_partial :
  forall a b, flat a -> (same_struct a b = true <-> a = b).
Proof. exact same_flat. Qed.
Print Assumptions C71_redefinition_of_flat_struct_partial.
Theorem C71_redefinition_same_width_partial :
  forall a b, same_struct a b = true -> struct_width a = struct_width b.
Proof. exact same_width. Qed.
Print Assumptions C71_redefinition_same_width_partial.
(* ... but nested members may be named differently. *)
Theorem C71_redefinition_is_identical_refuted :
  exists a b n, wf_struct a /\ wf_struct b /\ same_struct a b = true
    /\ In n (map fname a) /\ access b [n] = Throw.
Proof.
  exists [FSub "x" [FLeaf "v" 1 false]], [FSub "y" [FLeaf "v" 1 false]], "x"%string.
  assert (forall n, wf_struct [FSub n [FLeaf "v" 1 false]]) as K.
  { intros n. split; [repeat constructor; intros []|]. constructor; [|constructor].
    constructor; [discriminate | repeat constructor; intros [] | repeat constructor]. }
  split; [apply K|]. split; [apply K|]. repeat split. left. reflexivity.
Qed.
Print Assumptions C71_redefinition_is_identical_refuted.
