From Verif Require Import Base IR Nest_spec Nest_model.
From Coq Require Import Permutation.
Local Open Scope Z_scope.

(* ---- the grammar is deterministic ---- *)
Scheme parses_m := Minimality for parses Sort Prop
  with parses_list_m := Minimality for parses_list Sort Prop
  with parses_items_m := Minimality for parses_items Sort Prop.
Combined Scheme parses_mut from parses_m, parses_list_m, parses_items_m.
Lemma parses_det :
  (forall i t r, parses i t r -> forall t' r', parses i t' r' -> t = t' /\ r = r') /\
  (forall i l r, parses_list i l r -> forall l' r', parses_list i l' r' -> l = l' /\ r = r') /\
  (forall i l r, parses_items i l r -> forall l' r', parses_items i l' r' -> l = l' /\ r = r').
Proof.
  apply parses_mut.
  - intros t r L t' r' H. inversion H; subst; try discriminate. auto.
  - intros c i t e r1 r _ IH1 _ IH2 t' r' H. inversion H as [? ? L|? ? ? ? ? ? H1 H2|? ? ? ? H1 N| | |]; subst; [discriminate| |].
    + destruct (IH1 _ _ H1) as [-> E]. injection E as ->. destruct (IH2 _ _ H2) as [-> ->]. auto.
    + destruct (IH1 _ _ H1) as [-> <-]. destruct (N r1 eq_refl).
  - intros c i t r _ IH1 N t' r' H. inversion H as [? ? L|? ? ? ? ? ? H1 H2|? ? ? ? H1 N'| | |]; subst; [discriminate| |].
    + destruct (IH1 _ _ H1) as [_ E]. destruct (N _ E).
    + destruct (IH1 _ _ H1) as [-> ->]. auto.
  - intros i l r _ IH t' r' H. inversion H; subst; [discriminate|]. match goal with J : parses_list _ _ _ |- _ => destruct (IH _ _ J) as [-> ->] end. auto.
  - intros e i l r _ IH t' r' H. inversion H; subst; [discriminate|]. match goal with J : parses_items _ _ _ |- _ => destruct (IH _ _ J) as [-> ->] end. auto.
  - intros v a b s i t r _ IH t' r' H. inversion H; subst; [discriminate|]. match goal with J : parses _ _ _ |- _ => destruct (IH _ _ J) as [-> ->] end. auto.
  - intros r l' r' H. inversion H as [|? ? ? ? ? P]; subst; [auto|]. inversion P; subst; discriminate.
  - intros i t r1 l r P IH1 _ IH2 l' r' H. inversion H as [|? ? ? ? ? P' L']; subst; [inversion P; subst; discriminate|].
    destruct (IH1 _ _ P') as [-> ->]. destruct (IH2 _ _ L') as [-> ->]. auto.
  - intros r l' r' H. inversion H; subst. auto.
  - intros v i t r1 l r _ IH1 _ IH2 l' r' H. inversion H as [|? ? ? ? ? ? P' L'|]; subst. destruct (IH1 _ _ P') as [-> ->]. destruct (IH2 _ _ L') as [-> ->]. auto.
  - intros i t r1 l r _ IH1 _ IH2 l' r' H. inversion H as [| |? ? ? ? ? P' L']; subst. destruct (IH1 _ _ P') as [-> ->]. destruct (IH2 _ _ L') as [-> ->]. auto.
Qed.

(* ---- unfolding ---- *)
Lemma all_eq : forall l, (fix all (l : list stmt) : outcome (list tok) :=
    match l with [] => Ok [] | s :: r => olet t := toks s in olet u := all r in Ok (t ++ u) end) l = toks_all l.
Proof. induction l as [|s r IH]; [reflexivity|]. cbn [toks_all]. rewrite <- IH. reflexivity. Qed.
Lemma toks_if : forall c t f, toks (SIf c t f) = olet th := toks_all t in olet el := toks_all f in
  Ok (TIf c :: wrap th ++ match f with [] => [] | _ => TElse :: if direct_else f then el else wrap el end).
Proof. intros. rewrite <- !all_eq. reflexivity. Qed.
Definition case_out (c : Z * list stmt) : Z * outcome (list tok) := (fst c, olet t := toks_all (snd c) in case_text (fst c) (snd c) t).
Lemma toks_switch : forall e cs d, toks (SSwitch e cs d) =
  olet items := items_text (sort_cases (map case_out cs)) in
  olet def := match d with
              | None | Some [] => Ok [TBegin; TEnd]
              | Some b => olet t := toks_all b in Ok (if direct_case b then t else wrap t)
              end in
  Ok (TCase e :: items ++ TDefault :: def ++ [TEndcase]).
Proof.
  intros. cbn [toks].
  match goal with |- context [items_text (sort_cases (?f cs))] => assert (f cs = map case_out cs) as -> end.
  { induction cs as [|[v b] r IH]; [reflexivity|]. cbn [map]. unfold case_out at 1. cbn [fst snd]. rewrite IH, all_eq. reflexivity. }
  destruct d as [[|s r]|]; [reflexivity| |reflexivity]. rewrite all_eq. reflexivity.
Qed.
Lemma toks_for : forall i a b st body, toks (SFor i a b st body) = olet t := toks_all body in Ok (TFor i a b st :: wrap t).
Proof. intros. rewrite <- all_eq. reflexivity. Qed.
Lemma toks_block : forall body, toks (SBlock body) = olet t := toks_all body in Ok (wrap t).
Proof. intros. rewrite <- all_eq. reflexivity. Qed.

(* ---- sorting ---- *)
Lemma ins_map : forall {A B} (f : Z * A -> Z * B) c l, (forall x, fst (f x) = fst x) -> ins (f c) (map f l) = map f (ins c l).
Proof. intros A B f c l H. induction l as [|d r IH]; [reflexivity|]. cbn [map ins]. rewrite !H. destruct (fst c <? fst d); [reflexivity|]. cbn [map]. now rewrite IH. Qed.
Lemma sort_map : forall {A B} (f : Z * A -> Z * B) l, (forall x, fst (f x) = fst x) -> sort_cases (map f l) = map f (sort_cases l).
Proof.
  intros A B f l H. unfold sort_cases. change (@nil (Z * B)) with (map f []). generalize (@nil (Z * A)). induction l as [|c r IH]; intros acc; [reflexivity|]. cbn [map fold_left]. rewrite ins_map by exact H. apply IH.
Qed.
Lemma ins_perm : forall {A} c (l : list (Z * A)), Permutation (c :: l) (ins c l).
Proof. intros A c l. induction l as [|d r IH]; [reflexivity|]. cbn [ins]. destruct (fst c <? fst d); [reflexivity|]. rewrite perm_swap. now constructor. Qed.
Lemma sort_perm : forall {A} (l : list (Z * A)), Permutation l (sort_cases l).
Proof.
  intros A l. unfold sort_cases. rewrite <- (app_nil_r l) at 1. generalize (@nil (Z * A)). induction l as [|c r IH]; intros acc; [reflexivity|]. cbn [fold_left app].
  rewrite <- IH. rewrite <- ins_perm. apply Permutation_middle.
Qed.

(* ---- printing ---- *)
Definition no_else_toks (ts : list tok) : Prop := forall r, no_else r -> no_else (ts ++ r).
Lemma ne_cons : forall t ts, t <> TElse -> no_else_toks (t :: ts).
Proof. intros t ts N r _ r' E. injection E as E _. contradiction. Qed.
Lemma toks_no_else : forall s ts, toks s = Ok ts -> no_else_toks ts.
Proof.
  intros s ts H. destruct s as [k l e|c t f|e cs d|i a b st body|body|e| |k].
  - destruct k; try discriminate; injection H as <-; apply ne_cons; discriminate.
  - rewrite toks_if in H. apply obind_Ok in H as (th & _ & H). apply obind_Ok in H as (el & _ & H). injection H as <-. apply ne_cons; discriminate.
  - rewrite toks_switch in H. apply obind_Ok in H as (th & _ & H). apply obind_Ok in H as (el & _ & H). injection H as <-. apply ne_cons; discriminate.
  - rewrite toks_for in H. apply obind_Ok in H as (th & _ & H). injection H as <-. apply ne_cons; discriminate.
  - rewrite toks_block in H. apply obind_Ok in H as (th & _ & H). injection H as <-. apply ne_cons; discriminate.
  - injection H as <-. apply ne_cons; discriminate.
  - injection H as <-. apply ne_cons; discriminate.
  - destruct k; injection H as <-; try (apply ne_cons; discriminate); intros r N; exact N.
Qed.
Definition good (s : stmt) : Prop := forall ts, toks s = Ok ts -> plain s ->
  (silent s = true /\ ts = []) \/ (silent s = false /\ exists t, same t s /\ forall r, no_else r -> parses (ts ++ r) t r).
Lemma no_else_end : forall r, no_else (TEnd :: r).
Proof. intros r r' E. discriminate. Qed.
Lemma no_else_case : forall t r, t <> TElse -> no_else (t :: r).
Proof. intros t r N r' E. injection E as -> _. now apply N. Qed.
Lemma all_no_else : forall l ts, toks_all l = Ok ts -> forall r, no_else r -> no_else (ts ++ r).
Proof.
  induction l as [|s l IH]; intros ts H r N; [injection H as <-; exact N|]. cbn [toks_all] in H. apply obind_Ok in H as (t & H1 & H). apply obind_Ok in H as (u & H2 & H). injection H as <-.
  rewrite <- app_assoc. apply (toks_no_else s t H1). now apply IH.
Qed.
Lemma list_good : forall l ts, Forall good l -> Forall plain l -> toks_all l = Ok ts ->
  exists tl, same_list tl l /\ forall r, parses_list (ts ++ TEnd :: r) tl r.
Proof.
  induction l as [|s l IH]; intros ts G P H.
  - injection H as <-. exists []. split; [constructor|]. intros r. constructor.
  - cbn [toks_all] in H. apply obind_Ok in H as (t & H1 & H). apply obind_Ok in H as (u & H2 & H). injection H as <-. inversion G as [|? ? G1 G2]; subst. inversion P as [|? ? P1 P2]; subst.
    destruct (IH u G2 P2 H2) as (tl & S & Q). destruct (G1 t H1 P1) as [[Si ->]|[Si (p & Sp & Pp)]].
    + exists tl. split; [now apply sl_silent|]. exact Q.
    + exists (p :: tl). split; [now apply sl_cons|]. intros r. rewrite <- app_assoc. apply pl_cons with (r1 := u ++ TEnd :: r); [|apply Q]. apply Pp. apply (all_no_else l u H2). apply no_else_end.
Qed.
Lemma wrap_good : forall l ts, Forall good l -> Forall plain l -> toks_all l = Ok ts ->
  exists t, same_body t l /\ forall r, parses (wrap ts ++ r) t r.
Proof.
  intros l ts G P H. destruct (list_good l ts G P H) as (tl & S & Q). exists (PBlock tl). split; [now constructor|]. intros r. unfold wrap. cbn [app]. rewrite <- app_assoc. constructor. apply Q.
Qed.
Lemma one_good : forall s ts, Forall good [s] -> Forall plain [s] -> silent s = false -> toks_all [s] = Ok ts ->
  exists t, same_body t [s] /\ forall r, no_else r -> parses (ts ++ r) t r.
Proof.
  intros s ts G P Si H. cbn [toks_all] in H. apply obind_Ok in H as (t & H1 & H). injection H as <-. rewrite app_nil_r. inversion G as [|? ? G1 _]; subst. inversion P as [|? ? P1 _]; subst.
  destruct (G1 t H1 P1) as [[Si' _]|[_ (p & Sp & Pp)]]; [congruence|]. exists p. split; [now apply sb_one|exact Pp].
Qed.
Lemma direct_good : forall l ts (d : bool), (d = true -> exists s, l = [s] /\ silent s = false) -> Forall good l -> Forall plain l -> toks_all l = Ok ts ->
  exists t, same_body t l /\ forall r, no_else r -> parses ((if d then ts else wrap ts) ++ r) t r.
Proof.
  intros l ts [] D G P H; [destruct (D eq_refl) as (s & -> & Si); now apply one_good|]. destruct (wrap_good l ts G P H) as (t & S & Q). exists t. auto.
Qed.
Lemma direct_else_one : forall l, direct_else l = true -> exists s, l = [s] /\ silent s = false.
Proof. intros [|[] [|]] H; try discriminate; eexists; split; reflexivity. Qed.
Lemma direct_case_one : forall l, direct_case l = true -> exists s, l = [s] /\ silent s = false.
Proof. intros [|[] [|]] H; try discriminate; eexists; split; reflexivity. Qed.
Lemma items_good : forall cs its def d, Forall (fun c => Forall good (snd c)) cs -> Forall (fun c => Forall plain (snd c)) cs -> items_text (map case_out cs) = Ok its ->
  (exists t, (forall r, no_else r -> parses (def ++ r) t r) /\ same_items [(None, t)] [] d) ->
  exists items, same_items items cs d /\ forall r, parses_items (its ++ TDefault :: def ++ TEndcase :: r) items r.
Proof.
  induction cs as [|[v b] cs IH]; intros its def d G P H (t & T & S).
  - injection H as <-. exists [(None, t)]. split; [exact S|]. intros r. cbn [app]. eapply pi_default; [apply T|constructor]. now apply no_else_case.
  - cbn [map] in H. unfold case_out at 1 in H. cbn [fst snd items_text] in H. apply obind_Ok in H as (x & H1 & H). apply obind_Ok in H as (u & H2 & H). injection H as <-.
    apply obind_Ok in H1 as (bt & Hb & H1). inversion G as [|? ? G1 G2]; subst. inversion P as [|? ? P1 P2]; subst. cbn [snd] in *.
    destruct (IH u def d G2 P2 H2) as (items & Si & Q); [now exists t|]. unfold case_text in H1. destruct b as [|s0 b]; [discriminate|]. injection H1 as <-.
    destruct (direct_good (s0 :: b) bt (direct_case (s0 :: b)) (direct_case_one _) G1 P1 Hb) as (p & Sp & Pp).
    exists ((Some v, p) :: items). split; [now constructor|]. intros r. cbn [app]. rewrite <- app_assoc. eapply pi_label; [apply Pp|apply Q].
    intros r' E. specialize (Q r). rewrite E in Q. inversion Q.
Qed.
Lemma all_good : forall s, good s.
Proof.
  apply stmt_ind'.
  - intros k l e ts H P. right. split; [reflexivity|]. inversion P; subst. exists (PLeaf (TAsg k l e)). split; [constructor|]. destruct k; try discriminate; injection H as <-; intros r _; now constructor.
  - intros c t f Gt Gf ts H P. right. split; [reflexivity|]. inversion P as [|? ? ? Pt Pf| | | | | |]; subst. rewrite toks_if in H. apply obind_Ok in H as (th & Ht & H). apply obind_Ok in H as (el & Hf & H). injection H as <-.
    destruct (wrap_good t th Gt Pt Ht) as (p & Sp & Pp). destruct f as [|s0 f].
    + exists (PIf c p None). split; [now constructor|]. intros r N. rewrite app_nil_r. cbn [app]. apply ps_if; [apply Pp|exact N].
    + destruct (direct_good (s0 :: f) el (direct_else (s0 :: f)) (direct_else_one _) Gf Pf Hf) as (q & Sq & Pq).
      exists (PIf c p (Some q)). split; [now constructor|]. intros r N. cbn [app]. rewrite <- app_assoc. eapply ps_if_else; [apply Pp|]. now apply Pq.
  - intros e cs d Gc Gd ts H P. right. split; [reflexivity|]. inversion P as [| |? ? ? Pc Pd| | | | |]; subst. rewrite toks_switch in H. apply obind_Ok in H as (its & Hi & H). apply obind_Ok in H as (def & Hd & H). injection H as <-.
    rewrite sort_map in Hi by reflexivity. assert (Pm := sort_perm cs).
    destruct (items_good (sort_cases cs) its def d) as (items & S & Q).
    + now apply (Permutation_Forall Pm).
    + now apply (Permutation_Forall Pm).
    + exact Hi.
    + destruct d as [[|s0 b]|].
      * injection Hd as <-. exists (PBlock []). split; [intros r _; constructor; constructor|]. apply si_default. constructor. constructor.
      * apply obind_Ok in Hd as (bt & Hb & Hd). injection Hd as <-. destruct (direct_good (s0 :: b) bt (direct_case (s0 :: b)) (direct_case_one _) (Gd _ eq_refl) (Pd _ eq_refl) Hb) as (p & Sp & Pp).
        exists p. split; [exact Pp|]. now apply si_default.
      * injection Hd as <-. exists (PBlock []). split; [intros r _; constructor; constructor|]. apply si_none.
    + exists (PCase e items). split; [eapply sm_case; [exact Pm|exact S]|]. intros r _. cbn [app]. constructor. rewrite <- app_assoc. cbn [app]. rewrite <- app_assoc. apply Q.
  - intros i a b st body G ts H P. right. split; [reflexivity|]. inversion P as [| | |? ? ? ? ? Pb| | | |]; subst. rewrite toks_for in H. apply obind_Ok in H as (t & Hb & H). injection H as <-.
    destruct (wrap_good body t G Pb Hb) as (p & Sp & Pp). exists (PFor i a b st p). split; [now constructor|]. intros r _. cbn [app]. constructor. apply Pp.
  - intros body G ts H P. right. split; [reflexivity|]. inversion P as [| | | |? Pb| | |]; subst. rewrite toks_block in H. apply obind_Ok in H as (t & Hb & H). injection H as <-.
    destruct (list_good body t G Pb Hb) as (tl & S & Q). exists (PBlock tl). split; [now constructor|]. intros r _. unfold wrap. cbn [app]. rewrite <- app_assoc. constructor. apply Q.
  - intros e ts H P. right. split; [reflexivity|]. injection H as <-. exists (PLeaf (TReturn e)). split; [constructor|]. intros r _. now constructor.
  - intros ts H P. right. split; [reflexivity|]. injection H as <-. exists (PLeaf TBreak). split; [constructor|]. intros r _. now constructor.
  - intros k ts H P. destruct k; try (left; injection H as <-; split; reflexivity).
    + inversion P as [| | | | | | |? K]; subst. destruct K as [K|[K|K]]; discriminate.
    + right. split; [reflexivity|]. injection H as <-. exists (PLeaf TAssert). split; [constructor|]. intros r _. now constructor.
    + inversion P as [| | | | | | |? K]; subst. destruct K as [K|[K|K]]; discriminate.
Qed.
