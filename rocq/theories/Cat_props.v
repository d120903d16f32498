From Verif Require Import Base Cat_spec Cat_model Cat_proofs.
Local Open Scope Z_scope.
Local Open Scope list_scope.

(* C516: x.concat(y) is refused exactly if the signs differ.  Otherwise it is the parts of x followed by y, as wide as the two together, with the sign
   of x; everything that was there before is as it was. *)
Theorem C516_concat : forall h x y, quiet h -> let s := after h in (x < s_n s)%nat -> (y < s_n s)%nat ->
  let s' := fst (run s (Cat x y)) in
  match snd (run s (Cat x y)) with
  | Ok c => s_signed s x = s_signed s y /\ parts s' c = parts s x ++ [y] /\ s_width s' c = (s_width s x + s_width s y) mod 2 ^ 32 /\ s_signed s' c = s_signed s x
  | Throw => s_signed s x <> s_signed s y /\ s' = s
  | UB => False
  end /\ forall z, (z < s_n s)%nat -> parts s' z = parts s z /\ s_width s' z = s_width s z /\ s_signed s' z = s_signed s z.
Proof.
  intros h x y Q s Hx Hy. pose proof (after_ok h Q) as V. fold s in V. destruct (concat_ok s x y V Hx Hy) as (_ & (_ & G) & R).
  assert (E : run s (Cat x y) = concat s x y) by (cbn [run]; apply Nat.ltb_lt in Hx, Hy; rewrite Hx, Hy; reflexivity). rewrite E. split.
  - destruct R as [(N & R)|(Sg & c & R & _ & K & W & S' & _)]; [rewrite R; cbn [fst snd]; split; [exact N|reflexivity]|]. rewrite R. split; [exact Sg|].
    cbv zeta in *. split; [unfold parts at 1; rewrite K; reflexivity|]. split; [exact W|exact S'].
  - intros z Hz. destruct (G z Hz) as (A & B & C & _). unfold parts. rewrite A. repeat split; assumption.
Qed.
(* ... for a signal x that is not a concatenation it is the same object whenever it is asked for again. *)
Theorem C516_same : forall h h' x y c, quiet h -> quiet h' -> is_cat (after h) x = false -> (x < s_n (after h))%nat -> (y < s_n (after h))%nat ->
  snd (run (after h) (Cat x y)) = Ok c -> snd (run (after ((h ++ [Cat x y]) ++ h')) (Cat x y)) = Ok c.
Proof.
  intros h h' x y c Q Q' Nc Hx Hy R. pose proof (after_ok h Q) as V. destruct (concat_ok (after h) x y V Hx Hy) as (V' & G & D).
  assert (E : run (after h) (Cat x y) = concat (after h) x y) by (cbn [run]; apply Nat.ltb_lt in Hx, Hy; rewrite Hx, Hy; reflexivity). rewrite E in R.
  rewrite !after_app. cbn [fold_left]. rewrite E. set (s1 := fst (concat (after h) x y)) in *. pose proof (later h' s1 V' Q') as G'. set (s2 := fold_left _ h' s1) in *.
  destruct D as [(_ & D)|(_ & d & D & _ & _ & _ & _ & F)]; [rewrite D in R; discriminate R|]. assert (d = c) by congruence. subst d. specialize (F Nc).
  destruct G as (N1 & G). destruct G' as (N2 & G'). destruct (G' x ltac:(lia)) as (K & _ & _ & (l & L) & _). destruct (G x Hx) as (K1 & _).
  cbn [run]. replace (Nat.ltb x (s_n s2)) with true by (symmetry; apply Nat.ltb_lt; lia). replace (Nat.ltb y (s_n s2)) with true by (symmetry; apply Nat.ltb_lt; lia). cbn [andb].
  assert (F2 : find (is_pair s2 y) (s_cats s2 x) = Some c).
  { rewrite L. apply (find_grown _ (is_pair s1 y)); [exact F|]. intros z Hz. pose proof (i_cats s1 V' x z ltac:(lia) Hz) as Lz. unfold is_pair. destruct (G' z Lz) as (-> & _). reflexivity. }
  unfold concat. rewrite K, K1, F2. unfold is_cat in Nc. destruct (s_kind (after h) x); try discriminate Nc; reflexivity.
Qed.
Example C516_ex : let h := [New 3 false; New 4 false; Cat 0 1; New 1 false; Cat 2 3] in
  quiet h /\ parts (after h) 4 = [0; 1; 3]%nat /\ s_width (after h) 4 = 8 /\ snd (run (after h) (Cat 0 1)) = Ok 2%nat /\ snd (run (after h) (Cat 2 3)) = Ok 5%nat.
Proof. split; [intros a H; cbn in H; intuition subst; exact I|]. cbv. repeat split. Qed.

(* C517: x.extend(w) is refused exactly if x is wider than w.  Otherwise it is an extension of x, of width w and with the sign of x, and the same object
   whenever it is asked for again. *)
Theorem C517_extend : forall h x w, quiet h -> let s := after h in (x < s_n s)%nat ->
  let s' := fst (run s (Ext x w)) in
  match snd (run s (Ext x w)) with
  | Ok c => s_width s x <= w /\ extended s' c = Some x /\ s_width s' c = w /\ s_signed s' c = s_signed s x
            /\ forall h', quiet h' -> snd (run (after ((h ++ [Ext x w]) ++ h')) (Ext x w)) = Ok c
  | Throw => w < s_width s x /\ s' = s
  | UB => False
  end /\ forall z, (z < s_n s)%nat -> extended s' z = extended s z /\ s_width s' z = s_width s z /\ s_signed s' z = s_signed s z.
Proof.
  intros h x w Q s Hx. pose proof (after_ok h Q) as V. fold s in V. destruct (extend_ok s x w V Hx) as (V' & (N1 & G) & R).
  assert (E : run s (Ext x w) = extend s x w) by (cbn [run]; apply Nat.ltb_lt in Hx; rewrite Hx; reflexivity). rewrite E. split.
  - destruct R as [(N & R)|(L & c & R & _ & K & W & S' & F)]; [rewrite R; cbn [fst snd]; split; [exact N|reflexivity]|]. rewrite R. split; [exact L|].
    cbv zeta in *. split; [unfold extended; rewrite K; reflexivity|]. split; [exact W|]. split; [exact S'|]. intros h' Q'. rewrite !after_app. cbn [fold_left]. fold s. rewrite E.
    set (s1 := fst (extend s x w)) in *. pose proof (later h' s1 V' Q') as (N2 & G'). set (s2 := fold_left _ h' s1) in *. destruct (G' x ltac:(lia)) as (_ & _ & _ & _ & (l & Le)).
    cbn [run]. replace (Nat.ltb x (s_n s2)) with true by (symmetry; apply Nat.ltb_lt; lia). unfold extend. rewrite Le, (find_grown _ _ _ _ _ _ F) by reflexivity. reflexivity.
  - intros z Hz. destruct (G z Hz) as (A & B & C & _). unfold extended. rewrite A. repeat split; assumption.
Qed.
Example C517_ex : let h := [New 3 true; Ext 0 8; Ext 0 2] in quiet h /\ snd (run (after h) (Ext 0 8)) = Ok 1%nat /\ snd (run (after h) (Ext 0 2)) = Throw /\ s_signed (after h) 1 = true.
Proof. split; [intros a H; cbn in H; intuition subst; exact I|]. cbv. repeat split. Qed.

(* C518: once a signal was exchanged for another in a concatenation, asking for the concatenation of the first one returns that of the other. *)
Theorem C518_moved_refuted :
  ~ (forall h x y c, (forall z w, ~ In (Resize z w) h) -> (forall d t n, In (Move d t n) h -> s_width (after h) t = s_width (after h) n /\ s_signed (after h) t = s_signed (after h) n) ->
       is_cat (after h) x = false -> snd (run (after h) (Cat x y)) = Ok c -> parts (fst (run (after h) (Cat x y))) c = [x; y]).
Proof.
  intros H. specialize (H [New 3 false; New 4 false; New 3 false; Cat 0 1; Move 3 0 2] 0%nat 1%nat 3%nat).
  assert (K : [2; 1]%nat = [0; 1]%nat).
  { apply H; try reflexivity.
    - intros z w X. cbn in X. intuition discriminate.
    - intros d t n X. cbn in X. destruct X as [X|[X|[X|[X|[X|[]]]]]]; try discriminate X. injection X as <- <- <-. split; reflexivity. }
  discriminate K.
Qed.
Example C518_ex : parts (after [New 3 false; New 4 false; New 3 false; Cat 0 1; Move 3 0 2]) 3 = [2; 1]%nat.
Proof. reflexivity. Qed.

(* C519: after the width of a variable was changed by its parameter, a concatenation or an extension that is asked for again has the width, and passes the
   check, of before. *)
Theorem C519_resized_refuted :
  ~ (forall h x y c, (forall d t n, ~ In (Move d t n) h) -> snd (run (after h) (Cat x y)) = Ok c ->
       s_width (fst (run (after h) (Cat x y))) c = (s_width (after h) x + s_width (after h) y) mod 2 ^ 32)
  /\ ~ (forall h x w c, (forall d t n, ~ In (Move d t n) h) -> snd (run (after h) (Ext x w)) = Ok c -> s_width (after h) x <= w).
Proof.
  split; intros H.
  - specialize (H [New 3 false; New 4 false; Cat 0 1; Resize 0 8] 0%nat 1%nat 2%nat).
    assert (K : 7 = 12) by (apply H; [intros d t n X; cbn in X; intuition discriminate|reflexivity]). discriminate K.
  - specialize (H [New 3 false; Ext 0 4; Resize 0 8] 0%nat 4 1%nat).
    assert (K : 8 <= 4) by (apply H; [intros d t n X; cbn in X; intuition discriminate|reflexivity]). lia.
Qed.
Example C519_ex : s_width (after [New 3 false; New 4 false; Cat 0 1; Resize 0 8]) 2 = 7 /\ s_width (after [New 3 false; New 4 false; Cat 0 1; Resize 0 8]) 0 = 8.
Proof. split; reflexivity. Qed.

(* C520: the concatenation of signed signals counts as signed; in SystemVerilog a concatenation is unsigned. *)
Theorem C520_sign_refuted :
  (forall h x y c, quiet h -> (x < s_n (after h))%nat -> (y < s_n (after h))%nat -> snd (run (after h) (Cat x y)) = Ok c -> s_signed (after h) x = false ->
     s_signed (fst (run (after h) (Cat x y))) c = false)
  /\ ~ (forall h x y c, quiet h -> (x < s_n (after h))%nat -> (y < s_n (after h))%nat -> snd (run (after h) (Cat x y)) = Ok c ->
          s_signed (fst (run (after h) (Cat x y))) c = false).
Proof.
  split.
  - intros h x y c Q Hx Hy R F. pose proof (C516_concat h x y Q Hx Hy) as (K & _). cbv zeta in K. rewrite R in K. destruct K as (_ & _ & _ & K). congruence.
  - intros H. specialize (H [New 3 true; New 4 true] 0%nat 1%nat 2%nat).
    assert (K : true = false) by (apply H; [intros a X; cbn in X; intuition subst; exact I|cbn; lia|cbn; lia|reflexivity]). discriminate K.
Qed.
Example C520_ex : s_signed (after [New 3 true; New 4 true; Cat 0 1]) 2 = true.
Proof. reflexivity. Qed.
Print Assumptions C516_concat.
Print Assumptions C516_same.
Print Assumptions C517_extend.
Print Assumptions C518_moved_refuted.
Print Assumptions C519_resized_refuted.
Print Assumptions C520_sign_refuted.
