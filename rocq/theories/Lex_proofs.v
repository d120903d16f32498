From Verif Require Import Base SV_spec IR IRSem_spec Print_spec Lex_spec Print_model.
Local Open Scope string_scope.

Lemma app_str_assoc a b c : (a ++ b) ++ c = a ++ b ++ c.
Proof. induction a; cbn; congruence. Qed.
Lemma app_str_nil a : a ++ "" = a.
Proof. induction a; cbn; congruence. Qed.

Lemma lex_S n : forall s l, lex n s = Some l -> lex (S n) s = Some l.
Proof.
  induction n as [|n IH]; intros s l H; [discriminate|].
  destruct s as [|c r]; [exact H|]. cbn [lex] in H.
  change (lex (S (S n)) (String c r)) with
     (if Ascii.eqb c " " then lex (S n) r
          else if id_char c then
            let '(a, b) := name_run (String c r) in
            match lex (S n) b with Some l => Some (LId a :: l) | None => None end
          else
            match longest operators (String c r) with
            | Some (t, b) => match lex (S n) b with Some l => Some (LOp t :: l) | None => None end
            | None => None
            end).
  destruct (Ascii.eqb c " "); [now apply IH|]. destruct (id_char c).
  - destruct (name_run (String c r)) as [a b].
    destruct (lex n b) eqn:E; [|discriminate]. now rewrite (IH _ _ E).
  - destruct (longest operators (String c r)) as [[t b]|]; [|discriminate].
    destruct (lex n b) eqn:E; [|discriminate]. now rewrite (IH _ _ E).
Qed.
Lemma lex_mono n k s l : lex n s = Some l -> (n <= k)%nat -> lex k s = Some l.
Proof. intros H. induction 1; auto using lex_S. Qed.
Lemma lexes_fun s a b : lexes s a -> lexes s b -> a = b.
Proof.
  intros [n Hn] [k Hk]. pose proof (lex_mono n (n + k) s a Hn ltac:(lia)).
  pose proof (lex_mono k (n + k) s b Hk ltac:(lia)). congruence.
Qed.

Lemma lexes_nil : lexes "" [].
Proof. exists 1%nat. reflexivity. Qed.
Lemma lexes_sp r l : lexes r l -> lexes (String " " r) l.
Proof. intros [n H]. exists (S n). exact H. Qed.

(* text that cannot extend a name / an operator *)
Definition head_not (p : ascii -> bool) (s : string) : Prop :=
  match s with EmptyString => True | String c _ => p c = false end.
Definition op_char (c : ascii) : bool :=
  existsb (Ascii.eqb c) ["<"; ">"; "="; "!"; "?"; "&"; "-"; "|"; "*"; "+"; "~"; "^"; ":"; "/"; "%"; "#"]%char.

Lemma name_run_app a r : forallb id_char (list_ascii_of_string a) = true -> head_not id_char r ->
  name_run (a ++ r) = (a, r).
Proof.
  induction a as [|c a IH]; intros H K.
  - cbn. destruct r as [|d r]; [reflexivity|]. cbn in *. now rewrite K.
  - cbn in H. apply andb_true_iff in H as [H1 H2]. cbn. rewrite H1, IH; auto.
Qed.
Lemma lexes_name a r l : is_name a -> head_not id_char r -> lexes r l -> lexes (a ++ r) (LId a :: l).
Proof.
  intros [N H] K [n R]. exists (S n). destruct a as [|c a]; [congruence|].
  pose proof H as H'. cbn in H'. apply andb_true_iff in H' as [H1 _].
  change (String c a ++ r) with (String c (a ++ r)). cbn [lex]. rewrite H1.
  destruct (Ascii.eqb c " ") eqn:E.
  - apply Ascii.eqb_eq in E. subst c. discriminate H1.
  - change (String c (a ++ r)) with (String c a ++ r). rewrite name_run_app by auto. now rewrite R.
Qed.

Lemma op_char_false c d : op_char c = false -> op_char d = true -> Ascii.eqb d c = false.
Proof.
  intros H K. destruct (Ascii.eqb_spec d c); [subst; congruence|reflexivity].
Qed.
(* a token that continues beyond t would need the next character to be an operator character *)
Fixpoint all_ops (u : string) : bool :=
  match u with EmptyString => true | String d u => op_char d && all_ops u end.
Lemma after_all u : all_ops u = true -> forall t c r, op_char c = false ->
  after u (t ++ String c r) = option_map (fun b => b ++ String c r) (after u t).
Proof.
  induction u as [|d u IH]; intros A t c r H; [reflexivity|].
  cbn in A. apply andb_true_iff in A as [A1 A2]. destruct t as [|e t].
  - cbn. now rewrite (op_char_false c d H A1).
  - cbn. destruct (Ascii.eqb d e); auto.
Qed.
Definition tail_ops (u : string) : bool :=
  match u with EmptyString => true | String _ u => all_ops u end.
Lemma longest_stop l : forallb tail_ops l = true -> forall t c r, t <> "" -> op_char c = false ->
  longest l (t ++ String c r)
  = option_map (fun p => (fst p, snd p ++ String c r)) (longest l t).
Proof.
  induction l as [|u l IH]; intros A t c r N H; [reflexivity|].
  cbn [forallb] in A. apply andb_true_iff in A as [A1 A2]. cbn [longest].
  assert (after u (t ++ String c r) = option_map (fun b => b ++ String c r) (after u t)) as ->.
  { destruct u as [|d u]; [reflexivity|]. destruct t as [|e t]; [congruence|].
    cbn. destruct (Ascii.eqb d e); auto. now apply after_all. }
  destruct (after u t); cbn; auto.
Qed.
Lemma longest_sym s r : head_not op_char r -> longest operators (sym_text s ++ r) = Some (sym_text s, r).
Proof.
  intros H. assert (longest operators (sym_text s) = Some (sym_text s, "")) as E
    by (destruct s; vm_compute; reflexivity).
  destruct r as [|c r].
  - now rewrite app_str_nil.
  - rewrite longest_stop; [now rewrite E|vm_compute; reflexivity|destruct s; discriminate|exact H].
Qed.

Lemma id_not_op c : id_char c = true -> op_char c = false.
Proof. destruct c as [[] [] [] [] [] [] [] []]; vm_compute; congruence. Qed.

Lemma lexes_op t r l : longest operators (t ++ r) = Some (t, r) ->
  match t with String c _ => Ascii.eqb c " " = false /\ id_char c = false | _ => False end ->
  lexes r l -> lexes (t ++ r) (LOp t :: l).
Proof.
  intros L H [n R]. exists (S n). destruct t as [|c t]; [contradiction|]. destruct H as [H1 H2].
  change (String c t ++ r) with (String c (t ++ r)) in *. cbn [lex]. rewrite H1, H2, L. now rewrite R.
Qed.
Lemma lexes_sym s r l : head_not op_char r -> lexes r l -> lexes (sym_text s ++ r) (LOp (sym_text s) :: l).
Proof.
  intros H R. apply lexes_op; auto; [now apply longest_sym|]. destruct s; cbn; auto.
Qed.
Lemma lexes_sym_twice s r l : s = YInv \/ s = YNot \/ s = YXor ->
  lexes (sym_text s ++ r) l -> lexes (sym_text s ++ sym_text s ++ r) (LOp (sym_text s) :: l).
Proof.
  intros H R. apply lexes_op; auto; destruct H as [->|[->| ->]]; cbn; auto.
Qed.
Lemma lexes_lp r l : lexes r l -> lexes ("(" ++ r) (LOp "(" :: l).
Proof. intros R. apply lexes_op; auto; cbn; auto. Qed.
Lemma lexes_rp r l : lexes r l -> lexes (")" ++ r) (LOp ")" :: l).
Proof. intros R. apply lexes_op; auto; cbn; auto. Qed.
Lemma lexes_q r l : lexes r l -> lexes (" ? " ++ r) (LOp "?" :: l).
Proof.
  intros R. change (" ? " ++ r) with (String " " ("?" ++ String " " r)). apply lexes_sp.
  apply lexes_op; cbn; auto. now apply lexes_sp.
Qed.
Lemma lexes_colon r l : lexes r l -> lexes (": " ++ r) (LOp ":" :: l).
Proof.
  intros R. change (": " ++ r) with (":" ++ String " " r).
  apply lexes_op; cbn; auto. now apply lexes_sp.
Qed.

Section T.
  Variable nm : var -> string.
  Hypothesis NM : forall x, is_name (nm x).
  Local Notation toks := (map (lexeme_of nm)).

  Definition lexed (t : string) (ts : list tok) : Prop :=
    forall r l, head_not id_char r -> lexes r l -> lexes (t ++ r) (toks ts ++ l).

  Lemma lexed_paren t ts : lexed t ts -> lexed (parens t) (paren ts).
  Proof.
    intros H r l K R. unfold parens, paren. rewrite !app_str_assoc. cbn [map]. rewrite map_app.
    cbn [map lexeme_of app]. apply lexes_lp. rewrite <- app_assoc. apply H; [reflexivity|].
    cbn [app]. now apply lexes_rp.
  Qed.
  Lemma op_text_sym op : unary_op op = true \/ binary_op op = true ->
    exists s, op_text op = sym_text s /\ sym_tok op = [TSym s].
  Proof.
    unfold op_text, sym_tok. intros [H|H]; destruct op; try discriminate H; cbn;
      eexists; (split; [|reflexivity]); reflexivity.
  Qed.

  (* the text of a child that is not an application of the same operator starts with a name or
     an opening parenthesis *)
  Lemma head_child op a r : spaced a -> same_op op a = false ->
    head_not op_char (expr_text nm (same_op op a) a ++ r).
  Proof.
    intros S ->. destruct a; cbn in *; try contradiction; try reflexivity.
    destruct (NM x) as [N H]. destruct (nm x) as [|c t]; [congruence|]. cbn in *.
    apply andb_true_iff in H as [H _]. now apply id_not_op.
  Qed.

  Lemma expr_lexed e : plain e -> spaced e -> forall top,
    lexed (expr_text nm top e) (expr_to_string top e).
  Proof.
    induction e as [x|v w sg|op a IHa|op a IHa b IHb|c IHc a IHa b IHb|a IHa hi lo|a IHa b IHb|a IHa w];
      intros P Sp top; cbn in Sp; try contradiction.
    - intros r l K R. cbn. now apply lexes_name.
    - destruct P as (Hop & Pa & N), Sp as (Sa & Sn). specialize (IHa Pa Sa (same_op op a)).
      destruct (op_text_sym op (or_introl Hop)) as (s & Et & Es).
      assert (lexed (op_text op ++ expr_text nm (same_op op a) a)
                    (sym_tok op ++ expr_to_string (same_op op a) a)) as B.
      { intros r l K R. rewrite Et, Es, app_str_assoc. cbn [app map lexeme_of].
        specialize (IHa r l K R).
        destruct (same_op op a) eqn:E.
        - destruct a as [| |op' x|op' x y| | | |]; try discriminate E.
          + cbn in E. apply expr_op_eqb_eq in E. subst op'.
            assert (s = YInv \/ s = YNot \/ s = YXor) as Hs.
            { specialize (Sn eq_refl). destruct op; try contradiction; cbn in Es; injection Es as <-; auto. }
            cbn [expr_text expr_to_string] in IHa |- *. rewrite Et, Es in *.
            rewrite app_str_assoc in *. now apply lexes_sym_twice.
          + cbn in E. apply expr_op_eqb_eq in E. congruence.
        - apply lexes_sym; auto. pose proof (head_child op a r Sa E) as Hh. now rewrite E in Hh. }
      destruct top; [exact B|now apply lexed_paren].
    - destruct P as (Hop & Pa & Pb & _), Sp as (Sa & Sb).
      specialize (IHa Pa Sa (same_op op a)). specialize (IHb Pb Sb (same_op op b)).
      destruct (op_text_sym op (or_intror Hop)) as (s & Et & Es).
      assert (lexed (expr_text nm (same_op op a) a ++ " " ++ op_text op ++ " " ++ expr_text nm (same_op op b) b)
                    (expr_to_string (same_op op a) a ++ sym_tok op ++ expr_to_string (same_op op b) b)) as B.
      { intros r l K R. rewrite Et, Es, !app_str_assoc, !map_app, <- !app_assoc. apply IHa; [reflexivity|].
        cbn [map lexeme_of app]. change (" " ++ ?x) with (String " " x).
        apply lexes_sp. apply lexes_sym; [reflexivity|]. apply lexes_sp. now apply IHb. }
      destruct top; [exact B|now apply lexed_paren].
    - destruct P as (Pc & Pa & Pb), Sp as (Sc & Sa & Sb).
      specialize (IHc Pc Sc true). specialize (IHa Pa Sa true). specialize (IHb Pb Sb true).
      assert (lexed ((if is_expr c then parens (expr_text nm true c) else expr_text nm true c)
            ++ " ? " ++ expr_text nm true a ++ ": " ++ expr_text nm true b)
           ((if is_expr c then paren (expr_to_string true c) else expr_to_string true c)
            ++ [TQ] ++ expr_to_string true a ++ [TColon] ++ expr_to_string true b)) as B.
      { intros r l K R. rewrite !app_str_assoc, !map_app, <- !app_assoc.
        assert (lexed (if is_expr c then parens (expr_text nm true c) else expr_text nm true c)
                      (if is_expr c then paren (expr_to_string true c) else expr_to_string true c)) as C
          by (destruct (is_expr c); auto using lexed_paren).
        apply C; [reflexivity|]. cbn [map lexeme_of app]. apply lexes_q. apply IHa; [reflexivity|].
        apply lexes_colon. now apply IHb. }
      destruct top; [exact B|now apply lexed_paren].
  Qed.
  Lemma expr_text_lexes e : plain e -> spaced e ->
    lexes (expr_text nm true e) (toks (to_string e)).
  Proof.
    intros P S. pose proof (expr_lexed e P S true "" [] I lexes_nil) as H.
    now rewrite app_str_nil, app_nil_r in H.
  Qed.
End T.
