(* C08, C64-C66: printed expressions. *)
From Verif Require Import Base SV_spec IR IRSem_spec Print_spec Lex_spec Print_model Print_proofs Lex_proofs.
Local Open Scope Z_scope.

(* The printed tokens read back, with SystemVerilog precedence and associativity, as an
   expression with the same value in every state; and no other reading exists. *)
Theorem C08_printed_expression_same_value :
  forall (G : tenv) (e : expr), plain e -> wt G e ->
    exists e', reads (to_string e) e' /\ same_value G e' e
               /\ forall e'', reads (to_string e) e'' -> e'' = e'.
Proof.
  intros G e P W. destruct (to_string_reads G e P W) as (e' & R & V). exists e'.
  split; [exact R|]. split; [exact V|]. intros e'' R'. exact (reads_fun _ _ _ R' R).
Qed.
Print Assumptions C08_printed_expression_same_value.

(* The characters that are written split into exactly these tokens. *)
Theorem C08_text_splits_into_tokens :
  forall (nm : var -> string) (e : expr),
    (forall x, is_name (nm x)) -> plain e -> spaced e ->
    forall l, lexes (expr_text nm true e) l <-> l = map (lexeme_of nm) (to_string e).
Proof.
  intros nm e NM P S l. pose proof (expr_text_lexes nm NM e P S) as H. split.
  - intros L. exact (lexes_fun _ _ _ L H).
  - intros ->. exact H.
Qed.
Print Assumptions C08_text_splits_into_tokens.

Definition ex_PG : tenv := fun _ => {| d_width := 4; d_signed := false |}.
Definition ex_nm (x : var) : string := String (ascii_of_nat (97 + Nat.modulo x 26)) EmptyString.
(* (a - b - c) + (d + (b & (c & ~~d))), under a condition *)
Definition ex_expr : expr :=
  ECond (EBin LessThan (EVar 0) (EVar 1))
    (EBin Add (EBin Minus (EBin Minus (EVar 0) (EVar 1)) (EVar 2))
       (EBin Add (EVar 3) (EBin And (EVar 1) (EBin And (EVar 2) (EUn UInvert (EUn UInvert (EVar 3)))))))
    (EUn Minus (EVar 0)).
Example C08_ex_hyp : plain ex_expr /\ wt ex_PG ex_expr /\ spaced ex_expr /\ forall x, is_name (ex_nm x).
Proof.
  split; [|split; [|split]].
  - cbn. intuition congruence.
  - cbn. intuition lia.
  - cbn. intuition congruence.
  - intros x. split; [discriminate|]. unfold ex_nm. cbn [list_ascii_of_string forallb].
    rewrite andb_true_r. pose proof (Nat.mod_upper_bound x 26 ltac:(lia)) as H.
    unfold id_char, between. rewrite nat_ascii_embedding by lia. lia.
Qed.
Example C08_ex_text :
  expr_text ex_nm true ex_expr = "(a < b) ? (a - b - c) + d + (b & c & (~~d)): -a"%string.
Proof. reflexivity. Qed.

(* A right-nested subtraction loses its parentheses and with them its value. *)
Theorem C64_right_nested_operator_refuted :
  exists (G : tenv) (e e' : expr) (r : venv),
    wt G e /\ (forall e'', reads (to_string e) e'' -> e'' = e') /\ reads (to_string e) e'
    /\ ev G r e = 1 /\ ev G r e' = 15.
Proof.
  exists ex_PG, (EBin Minus (EVar 0) (EBin Minus (EVar 1) (EVar 2))),
    (EBin Minus (EBin Minus (EVar 0) (EVar 1)) (EVar 2)),
    (fun x => match x with O => 1 | S O => 1 | _ => 1 end).
  assert (reads (to_string (EBin Minus (EVar 0) (EBin Minus (EVar 1) (EVar 2))))
            (EBin Minus (EBin Minus (EVar 0) (EVar 1)) (EVar 2))) as R by (exists 10%nat; reflexivity).
  split; [cbn; lia|]. split; [intros e'' H; exact (reads_fun _ _ _ H R)|]. auto.
Qed.
Print Assumptions C64_right_nested_operator_refuted.
Example C64_text : expr_text ex_nm true (EBin Minus (EVar 0) (EBin Minus (EVar 1) (EVar 2))) = "a - b - c"%string.
Proof. reflexivity. Qed.

(* The negation of a difference is printed as a different expression. *)
Theorem C65_negated_difference_refuted :
  exists (G : tenv) (e e' : expr) (r : venv),
    wt G e /\ (forall e'', reads (to_string e) e'' -> e'' = e') /\ reads (to_string e) e'
    /\ ev G r e = 0 /\ ev G r e' = 14.
Proof.
  exists ex_PG, (EUn Minus (EBin Minus (EVar 0) (EVar 1))),
    (EBin Minus (EUn UMinus (EVar 0)) (EVar 1)), (fun x => 1).
  assert (reads (to_string (EUn Minus (EBin Minus (EVar 0) (EVar 1))))
            (EBin Minus (EUn UMinus (EVar 0)) (EVar 1))) as R by (exists 10%nat; reflexivity).
  split; [cbn; lia|]. split; [intros e'' H; exact (reads_fun _ _ _ H R)|]. auto.
Qed.
Print Assumptions C65_negated_difference_refuted.

(* Negating twice, or reducing a reduction, is written as a different operator token. *)
Theorem C66_repeated_prefix_refuted :
  lexes (expr_text ex_nm true (EUn Minus (EUn Minus (EVar 0)))) [LOp "--"; LId "a"] /\
  lexes (expr_text ex_nm true (EUn UAnd (EUn UAnd (EVar 0)))) [LOp "&&"; LId "a"] /\
  lexes (expr_text ex_nm true (EUn UOr (EUn UOr (EVar 0)))) [LOp "||"; LId "a"].
Proof. repeat split; exists 5%nat; reflexivity. Qed.
Print Assumptions C66_repeated_prefix_refuted.
