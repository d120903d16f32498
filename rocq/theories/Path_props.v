From Coq Require Import String Ascii.
From Verif Require Import Base Covparse_spec Path_spec Path_model Path_proofs.

(* C135: with absolute paths, the root of the report followed by the name of a file is its path *)
Theorem C135_root_and_name_give_the_path : forall a l, absolute a -> Forall (less a) l ->
  exists root, longest_path (a :: l) = Ok root /\
    forall f, In f (a :: l) -> exists name n, after_root root f = Ok name /\ f = root ++ repeat slash n ++ name /\ ~ absolute name.
Proof.
  intros a l A F. destruct (root_prefix a l A F) as (root & E & P). exists root. split; [exact E|]. intros f I. destruct (P f I) as (s & ->). destruct (skip_ok s) as (n & Es).
  exists (skip_slashes s), n. split; [apply after_app|]. split; [now rewrite <- Es|apply skip_head].
Qed.
Definition f1 := chr "/home/u/a/m.py". Definition f2 := chr "/home/u/b/n.py".
Example C135_root_and_name_give_the_path_ex : longest_path [f1; f2] = Ok (chr "/home/u") /\ after_root (chr "/home/u") f2 = Ok (chr "b/n.py") /\ less f1 f2 /\ absolute f1.
Proof. repeat split; try reflexivity; [|eexists; reflexivity]. cbv. repeat (apply ls_eq). apply ls_lt. cbv. lia. Qed.

(* C136: the root is not always a directory of every file: it can be the start of a directory name *)
Theorem C136_root_is_not_a_directory_refuted : forall d x y z, ~ In slash d -> y <> [] -> (forall c r, y = c :: r -> (code slash < code c)%nat) -> ~ In slash x ->
  let a := slash :: d ++ slash :: x in
  let b := slash :: d ++ y ++ slash :: z in
  less a b /\ longest_path [a; b] = Ok (slash :: d) /\ ~ inside_dir (slash :: d) b.
Proof.
  intros d x y z Nd Ny Hy Nx a b. destruct y as [|c y]; [congruence|]. assert (Hc := Hy c y eq_refl).
  assert (Ascii.eqb slash c = false) as Ec. { apply Ascii.eqb_neq. intros <-. lia. }
  split; [|split].
  - unfold a, b. apply ls_eq. clear Nd a b. induction d; cbn; [now apply ls_lt|now apply ls_eq].
  - cbn [longest_path least]. assert (mismatch a b = Ok (S (List.length d))) as ->.
    { unfold a, b. cbn [mismatch]. rewrite Ascii.eqb_refl. assert (mismatch (d ++ slash :: x) (d ++ (c :: y) ++ slash :: z) = Ok (List.length d)) as ->; [|reflexivity].
      clear -Ec. induction d as [|e d IH]; [cbn [app mismatch]; now rewrite Ec|]. change (mismatch ((e :: d) ++ slash :: x) ((e :: d) ++ (c :: y) ++ slash :: z)) with (if Ascii.eqb e e then olet n := mismatch (d ++ slash :: x) (d ++ (c :: y) ++ slash :: z) in Ok (S n) else Ok O).
      rewrite Ascii.eqb_refl, IH. reflexivity. }
    cbn [obind]. assert ((S (List.length d) <? List.length a)%nat = true) as ->. { apply Nat.ltb_lt. unfold a. cbn [List.length]. rewrite app_length. cbn [List.length]. lia. }
    assert (rfind a (S (List.length d)) = Some (S (List.length d))) as ->.
    { assert (nth_error a (S (List.length d)) = Some slash) as N by (unfold a; cbn [nth_error]; rewrite nth_error_app2, Nat.sub_diag by lia; reflexivity). cbn [rfind]. rewrite N, Ascii.eqb_refl. reflexivity. }
    f_equal. unfold a. cbn [firstn]. f_equal. rewrite firstn_app, firstn_all, Nat.sub_diag. apply app_nil_r.
  - intros [r E]. unfold b in E. cbn [app] in E. injection E as E. apply app_inv_head in E. injection E as -> _. rewrite Ascii.eqb_refl in Ec. discriminate.
Qed.
Example C136_root_is_not_a_directory_ex : longest_path [chr "/a/x.py"; chr "/ab/x.py"] = Ok (chr "/a") /\ after_root (chr "/a") (chr "/ab/x.py") = Ok (chr "b/x.py").
Proof. split; reflexivity. Qed.

(* C137: with names without directory, the first file is taken as the root and reported with an empty
   name, and the names of others are cut *)
Theorem C137_names_without_directory_refuted : forall a l, ~ In slash a -> Forall (less a) l -> longest_path (a :: l) = Ok a /\ after_root a a = Ok [] /\
  forall b, find_text a b = None -> after_root a b = if (List.length b <? List.length a - 1)%nat then UB else Ok (skip_slashes (skipn (List.length a - 1) b)).
Proof.
  intros a l N F. split; [|split].
  - cbn [longest_path]. destruct (least_ok l a (List.length a) (Nat.le_refl _) F) as (k & E & _ & _). rewrite E. cbn [obind].
    destruct (rfind a k) as [p|] eqn:R; [|reflexivity]. apply rfind_some in R as [_ I]. apply nth_error_In in I. contradiction.
  - rewrite <- (app_nil_r a) at 2. rewrite after_app. reflexivity.
  - intros b B. unfold after_root. now rewrite B.
Qed.
Example C137_names_without_directory_ex : longest_path [chr "a.py"; chr "b.py"] = Ok (chr "a.py") /\ after_root (chr "a.py") (chr "b.py") = Ok (chr "y") /\ after_root (chr "a.py") (chr "b") = UB.
Proof. repeat split. Qed.
Print Assumptions C135_root_and_name_give_the_path.
Print Assumptions C136_root_is_not_a_directory_refuted.
Print Assumptions C137_names_without_directory_refuted.
