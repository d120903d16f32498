From Verif Require Import Base Const_proofs Xml_spec Xml_model Xml_proofs.
From Coq Require Import String Ascii Permutation.
Local Open Scope string_scope.

(* C44: escaped text stands for the original text and for no other *)
Theorem C44_escape_is_reversible : forall s, stands_for (write_escape s) s /\ forall t, stands_for (write_escape s) t -> t = s.
Proof. intros s. split; [apply escape_ok|]. intros t T. exact (sf_fun _ _ T _ (escape_ok s)). Qed.
Example C44_escape_is_reversible_ex : write_escape "a<b && ""c""" = "a&lt;b &amp;&amp; &quot;c&quot;".
Proof. reflexivity. Qed.

(* C44: no raw markup: no angle bracket or quote, and every ampersand starts an entity *)
Theorem C44_no_raw_markup : forall s i c, String.get i (write_escape s) = Some c ->
  c <> "<"%char /\ c <> ">"%char /\ c <> "'"%char /\ c <> """"%char /\
  (c = "&"%char -> exists e d, entity e d /\ String.substring i (String.length e) (write_escape s) = e).
Proof.
  intros s i c G. assert (A := chars_get _ _ _ _ (sf_chars _ _ (escape_ok s)) G). cbn in A. repeat split; try tauto. intros ->. exact (sf_amp _ _ (escape_ok s) i G).
Qed.
Example C44_no_raw_markup_ex : String.get 1 (write_escape "a<b") = Some "&"%char /\ String.substring 1 4 (write_escape "a<b") = "&lt;".
Proof. split; reflexivity. Qed.

Theorem C44_escape_is_injective : forall s t, write_escape s = write_escape t -> s = t.
Proof. intros s t E. apply (sf_fun (write_escape s)); [apply escape_ok|]. rewrite E. apply escape_ok. Qed.
Example C44_escape_is_injective_ex : write_escape "&lt;" <> write_escape "<".
Proof. discriminate. Qed.

(* C125: any sensible sequence of writer calls produces the text of the document it describes, up to
   blank text between the elements *)
Theorem C125_writer_produces_the_document : forall ops, sensible false 0 ops ->
  exists out d, write_document ops = Ok out /\ Xml_spec.content d out /\ flat_map strip_blanks d = flat_map strip_blanks (described ops).
Proof. exact document_ok. Qed.
Definition ops_ex : list wop := [OpenElt "a"; Attr "k" "x<y"; OpenElt "b"; Content "t&u"; CloseElt; OpenElt "c"].
Example C125_writer_produces_the_document_ex : sensible false 0 ops_ex /\ described ops_ex = [Elem "a" [("k", "x<y")] [Elem "b" [] [Text "t&u"]; Elem "c" [] []]].
Proof. split; [cbn [sensible ops_ex]; repeat split; try discriminate; cbv; intuition discriminate|reflexivity]. Qed.

(* C126: the coverage report is one well-formed element with the statistics, the root path and the
   classes given, whatever their names contain *)
Theorem C126_report_is_well_formed : forall stats root cs, Forall (fun s => xname (fst s)) stats ->
  exists out d, write_document (report_ops stats root cs) = Ok out /\ Xml_spec.content d out
    /\ flat_map strip_blanks d = flat_map strip_blanks [report_tree stats root cs].
Proof.
  intros stats root cs F. destruct (document_ok _ (report_sensible stats root cs F)) as (out & d & E & C & S). exists out, d. split; [exact E|]. split; [exact C|].
  unfold strip in S. now rewrite S, report_described.
Qed.
Definition cs_ex : list (string * string * list (string * string)) := [(("m", "a<b>.py"), [("3", "1"); ("4", "0")])].
Example C126_report_is_well_formed_ex : exists out, write_document (report_ops [("line-rate", "0.5")] "/home" cs_ex) = Ok out /\ Forall (fun s : string * string => xname (fst s)) [("line-rate", "0.5")].
Proof. eexists. split; [vm_compute; reflexivity|]. constructor; [|constructor]. split; [discriminate|cbv; intuition discriminate]. Qed.

(* C127: every source line of a statement with debug information is listed, once *)
Theorem C127_source_lines_listed_once : forall l,
  NoDup (map (fun e => (e_file e, e_line e)) (listed l)) /\
  forall f n, (exists e, In e l /\ e_file e = f /\ e_line e = n) <-> (exists e, In e (listed l) /\ e_file e = f /\ e_line e = n).
Proof.
  intros l. split; [apply listed_nodup|]. intros f n. split; intros (e & I & F & L).
  - destruct (listed_all l e I) as (e' & I' & F' & L'). exists e'. split; [exact I'|]. split; congruence.
  - exists e. split; [now apply listed_in|auto].
Qed.
Definition e1 : entry := {| e_file := "m.py"; e_line := 3; e_gen := "u0"; e_hits := 5 |}.
Definition e2 : entry := {| e_file := "m.py"; e_line := 3; e_gen := "u1"; e_hits := 0 |}.
Definition e3 : entry := {| e_file := "m.py"; e_line := 4; e_gen := "u1"; e_hits := 0 |}.
Example C127_source_lines_listed_once_ex : listed [e1; e3; e2] = [e3; e2].
Proof. reflexivity. Qed.

(* C128: of the statements on one source line only one is counted, so that a line one instance of a
   generator ran can be reported without hits, depending on the order of a hash set *)
Theorem C128_hits_of_instances_are_lost_refuted : forall e e', same_line e e' = true -> e_hits e <> e_hits e' ->
  listed [e; e'] = [e'] /\ listed [e'; e] = [e] /\ Permutation [e; e'] [e'; e].
Proof.
  intros e e' S _. apply same_iff in S as [F L]. split; [|split; [|constructor]]; cbn [listed existsb].
  - assert (same_line e e' = true) as -> by (apply same_iff; auto). reflexivity.
  - assert (same_line e' e = true) as -> by (apply same_iff; auto). reflexivity.
Qed.
Example C128_hits_of_instances_are_lost_ex : same_line e1 e2 = true /\ listed [e1; e2] = [e2] /\ e_hits e1 = 5%Z /\ e_hits e2 = 0%Z.
Proof. repeat split. Qed.
Print Assumptions C44_escape_is_reversible.
Print Assumptions C44_no_raw_markup.
Print Assumptions C44_escape_is_injective.
Print Assumptions C125_writer_produces_the_document.
Print Assumptions C126_report_is_well_formed.
Print Assumptions C127_source_lines_listed_once.
Print Assumptions C128_hits_of_instances_are_lost_refuted.
