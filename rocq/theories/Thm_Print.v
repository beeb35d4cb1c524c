(** C95, C96: printing documents and reading them back. *)
From Coq Require Import QArith Reals String Ascii List Arith NArith Bool Lia.
From Verif Require Import Base Num Pose DataStructure Urdf Kin Decimal RealArith TinyXml Spec_Xml Appear Export Show Spec_Export Print Spec_Print
  Pf_Xml1 Pf_Xml4 Pf_Xml6 Ex_Xml Pf_Print Pf_PrintX Ex_Robot Thm_Appear Thm_Export.
Import ListNotations.
Local Open Scope string_scope.

(** C95.  What TinyXML prints, to a file or to a stream, is read back as the same document.
    Missing: attribute values that contain "&#x". *)
Theorem C95_printed_documents_partial :
  forall x, printable_tree x ->
    tinyxml_parse (SaveFile [x]) = Ok (Some [x]) /\ tinyxml_parse (stream_out [x]) = Ok (Some [x]).
Proof. intros x P. destruct (saved_document x P) as [D1 D2]. split; [exact (parse_document _ _ D1)|exact (parse_document _ _ D2)]. Qed.
Print Assumptions C95_printed_documents_partial.

(** Quotes of both kinds, a tab, the other special characters and a euro sign. *)
Definition euro : string := String "226" (String "130" (String "172" "")).
Definition odd_tree : xml :=
  XElem "a" [("b", "'" ++ String "009" ("""<&>" ++ euro)); ("c", "&#38;")] [XElem "d" [] []; XElem "e" [] [XElem "f" [("g", "&#;x")] []]].
Fixpoint referenceb (s : string) : bool := match s with "" => false | String c t => prefix "&#x" s || referenceb t end.
Lemma referenceb_ok s : referenceb s = false -> no_reference s.
Proof.
  intros H a b ->. induction a as [|c a IH].
  - cbn [append referenceb prefix] in H. destruct (prefix "" b) eqn:Q; [|destruct b; discriminate Q]. cbn in H. destruct b; discriminate H.
  - cbn [append referenceb] in H. apply orb_false_iff in H as [_ H]. exact (IH H).
Qed.
Lemma odd_printable : printable_tree odd_tree.
Proof.
  assert (U : utf8_text ("'" ++ String "009" ("""<&>" ++ euro))).
  { apply utf8_app; [apply ascii_okb_ok; reflexivity|]. apply cons_utf8; [unfold byte_in; cbn; lia|]. apply utf8_app; [apply ascii_okb_ok; reflexivity|].
    apply (ut_cons euro ""); [|constructor]. apply oc_three; unfold byte_in; cbn; lia. }
  apply node; [reflexivity|reflexivity|reflexivity| |].
  - constructor; [|constructor; [|constructor]]; split; [exact U| | |]; try (apply referenceb_ok; reflexivity). apply ascii_okb_ok; reflexivity.
  - constructor; [apply node; try reflexivity; constructor|]. constructor; [|constructor]. apply node; try reflexivity; [constructor|]. constructor; [|constructor].
    apply node; try reflexivity; [|constructor]. constructor; [|constructor]. split; [apply ascii_okb_ok; reflexivity|apply referenceb_ok; reflexivity].
Qed.
Example C95_example : printable_tree odd_tree /\
  SaveFile [XElem "e" [] [XElem "f" [("g", "<""'")] []]] = "<e>" ++ newline ++ "    <f g='&lt;&quot;&apos;' />" ++ newline ++ "</e>" ++ newline.
Proof. split; [exact odd_printable|reflexivity]. Qed.

(** In general it is not: a document that was read and printed can have other values when it
    is read again, or not be readable at all. *)
Theorem C95_printed_documents_refuted :
  (exists text x x', document_text text [x] /\ writable x /\ tinyxml_parse text = Ok (Some [x]) /\
     tinyxml_parse (SaveFile [x]) = Ok (Some [x']) /\ tinyxml_parse (stream_out [x]) = Ok (Some [x']) /\ x' <> x) /\
  (exists text x, document_text text [x] /\ writable x /\ tinyxml_parse text = Ok (Some [x]) /\
     tinyxml_parse (SaveFile [x]) = Ok None /\ tinyxml_parse (stream_out [x]) = Ok None).
Proof.
  split.
  - set (x := XElem "a" [("b", "&#x41;")] []). assert (W : writable x) by (apply writableb_ok; reflexivity).
    pose proof (element_document _ _ (write_element x W)) as D.
    exists (write x), x, (XElem "a" [("b", "A")] []). split; [exact D|]. split; [exact W|]. split; [exact (parse_document _ _ D)|].
    split; [vm_compute; reflexivity|]. split; [vm_compute; reflexivity|discriminate].
  - set (x := XElem "a" [("b", "&#x'""z")] []). assert (W : writable x) by (apply writableb_ok; reflexivity).
    pose proof (element_document _ _ (write_element x W)) as D.
    exists (write x), x. split; [exact D|]. split; [exact W|]. split; [exact (parse_document _ _ D)|].
    split; vm_compute; reflexivity.
Qed.
Print Assumptions C95_printed_documents_refuted.

(** reading a text: TinyXML, then the URDF reader *)
Definition read_text {A : Arith} (text : string) : option XModel :=
  match tinyxml_parse text with Ok doc => parseURDF_all doc | _ => None end.

(** C96.  From text to text: of a robot that was read from a text, what exportURDF writes is
    saved to a file, or put on a stream, in such a way that reading the file gives exactly what
    reading the exported document in memory gives (C92 and C93 say what that is).
    Missing: attribute values that contain "&#x". *)
Theorem C96_saved_robots_partial :
  forall (A : Arith) show text top X,
    document_text text top -> read_text text = Some X ->
    (forall v, In v (flat_map values top) -> no_reference v) ->
    (forall x, plain_word (show x)) ->
    read_text (SaveFile (exportURDF show X)) = again_file show X /\
    read_text (stream_out (exportURDF show X)) = again_file show X.
Proof.
  intros A show text top X D E V SH. unfold read_text in E. rewrite (parse_document _ _ D) in E.
  destruct (written_read show SH top X) as [W1 W2]; [|exact E|].
  - intros v I. split; [exact (document_values _ _ D v I)|exact (V v I)].
  - unfold read_text, again_file. rewrite W1, W2. split; reflexivity.
Qed.
Print Assumptions C96_saved_robots_partial.

(** With the standard stream for the numbers the file is always readable, and describes the
    robot of C92. *)
Theorem C96_saved_files_are_read_partial :
  forall text top (X : @XModel RA),
    document_text text top -> read_text text = Some X ->
    (forall v, In v (flat_map values top) -> no_reference v) ->
    (forall x, In x (kinematic_numbers X) -> size_ok x) ->
    exists X', read_text (SaveFile (exportURDF show6 X)) = Some X' /\
      robot_of X' = again_robot show6 (fun _ => mkPose (V3 n0 n0 n0) (Q4 n0 n0 n0 n1)) (robot_of X).
Proof.
  intros text top X D E V N. destruct (C96_saved_robots_partial RA show6 text top X D E V show6_word) as [S _]. rewrite S.
  unfold read_text in E. rewrite (parse_document _ _ D) in E.
  destruct (C92_export_partial RA show6 top X E) as (X' & EX & R & _); [|exists X'; split; [exact EX|exact R]].
  intros x I. apply C94_printed_numbers, N, I.
Qed.
Print Assumptions C96_saved_files_are_read_partial.

Definition tower_text : string := String.concat "" (map write tower_top).
Definition read_names (o : option (@XModel rationals)) : option (list string) := option_map (fun X => map fst (mi_links (robot_of X))) o.
Lemma tower_document : document_text tower_text tower_top.
Proof. refine (write_document _ _ _ _). apply writableb_ok. vm_compute. reflexivity. Qed.
Lemma show_q_plain x : plain_word (show_q x).
Proof.
  unfold show_q. destruct (Qeq_bool x 0); [|destruct (Qeq_bool x 1); [|exact I]]; (split; [split; [unfold byte_in; cbn; lia|cbn; intuition discriminate]|exact I]).
Qed.
Example C96_example :
  document_text tower_text tower_top /\ (forall v, In v (flat_map values tower_top) -> no_reference v) /\ (forall x, plain_word (show_q x)) /\
  read_names (read_text tower_text) = Some ["a"; "b"].
Proof.
  split; [exact tower_document|]. split; [|split; [exact show_q_plain|vm_compute; reflexivity]].
  intros v I. apply referenceb_ok. assert (F : forallb (fun v => negb (referenceb v)) (flat_map values tower_top) = true) by (vm_compute; reflexivity).
  rewrite forallb_forall in F. specialize (F v I). destruct (referenceb v); [discriminate F|reflexivity].
Qed.

(** A robot that is read, and whose exported document is read, but not the file it is saved to. *)
Definition twins_top : list xml :=
  [el "robot" [("name", "twins")]
    [el "link" [("name", "&#x41;")] []; el "link" [("name", "A")] [];
     el "joint" [("name", "j"); ("type", "fixed")] [el "parent" [("link", "A")] []; el "child" [("link", "&#x41;")] []]]].
Definition is_someb {B} (o : option B) : bool := match o with Some _ => true | None => false end.
Theorem C96_saved_robots_refuted :
  exists text top (X : @XModel rationals) X',
    document_text text top /\ read_text text = Some X /\
    (forall x, In x (kinematic_numbers X) -> printable (A := rationals) show_q x) /\
    again_file (A := rationals) show_q X = Some X' /\
    read_text (A := rationals) (SaveFile (exportURDF (A := rationals) show_q X)) = None /\
    read_text (A := rationals) (stream_out (exportURDF (A := rationals) show_q X)) = None.
Proof.
  exists (String.concat "" (map write twins_top)), twins_top.
  assert (D : document_text (String.concat "" (map write twins_top)) twins_top) by (refine (write_document _ _ _ _); apply writableb_ok; vm_compute; reflexivity).
  assert (C : match read_text (A := rationals) (String.concat "" (map write twins_top)) with
    | None => false
    | Some X => forallb (fun x => andb (exactly x) (one_word (show_q x))) (kinematic_numbers X) && is_someb (again_file (A := rationals) show_q X) &&
         negb (is_someb (read_text (A := rationals) (SaveFile (exportURDF (A := rationals) show_q X)))) && negb (is_someb (read_text (A := rationals) (stream_out (exportURDF (A := rationals) show_q X))))
    end = true) by (vm_compute; reflexivity).
  destruct (read_text (A := rationals) _) as [X|] eqn:E; [|discriminate C].
  apply andb_prop in C as [C C4]. apply andb_prop in C as [C C3]. apply andb_prop in C as [C1 C2].
  destruct (again_file (A := rationals) show_q X) as [X'|] eqn:E'; [|discriminate C2]. exists X, X'.
  split; [exact D|]. split; [reflexivity|]. split; [|split; [exact E'|]].
  - intros x I. rewrite forallb_forall in C1. specialize (C1 x I). apply andb_prop in C1 as [T1 T3]. unfold exactly in T1.
    unfold printable. cbn [str_to_double rationals]. destruct (strToDouble (show_q x)) as [y|]; [|discriminate T1].
    destruct (show_q x) as [|c [|c' t]]; try discriminate T3. split; [discriminate|]. split; [|discriminate].
    split; [|exact Logic.I]. cbn [one_word] in T3. intros ->. discriminate T3.
  - split; [destruct (read_text (A := rationals) (SaveFile _)); [discriminate C3|reflexivity]|destruct (read_text (A := rationals) (stream_out _)); [discriminate C4|reflexivity]].
Qed.
Print Assumptions C96_saved_robots_refuted.
