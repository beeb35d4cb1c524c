(** C69-C75: from the characters of the text to the model. *)
From Coq Require Import String List Arith NArith Ascii Bool Lia.
From Verif Require Import Base Num Pose DataStructure Urdf Kin Wrapper TinyXml Decimal RealArith
  Spec_Robot Spec_Hist Spec_Load Spec_Graph Spec_Urdf Spec_Xml
  Pf_Read Pf_Xml1 Pf_Xml4 Pf_Xml5 Pf_Xml6 Pf_Xml8 Ex_Robot Ex_Xml Thm_Load Thm_Read.
Import ListNotations.
Local Open Scope string_scope.

Lemma document_not_empty text nodes : document_text text nodes -> text <> "".
Proof. intros D ->. apply parse_document in D. discriminate D. Qed.

(** C69.  A text that spells an XML document is read as that document: names, attribute
    values with their references resolved, nesting and order, whatever the layout,
    quoting, comments, declaration and byte order mark. *)
Theorem C69_documents_are_read_as_written :
  forall text nodes, document_text text nodes -> tinyxml_parse text = Ok (Some nodes).
Proof. exact parse_document. Qed.
Print Assumptions C69_documents_are_read_as_written.

Example C69_example : document_text ex_document ex_top.
Proof. exact ex_document_text. Qed.
Example C69_references : tinyxml_parse
  ("<!-- c --> <a b='&lt;&#65;&#x42;&quot;' c=""x y"" ><d/> text <e   f = '1'></e  ></a>") =
  Ok (Some [XOther; XElem "a" [("b", "<AB"""); ("c", "x y")] [XElem "d" [] []; XOther; XElem "e" [("f", "1")] []]]).
Proof. vm_compute. reflexivity. Qed.

(** C70.  Every tree with proper names can be written down so that reading it back gives
    the same tree; attribute values may contain any UTF-8 text. *)
Theorem C70_written_trees_read_back :
  forall name attrs kids, writable (XElem name attrs kids) ->
    tinyxml_parse (write (XElem name attrs kids)) = Ok (Some [XElem name attrs kids]).
Proof. intros name attrs kids W. apply parse_document, write_document, W. Qed.
Print Assumptions C70_written_trees_read_back.

Example C70_example : writable ex_robot /\ exists t l k, ex_robot = XElem t l k /\ (4 < List.length k)%nat.
Proof. split; [exact ex_writable|]. eexists _, _, _. split; [reflexivity|]. cbn. lia. Qed.
Example C70_hard_values : writable (XElem "a" [("b", "<&>""'" ++ String "195" (String "169" ""))] [XOther]).
Proof.
  cbn [writable]. split; [apply nameb_ok; reflexivity|]. split.
  - constructor; [|constructor]. split; [apply nameb_ok; reflexivity|]. cbn [snd].
    apply utf8_app; [apply ascii_okb_ok; reflexivity|]. apply (ut_cons (String "195" (String "169" "")) ""); [|constructor].
    apply oc_two; split; vm_compute; discriminate.
  - split; [constructor; [intros []|constructor]|]. split; exact I.
Qed.

(** C71.  On every UTF-8 text, well-formed or not, parsing comes to an end without leaving
    the text: constructing a model from it is constructing it from the nodes found, or
    from none. *)
Theorem C71_utf8_texts_are_parsed :
  forall (A : Arith) text, utf8_text text ->
    exists d, tinyxml_parse text = Ok d /\ ctor_text text = ctor (fun _ => d) text.
Proof.
  intros A text U. destruct (parse_ends text) as (d & E).
  - rewrite (c_str_id text (utf8_nonzero text U)). apply utf8_uncut, U.
  - exists d. split; [exact E|apply ctor_text_ctor, E].
Qed.
Print Assumptions C71_utf8_texts_are_parsed.
(** It is enough that no byte announces more bytes than the text has. *)
Theorem C71_uncut_texts_are_parsed :
  forall text, each (fun c => N_of_ascii c <> 0%N) text -> uncut text -> exists d, tinyxml_parse text = Ok d.
Proof. intros text Z U. apply parse_ends. rewrite (c_str_id text Z). exact U. Qed.
Print Assumptions C71_uncut_texts_are_parsed.
Example C71_example : utf8_text ("<a b='" ++ String "226" (String "130" (String "172" "<<&&;")))
  /\ tinyxml_parse ("<a b='" ++ String "226" (String "130" (String "172" "<<&&;"))) = Ok None.
Proof.
  split; [|vm_compute; reflexivity]. apply utf8_app; [apply ascii_okb_ok; reflexivity|].
  apply (ut_cons (String "226" (String "130" (String "172" ""))) "<<&&;"); [|apply ascii_okb_ok; reflexivity].
  apply oc_three; split; vm_compute; discriminate.
Qed.

(** Not on every text: one that ends inside a character makes the parser loop forever, and
    another makes it read past the end. *)
Theorem C71_any_text_refuted :
  (exists text, forall A : Arith, ctor_text text = Diverge) /\
  (exists text, forall A : Arith, ctor_text text = UB OutOfBounds).
Proof.
  split.
  - exists ("<?xml?><a " ++ String "239" "?"). intros A.
    assert (E : tinyxml_parse ("<?xml?><a " ++ String "239" "?") = Diverge) by (vm_compute; reflexivity).
    unfold ctor_text. cbn [append] in *. rewrite E. reflexivity.
  - exists ("<?xml?><a b='" ++ String "226" ""). intros A.
    assert (E : tinyxml_parse ("<?xml?><a b='" ++ String "226" "") = UB OutOfBounds) by (vm_compute; reflexivity).
    unfold ctor_text. cbn [append] in *. rewrite E. reflexivity.
Qed.
Print Assumptions C71_any_text_refuted.

(** C72.  A robot description that stops anywhere before the end of its root element, even
    inside a character, is never taken for a complete one: no model is constructed. *)
Theorem C72_truncated_documents_never_load :
  forall (A : Arith) before kp root x early rest m,
    prolog_text before kp -> element_text root x ->
    before ++ root = early ++ rest -> rest <> "" ->
    ctor_text early <> Ok m.
Proof. intros. eapply early_end_ctor; eassumption. Qed.
Print Assumptions C72_truncated_documents_never_load.

Example C72_example : exists early rest, ex_declaration ++ write ex_robot = early ++ rest /\ rest <> "" /\
  slen early > 600 /\ prolog_text ex_declaration [XOther] /\ element_text (write ex_robot) ex_robot.
Proof.
  exists (substring 0 700 ex_document), (substring 700 10000 ex_document).
  split; [vm_compute; reflexivity|]. split; [intros E; apply (f_equal slen) in E; vm_compute in E; discriminate E|].
  split; [vm_compute; lia|]. split; [exact ex_prolog|exact ex_element].
Qed.

(** C73.  From text to model: a text that spells a document which reads as a tree-shaped
    robot with supported joints is loaded as that robot. *)
Theorem C73_text_to_model :
  forall (A : Arith) text nodes R root,
    document_text text nodes -> document_reads nodes R -> is_tree R root -> ends_named R ->
    (forall j, In j (r_joints R) -> is_supported (uj_type j)) ->
    (forall n i, In (n, Some i) (r_links R) -> ~ In (n ++ "_com") (link_names R)) ->
    exists m, ctor_text text = Ok m /\ ctor (fun _ => Some nodes) text = Ok m /\
              loadable (fun _ => Some nodes) text R root.
Proof.
  intros A text nodes R root D DR Tr En Su Co.
  destruct (C66_readable_documents_load A (fun _ => Some nodes) text nodes R root (document_not_empty _ _ D) eq_refl DR Tr En Su Co) as (L & m & E).
  exists m. rewrite (ctor_text_ctor text (Some nodes) (parse_document _ _ D)). auto.
Qed.
Print Assumptions C73_text_to_model.
(** Every model constructed from a text comes from a robot description found in it. *)
Theorem C73_model_to_text :
  forall (A : Arith) text m, ctor_text text = Ok m ->
    exists nodes R root, tinyxml_parse text = Ok (Some nodes) /\ document_reads nodes R /\ graph_ok R root.
Proof.
  intros A text m E. destruct (tinyxml_parse text) as [d| | |] eqn:P.
  - rewrite (ctor_text_ctor text d P) in E. destruct (C66_constructed_models A _ _ _ E) as (top & R & root & E1 & E2 & E3).
    exists top, R, root. rewrite E1. auto.
  - unfold ctor_text in E. destruct text; [discriminate E|]. rewrite P in E. discriminate E.
  - unfold ctor_text in E. destruct text; [discriminate E|]. rewrite P in E. discriminate E.
  - unfold ctor_text in E. destruct text; [discriminate E|]. rewrite P in E. discriminate E.
Qed.
Print Assumptions C73_model_to_text.
(** Layout, quoting, comments and ignored elements have no effect. *)
Theorem C73_layout_is_irrelevant :
  forall (A : Arith) text text' nodes nodes',
    document_text text nodes -> document_text text' nodes' -> alike_kids "" nodes nodes' ->
    ctor_text text = ctor_text text'.
Proof.
  intros A text text' nodes nodes' D D' H.
  rewrite (ctor_text_ctor text _ (parse_document _ _ D)), (ctor_text_ctor text' _ (parse_document _ _ D')).
  rewrite (ctor_cases _ _ (document_not_empty _ _ D)), (ctor_cases _ _ (document_not_empty _ _ D')), (alike_parse _ _ H).
  reflexivity.
Qed.
Print Assumptions C73_layout_is_irrelevant.

Example C73_example : document_text ex_document ex_top /\ document_reads ex_top ex_R /\ exists m, ctor_text ex_document = Ok m.
Proof.
  split; [exact ex_document_text|]. split; [exact C66_document_example|].
  pose proof ex_loadable as L.
  destruct (C73_text_to_model _ ex_document ex_top ex_R "base" ex_document_text C66_document_example
              (ld_tree _ _ _ _ L) (ld_ends _ _ _ _ L) (ld_supported _ _ _ _ L) (ld_com _ _ _ _ L)) as (m & E & _).
  exists m. exact E.
Qed.
Example C73_other_layout : exists text', text' <> write ex_robot /\ document_text text' ex_top /\ document_text (write ex_robot) [ex_robot]
  /\ alike_kids "" ex_top [ex_robot].
Proof.
  exists ex_document. split; [intros E; apply (f_equal slen) in E; vm_compute in E; discriminate E|].
  split; [exact ex_document_text|]. split; [exact (write_document _ _ _ ex_writable)|].
  apply ak_left; [intros t _ (? & ? & D); discriminate D|]. apply alike_kids_refl.
Qed.

(** the last character of a document is ">" or white space *)
Definition closes (t : string) : Prop := exists s c, t = s ++ String c "" /\ (c = ">"%char \/ white_char c).
Lemma closes_app a t : closes t -> closes (a ++ t).
Proof. intros (s & c & -> & C). exists (a ++ s), c. split; [apply app_assoc_s|exact C]. Qed.
Lemma closes_gt : closes ">".
Proof. exists "", ">"%char. auto. Qed.
Lemma white_closes w : white w -> w = "" \/ closes w.
Proof.
  induction w as [|c w IH]; intros W; [auto|right]. destruct W as [C W].
  destruct (IH W) as [->|D]; [exists "", c; auto|]. exact (closes_app (String c "") w D).
Qed.
Lemma element_closes e x : element_text e x -> closes e.
Proof. intros []; repeat apply (closes_app "/" ">" closes_gt) || apply closes_app || exact closes_gt. Qed.
Lemma misc_closes t k : misc_text t k -> t = "" \/ closes t.
Proof.
  assert (J : forall a u, a = "" \/ closes a -> u = "" \/ closes u -> a ++ u = "" \/ closes (a ++ u)).
  { intros a u Ca [->|Cu]; [rewrite app_nil_s; exact Ca|right; apply closes_app, Cu]. }
  induction 1 as [|w t k W _ IH|c t k C _ IH|c t k C _ IH]; [auto|apply J; [apply white_closes, W|exact IH]| |].
  - apply J; [right|exact IH]. destruct C as (b & -> & _). do 2 apply closes_app. exact (closes_app "--" ">" closes_gt).
  - apply J; [right|exact IH]. destruct C as (b & -> & _). do 2 apply closes_app. exact closes_gt.
Qed.
Lemma document_last text nodes : document_text text nodes -> closes text.
Proof.
  intros (pre & kp & e & x & post & kq & -> & _ & E & M & _). apply closes_app.
  destruct (misc_closes _ _ M) as [->|C]; [rewrite app_nil_s; exact (element_closes _ _ E)|apply closes_app, C].
Qed.
Lemma app_last_inj a b s c : a ++ String b "" = s ++ String c "" -> a = s /\ b = c.
Proof.
  revert s. induction a as [|x a IH]; intros [|y s] E; cbn in E.
  - injection E as ->. auto.
  - injection E as _ E. destruct s; discriminate E.
  - injection E as _ E. destruct a; discriminate E.
  - injection E as -> E. destruct (IH s E) as [-> ->]. auto.
Qed.

(** C74.  Not every accepted text is a document: whatever follows the root element is
    ignored from the first character on that starts no mark-up, and attribute values
    need no quotes. *)
Theorem C74_only_documents_load_refuted :
  (exists text m, ctor_text (A := RA) text = Ok m /\ forall nodes, ~ document_text text nodes) /\
  (forall (A : Arith) before kp root x after kq c junk,
     prolog_text before kp -> element_text root x -> misc_text after kq ->
     byte_in 33 127 c -> c <> "<"%char -> utf8_text junk ->
     ctor_text (before ++ root ++ after ++ String c junk) = ctor_text (before ++ root ++ after)) /\
  tinyxml_parse "<a b=c/>" = Ok (Some [XElem "a" [("b", "c")] []]) /\
  tinyxml_parse "<a/><b/><!--" = Ok (Some [XElem "a" [] []; XElem "b" [] []; XOther]).
Proof.
  assert (J : forall (A : Arith) before kp root x after kq c junk,
     prolog_text before kp -> element_text root x -> misc_text after kq ->
     byte_in 33 127 c -> c <> "<"%char -> utf8_text junk ->
     ctor_text (before ++ root ++ after ++ String c junk) = ctor_text (before ++ root ++ after)).
  { intros A before kp root x after kq c junk P E M C NC U.
    pose proof (parse_trailing before kp root x after kq c junk P E M C NC U) as T1.
    assert (D : document_text (before ++ root ++ after) (kp ++ x :: kq)%list).
    { exists before, kp, root, x, after, kq. auto. }
    rewrite (ctor_text_ctor _ _ T1), (ctor_text_ctor _ _ (parse_document _ _ D)).
    rewrite !ctor_cases; [reflexivity|exact (document_not_empty _ _ D)|].
    intros Z. apply (f_equal slen) in Z. rewrite !app_length_s in Z. cbn [String.length] in Z. lia. }
  split; [|split; [exact J|split; vm_compute; reflexivity]].
  destruct C73_example as (_ & _ & m & E). exists (ex_document ++ "x"), m. split.
  - rewrite <- E. unfold ex_document. rewrite <- app_assoc_s.
    pose proof (J _ ex_declaration _ _ _ "" [] "x"%char "" ex_prolog ex_element mt_nil
                  ltac:(split; vm_compute; discriminate) ltac:(discriminate) ut_nil) as X.
    cbn [append] in X. rewrite app_nil_s in X. exact X.
  - intros nodes D. destruct (document_last _ _ D) as (s & c & Es & Ec).
    apply app_last_inj in Es. destruct Es as [_ <-].
    destruct Ec as [Ec|[Ec|[Ec|[Ec|Ec]]]]; discriminate Ec.
Qed.
Print Assumptions C74_only_documents_load_refuted.
Example C74_example : exists m, ctor_text (A := RA) (ex_document ++ "garbage</robot>") = Ok m.
Proof.
  destruct C73_example as (_ & _ & m & E). exists m.
  rewrite <- E. unfold ex_document. rewrite <- app_assoc_s.
  pose proof (proj1 (proj2 C74_only_documents_load_refuted) _ ex_declaration _ _ _ "" [] "g"%char "arbage</robot>" ex_prolog ex_element mt_nil
                ltac:(split; vm_compute; discriminate) ltac:(discriminate) ltac:(apply ascii_okb_ok; reflexivity)) as X.
  cbn [append] in X. rewrite app_nil_s in X. exact X.
Qed.

(** C75.  Attributes are never ambiguous: no element of an accepted document has two
    attributes of the same name. *)
Theorem C75_attributes_are_unambiguous :
  forall (A : Arith) text m, ctor_text text = Ok m ->
    exists nodes, tinyxml_parse text = Ok (Some nodes) /\ Forall distinct_attributes nodes.
Proof.
  intros A text m E. destruct (C73_model_to_text A text m E) as (nodes & R & root & P & _).
  exists nodes. split; [exact P|]. exact (parse_clean text nodes P).
Qed.
Print Assumptions C75_attributes_are_unambiguous.
Example C75_example : (exists m, ctor_text ex_document = Ok m) /\ tinyxml_parse "<a><b c='1' d='2' c='1'/></a>" = Ok None.
Proof. split; [destruct C73_example as (_ & _ & X); exact X|vm_compute; reflexivity]. Qed.
