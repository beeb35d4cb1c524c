(** C66-C68: what the elements of a document mean. *)
From Coq Require Import QArith String Ascii List Arith Lia Bool Reals.
From Verif Require Import Base Num Pose DataStructure Urdf Kin Wrapper Decimal RealArith
  Spec_Robot Spec_Hist Spec_Load Spec_Graph Spec_Str Spec_Urdf
  Pf_Base Inv Rep Pf_Urdf Pf_Ctor Pf_Reach Pf_Load Pf_Str Pf_Read Ex_Robot Ex_Bare Ex_Graphs Thm_Load.
Import ListNotations.
Local Open Scope string_scope.

(** C66.  A joint element denotes exactly the joint that the format prescribes; an element
    that denotes no joint is not accepted. *)
Theorem C66_joint_elements : forall (A : Arith) x j, parseJoint x = Some j <-> joint_reads x j.
Proof. intros. apply joint_reads_iff. Qed.
Print Assumptions C66_joint_elements.

(** Every constructed model comes from a document that reads as a robot description. *)
Theorem C66_constructed_models :
  forall (A : Arith) tinyxml text m, ctor tinyxml text = Ok m ->
    exists top R root, tinyxml text = Some top /\ document_reads top R /\ graph_ok R root.
Proof.
  intros A tinyxml text m E. destruct (C48_accepted_graphs_partial A tinyxml text m E) as (top & R & root & Ex & D & G & _).
  exists top, R, root. split; [exact Ex|]. split; [apply document_reads_iff; exact D|exact G].
Qed.
Print Assumptions C66_constructed_models.

(** A document that reads as a tree-shaped robot description with supported joints is
    loaded, as that robot. *)
Theorem C66_readable_documents_load :
  forall (A : Arith) tinyxml text top R root,
    text <> "" -> tinyxml text = Some top -> document_reads top R -> is_tree R root -> ends_named R ->
    (forall j, In j (r_joints R) -> is_supported (uj_type j)) ->
    (forall n i, In (n, Some i) (r_links R) -> ~ In (n ++ "_com") (link_names R)) ->
    loadable tinyxml text R root /\ exists m, ctor tinyxml text = Ok m.
Proof.
  intros A tinyxml text top R root T Ex D Tr E S C.
  assert (L : loadable tinyxml text R root).
  { constructor; auto. exists top. split; [exact Ex|]. apply document_reads_iff. exact D. }
  split; [exact L|]. destruct (load_Rep _ _ _ _ L) as (so & js & m & Or & Em & _). exists m. exact Em.
Qed.
Print Assumptions C66_readable_documents_load.

(** A document has one meaning at most. *)
Theorem C66_meaning_unique :
  forall (A : Arith) top R R', document_reads top R -> document_reads top R' -> R = R'.
Proof.
  intros A top R R' D D'. apply document_reads_iff in D, D'. destruct D as (r & n & H1 & _ & _ & _ & H5), D' as (r' & n' & H1' & _ & _ & _ & H5').
  rewrite H1 in H1'. injection H1' as <-. congruence.
Qed.
Print Assumptions C66_meaning_unique.

(** a slider without axis, origin and lower bound, that mimics another joint *)
Definition plain_slider : xml :=
  el "joint" [("name", "j"); ("type", "prismatic")]
    [el "parent" [("link", "a")] []; XOther; el "child" [("link", "b")] []; el "mimic" [("joint", "k"); ("offset", "0.5")] [];
     el "limit" [("upper", "2"); ("effort", "1"); ("velocity", "1")] []].
Example C66_example : exists j, joint_reads plain_slider j /\ uj_axis j = V3 n1 n0 n0 /\ uj_type j = PRISMATIC /\ uj_parent j = "a" /\
  option_map lower (uj_limits j) = Some n0 /\ option_map multiplier (uj_mimic j) = Some n1.
Proof.
  destruct (parseJoint plain_slider) as [j|] eqn:E.
  - exists j. split; [apply C66_joint_elements; exact E|].
    assert (X : option_map uj_axis (parseJoint plain_slider) = Some (V3 n1 n0 n0)) by (vm_compute; reflexivity). rewrite E in X.
    assert (X2 : option_map uj_type (parseJoint plain_slider) = Some PRISMATIC) by (vm_compute; reflexivity). rewrite E in X2.
    assert (X3 : option_map uj_parent (parseJoint plain_slider) = Some "a") by (vm_compute; reflexivity). rewrite E in X3.
    assert (X4 : match parseJoint plain_slider with Some j => option_map lower (uj_limits j) | None => None end = Some n0) by (vm_compute; reflexivity). rewrite E in X4.
    assert (X5 : match parseJoint plain_slider with Some j => option_map multiplier (uj_mimic j) | None => None end = Some n1) by (vm_compute; reflexivity). rewrite E in X5.
    cbn [option_map] in X, X2, X3. split; [congruence|]. split; [congruence|]. split; [congruence|]. split; assumption.
  - exfalso. assert (X : match parseJoint plain_slider with Some _ => true | None => false end = true) by (vm_compute; reflexivity). rewrite E in X. discriminate X.
Qed.

Example C66_document_example : document_reads ex_top ex_R.
Proof. apply document_reads_iff. pose proof ex_loadable as L. destruct (ld_xml _ _ _ _ L) as (top & E & D). unfold ex_tinyxml in E. injection E as <-. exact D. Qed.

(** C67.  A link element denotes its name and its inertial data as written; of malformed
    inertial data the parts read before the mistake are kept. *)
Theorem C67_link_elements :
  forall (A : Arith) x name i, (ul_name (parseLink x), ul_inertial (parseLink x)) = (name, i) <-> link_reads x (name, i).
Proof. intros A x name i. exact (link_reads_iff x (name, i)). Qed.
Print Assumptions C67_link_elements.

(** The links of a loaded model carry the data of the link elements of the document. *)
Theorem C67_link_data :
  forall (A : Arith) tinyxml text R root sorted jsorted ops m,
    reached tinyxml text R root sorted jsorted ops m ->
    exists top robot rest kids links,
      tinyxml text = Some top /\ elements "robot" top (robot :: rest) /\ inside robot kids /\ elements "link" kids links /\
      Forall2 link_reads links (r_links R).
Proof.
  intros A tinyxml text R root so js ops m (L & _). destruct (ld_xml _ _ _ _ L) as (top & E & D). apply document_reads_iff in D.
  destruct D as (robot & rest & kids & ms & mns & ls & jl & E1 & E2 & _ & _ & _ & _ & _ & E5 & E6 & _).
  exists top, robot, rest, kids, ls. auto.
Qed.
Print Assumptions C67_link_data.

(** mass without inertia: the mass is kept *)
Definition half_inertial : xml := el "link" [("name", "a")] [el "inertial" [] [el "mass" [("value", "2")] []]].
Example C67_example : exists i, link_reads half_inertial ("a", Some i) /\ in_mass i = Q2R (2 # 1) /\ ixx i = n0.
Proof.
  destruct (ul_inertial (parseLink half_inertial)) as [i|] eqn:E.
  - exists i. split. { apply C67_link_elements. rewrite E. reflexivity. }
    assert (X : option_map in_mass (ul_inertial (parseLink half_inertial)) = Some (Q2R (2 # 1))) by (vm_compute; reflexivity). rewrite E in X.
    assert (X2 : option_map ixx (ul_inertial (parseLink half_inertial)) = Some n0) by (vm_compute; reflexivity). rewrite E in X2.
    cbn [option_map] in X, X2. split; congruence.
  - exfalso. assert (X : match ul_inertial (parseLink half_inertial) with Some _ => true | None => false end = true) by (vm_compute; reflexivity). rewrite E in X. discriminate X.
Qed.

(** C68.  Comments, text, visuals, collisions and foreign elements have no effect: documents
    that differ only by them give the same model, or fail alike. *)
Theorem C68_ignored_nodes :
  forall (A : Arith) tinyxml text text' top top',
    text <> "" -> text' <> "" -> tinyxml text = Some top -> tinyxml text' = Some top' -> alike_kids "" top top' ->
    ctor tinyxml text = ctor tinyxml text'.
Proof.
  intros A tinyxml text text' top top' T T' E E' H. rewrite (ctor_cases _ _ T), (ctor_cases _ _ T'), E, E', (alike_parse top top' H). reflexivity.
Qed.
Print Assumptions C68_ignored_nodes.

(** the example robot with a visual and a gazebo element added *)
Definition dressed : list xml :=
  [el "robot" [("name", "ex"); ("version", "1.0")]
    (el "gazebo" [] [el "link" [("name", "ghost")] []] ::
     el "link" [("name", "tool")] [el "visual" [] [el "geometry" [] [el "sphere" [("radius", "x")] []]]] :: tl ex_kids)].
Lemma alike_refl : forall x t a k, x = XElem t a k -> alike x x.
Proof.
  fix IH 1. intros x t a k E. destruct x as [t' a' k'|]; [|discriminate E]. constructor.
  clear E. induction k' as [|y k' IHk]; [constructor|]. pose proof (IH y) as Hy. destruct y as [ty ay ky|].
  - apply ak_both; [exact (Hy ty ay ky eq_refl)|exact IHk].
  - apply ak_left; [intros ? _ (? & ? & D); discriminate D|]. apply ak_right; [intros ? _ (? & ? & D); discriminate D|]. exact IHk.
Qed.
Lemma alike_kids_refl tag k : alike_kids tag k k.
Proof.
  induction k as [|y k IHk]; [constructor|]. destruct y as [ty ay ky|].
  - apply ak_both; [exact (alike_refl _ ty ay ky eq_refl)|exact IHk].
  - apply ak_left; [intros ? _ (? & ? & D); discriminate D|]. apply ak_right; [intros ? _ (? & ? & D); discriminate D|]. exact IHk.
Qed.
Example C68_example : alike_kids "" dressed ex_top.
Proof.
  apply ak_right. { intros t _ (? & ? & D). discriminate D. }
  apply ak_both; [|constructor]. constructor. apply ak_left.
  { intros t I (? & ? & D). injection D as <-. cbn in I. repeat destruct I as [I|I]; try discriminate I. exact I. }
  unfold ex_kids. cbn [tl]. apply ak_both; [|apply alike_kids_refl]. constructor. apply ak_left; [|constructor].
  intros t I (? & ? & D). injection D as <-. cbn in I. destruct I as [I|[]]. discriminate I.
Qed.
