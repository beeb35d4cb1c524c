(** C46-C51, C55, C57, C60: reading documents and files. *)
From Coq Require Import QArith String Ascii List Arith Lia Bool Permutation Reals.
From Verif Require Import Base Num Pose DataStructure Urdf Kin Wrapper LoadFile Decimal RealArith
  Spec_Robot Spec_Hist Spec_Load Spec_Graph Spec_Str
  Pf_Base Inv Rep Pf_Urdf Pf_Ctor Pf_Reach Pf_Load Pf_Perm Pf_Loop Pf_Dag Pf_Str Ex_Robot Ex_Bare Ex_Graphs.
Import ListNotations.
Local Open Scope string_scope.

(** The document is a robot description that the reader accepts. *)
Definition accepted `{A : Arith} (tinyxml : string -> option (list xml)) (text : string) : Prop :=
  exists top R root, tinyxml text = Some top /\ describes top R /\ graph_ok R root.

Lemma ctor_cases {A : Arith} tinyxml text : text <> "" -> ctor tinyxml text = ctor_mi (parseURDF_dom (tinyxml text)).
Proof. destruct text; [easy|reflexivity]. Qed.

Lemma parse_none {A : Arith} tinyxml text : parseURDF_dom (tinyxml text) = None <-> ~ accepted tinyxml text.
Proof.
  split.
  - intros E (top & R & root & Ex & D & G). rewrite Ex in E. destruct (parse_graph top R root D G) as (mi & so & jl & E' & _). rewrite E in E'. discriminate E'.
  - intros N. destruct (parseURDF_dom (tinyxml text)) as [mi|] eqn:E; [|reflexivity]. exfalso. apply N.
    destruct (parse_inv _ _ E) as (top & R & Ex & D & G). exists top, R, (mi_root mi). auto.
Qed.

Lemma ctor_accepted {A : Arith} tinyxml text top R root : text <> "" -> tinyxml text = Some top -> describes top R -> graph_ok R root ->
  match ctor tinyxml text with Ok _ => True | Throw e => e = InvalidArgument | UB _ => False | Diverge => ~ cycle_free R end.
Proof.
  intros T Ex D G. rewrite (ctor_cases _ _ T), Ex. destruct (parse_graph top R root D G) as (mi & so & jl & -> & RA). exact (ctor_mi_out _ _ _ _ _ G RA).
Qed.

(** C46, the part that holds: the empty string raises. *)
Theorem C46_empty_string_raises_partial : forall (A : Arith) tinyxml, ctor tinyxml "" = Throw RuntimeError.
Proof. reflexivity. Qed.
Print Assumptions C46_empty_string_raises_partial.

(** C46, the rest, is false: the constructor dereferences a null pointer on exactly the
    non-empty documents that are not accepted as robot descriptions. *)
Theorem C46_malformed_document_raises_refuted :
  forall (A : Arith) tinyxml text, text <> "" ->
    (~ accepted tinyxml text <-> ctor tinyxml text = UB NullDeref) /\
    (forall u, ctor tinyxml text = UB u -> u = NullDeref).
Proof.
  intros A tinyxml text T. assert (X : ~ accepted tinyxml text -> ctor tinyxml text = UB NullDeref).
  { intros N. rewrite (ctor_cases _ _ T). apply parse_none in N. rewrite N. reflexivity. }
  assert (Y : forall u, ctor tinyxml text = UB u -> ~ accepted tinyxml text).
  { intros u E (top & R & root & Ex & D & G). pose proof (ctor_accepted _ _ _ _ _ T Ex D G) as H. rewrite E in H. exact H. }
  split; [split; eauto|]. intros u E. rewrite (X (Y u E)) in E. congruence.
Qed.
Print Assumptions C46_malformed_document_raises_refuted.

(** a joint to a missing link; two roots; not XML at all *)
Example C46_example : ctor (doc dangling) ex_text = UB NullDeref /\ ctor (doc [lnk "a"; lnk "b"]) ex_text = UB NullDeref /\
  ctor (fun _ => None) ex_text = UB NullDeref.
Proof. repeat split; reflexivity. Qed.

(** C47.  Any accepted description with a joint element of type floating or planar is
    rejected with std::invalid_argument. *)
Theorem C47_unsupported_joint_raises :
  forall (A : Arith) tinyxml text top robot R root x ty,
    text <> "" -> tinyxml text = Some top -> describes top R -> graph_ok R root ->
    hd_error (children "robot" top) = Some robot -> In x (children "joint" (x_kids robot)) ->
    attribute "type" x = Some ty -> ty = "floating" \/ ty = "planar" ->
    ctor tinyxml text = Throw InvalidArgument.
Proof.
  intros A tinyxml text top robot R root x ty T Ex D G Hr Ix Ht Hty. rewrite (ctor_cases _ _ T), Ex.
  destruct (parse_graph top R root D G) as (mi & so & jl & -> & RA). unfold ctor_mi.
  assert (J : exists j, In j (r_joints R) /\ (uj_type j = FLOATING \/ uj_type j = PLANAR)).
  { destruct D as (robot' & name & Hr' & _ & _ & _ & Hk). rewrite Hr in Hr'. inversion Hr'; subst robot'.
    unfold robot_of_kids in Hk. destruct (all_joints (children "joint" (x_kids robot))) as [js|] eqn:Ej; [|discriminate]. inversion Hk; subst R. cbn [r_joints].
    clear - Ej Ix Ht Hty. revert js Ej. induction (children "joint" (x_kids robot)) as [|y l IH]; [easy|]. cbn [all_joints]. intros js.
    destruct (parseJoint y) as [j|] eqn:Ep; [|discriminate]. destruct (all_joints l) as [js'|] eqn:Ej; [|discriminate]. intros [= <-].
    destruct Ix as [->|Ix].
    - exists j. split; [now left|]. revert Ep. unfold parseJoint. destruct (attribute "name" x); [|discriminate]. destruct (parse_joint_origin x); [|discriminate].
      rewrite Ht. assert (E : joint_type_of_string ty = Some FLOATING \/ joint_type_of_string ty = Some PLANAR) by (destruct Hty as [->| ->]; auto).
      destruct (joint_type_of_string ty) as [t|]; [|destruct E; discriminate].
      destruct (parse_axis t x); [|discriminate]. destruct (parse_limit t x); [|discriminate]. destruct (negb _); [discriminate|]. destruct (negb _); [discriminate|].
      destruct (parse_mimic x); [|discriminate]. destruct (negb _); [discriminate|]. intros [= <-]. cbn [uj_type]. destruct E as [[= ->]|[= ->]]; auto.
    - destruct (IH Ix js' eq_refl) as (j' & I' & Hj). exists j'. split; [now right | exact Hj]. }
  destruct J as (j & Ij & Hj). destruct (forallb _ (mi_joints mi)) eqn:F; [|reflexivity]. exfalso.
  rewrite forallb_forall in F. rewrite (ra_joints _ _ _ _ _ RA) in F. apply (in_jall R root so jl mi RA) in Ij.
  specialize (F _ (in_map jkey _ _ Ij)). cbn in F. destruct Hj as [Hj|Hj]; rewrite Hj in F; discriminate F.
Qed.
Print Assumptions C47_unsupported_joint_raises.

Lemma floating_joints : map uj_name (r_joints (robot_in floating)) = ["j1"; "j2"] /\ map uj_parent (r_joints (robot_in floating)) = ["a"; "b"] /\
  map uj_child (r_joints (robot_in floating)) = ["b"; "c"] /\ link_names (robot_in floating) = ["a"; "b"; "c"].
Proof. repeat split; reflexivity. Qed.

Example C47_example : exists top R root robot x, doc floating ex_text = Some top /\ describes top R /\ graph_ok R root /\
  hd_error (children "robot" top) = Some robot /\ In x (children "joint" (x_kids robot)) /\ attribute "type" x = Some "floating" /\
  ctor (doc floating) ex_text = Throw InvalidArgument.
Proof.
  exists [el "robot" [("name", "r")] floating], (robot_in floating), "a", (el "robot" [("name", "r")] floating), (jnt "j1" "floating" "a" "b").
  split; [reflexivity|]. split; [apply doc_describes; reflexivity|]. split.
  - destruct floating_joints as (E1 & E2 & E3 & E4). apply graph_ok_by; [rewrite E4; nodup | rewrite E1; nodup | vm_compute; reflexivity ..].
  - repeat split; try reflexivity. left. reflexivity.
Qed.

(** C48, the part that holds: in every model that is constructed the names are unique,
    every joint joins two existing links, exactly one link is nobody's child, and every joint
    has a supported type. *)
Theorem C48_accepted_graphs_partial :
  forall (A : Arith) tinyxml text m, ctor tinyxml text = Ok m ->
    exists top R root, tinyxml text = Some top /\ describes top R /\ graph_ok R root /\
      (forall j, In j (r_joints R) -> is_supported (uj_type j)).
Proof.
  intros A tinyxml text m E. assert (T : text <> "") by (intros ->; discriminate E). rewrite (ctor_cases _ _ T) in E.
  destruct (parseURDF_dom (tinyxml text)) as [mi|] eqn:Ep; [|discriminate E].
  destruct (parse_inv _ _ Ep) as (top & R & Ex & D & G). exists top, R, (mi_root mi). repeat (split; [assumption|]).
  rewrite Ex in Ep. destruct (parse_graph top R (mi_root mi) D G) as (mi' & so & jl & Ep' & RA). rewrite Ep in Ep'. inversion Ep'; subst mi'.
  unfold ctor_mi in E. destruct (forallb _ (mi_joints mi)) eqn:F; [|discriminate E]. intros j Ij.
  rewrite forallb_forall in F. rewrite (ra_joints _ _ _ _ _ RA) in F. apply (in_jall R (mi_root mi) so jl mi RA) in Ij.
  specialize (F _ (in_map jkey _ _ Ij)). cbn in F. unfold is_supported, is_movable. destruct (uj_type j); try discriminate F; tauto.
Qed.
Print Assumptions C48_accepted_graphs_partial.

Example C48_partial_example : exists m, ctor bare_tinyxml ex_text = Ok m.
Proof. exists bare_m0. exact bare_ctor. Qed.

(** C48, the rest, is false: a link with two parent joints is accepted, and so is a cycle of
    links away from the root. *)
Theorem C48_only_trees_refuted :
  (exists tinyxml text top R m, ctor tinyxml text = Ok m /\ tinyxml text = Some top /\ describes top R /\
     (exists j1 j2, In j1 (r_joints R) /\ In j2 (r_joints R) /\ uj_name j1 <> uj_name j2 /\ uj_child j1 = uj_child j2)) /\
  (exists tinyxml text top R root m n, ctor tinyxml text = Ok m /\ tinyxml text = Some top /\ describes top R /\ graph_ok R root /\
     In n (link_names R) /\ ~ connected (r_joints R) root n /\ leads_to (r_joints R) n n).
Proof.
  split.
  - destruct (ctor (doc twice) ex_text) as [m| | |] eqn:E.
    2-4: exfalso; assert (X : (match ctor (doc twice) ex_text with Ok _ => true | _ => false end) = true) by (vm_compute; reflexivity); rewrite E in X; discriminate X.
    exists (doc twice), ex_text, [el "robot" [("name", "r")] twice], (robot_in twice), m. split; [exact E|]. split; [reflexivity|]. split; [apply doc_describes; reflexivity|].
    exists (nth 0 (r_joints (robot_in twice)) dummy_joint), (nth 1 (r_joints (robot_in twice)) dummy_joint).
    split; [apply nth_In; vm_compute; lia|]. split; [apply nth_In; vm_compute; lia|].
    split; [|reflexivity]. assert (X : String.eqb (uj_name (nth 0 (r_joints (robot_in twice)) dummy_joint)) (uj_name (nth 1 (r_joints (robot_in twice)) dummy_joint)) = false) by reflexivity.
    now apply String.eqb_neq in X.
  - destruct (ctor (doc island) ex_text) as [m| | |] eqn:E.
    2-4: exfalso; assert (X : (match ctor (doc island) ex_text with Ok _ => true | _ => false end) = true) by (vm_compute; reflexivity); rewrite E in X; discriminate X.
    exists (doc island), ex_text, [el "robot" [("name", "r")] island], (robot_in island), "a", m, "b". split; [exact E|]. split; [reflexivity|]. split; [apply doc_describes; reflexivity|].
    set (R := robot_in island). assert (J : exists j1 j2, r_joints R = [j1; j2] /\ uj_parent j1 = "b" /\ uj_child j1 = "c" /\ uj_parent j2 = "c" /\ uj_child j2 = "b").
    { exists (nth 0 (r_joints R) dummy_joint), (nth 1 (r_joints R) dummy_joint). repeat split; reflexivity. }
    assert (G : graph_ok R "a").
    { apply graph_ok_by; [|  | vm_compute; reflexivity ..].
      - replace (link_names R) with ["a"; "b"; "c"] by reflexivity. nodup.
      - replace (map uj_name (r_joints R)) with ["j1"; "j2"] by reflexivity. nodup. }
    split; [exact G|]. split; [replace (link_names R) with ["a"; "b"; "c"] by reflexivity; simpl; auto|].
    destruct J as (j1 & j2 & -> & P1 & C1 & P2 & C2). split.
    + assert (X : forall n, connected [j1; j2] "a" n -> n = "a").
      { intros n H. induction H as [|j I H IH]; [reflexivity|]. destruct I as [<-|[<-|[]]]; [rewrite P1 in IH | rewrite P2 in IH]; discriminate IH. }
      intros H. apply X in H. discriminate H.
    + rewrite <- C2. apply leads_more; [simpl; auto|]. rewrite P2, <- C1. apply leads_one; [simpl; auto | rewrite P1; congruence].
Qed.
Print Assumptions C48_only_trees_refuted.

(** C49, the part that holds: for every document that does not describe a robot with a link
    below itself, the constructor terminates. *)
Theorem C49_terminates_without_cycles_partial :
  forall (A : Arith) tinyxml text,
    (forall top R, tinyxml text = Some top -> describes top R -> cycle_free R) -> ctor tinyxml text <> Diverge.
Proof.
  intros A tinyxml text C E. assert (T : text <> "") by (intros ->; discriminate E).
  assert (Ac : ~ ~ accepted tinyxml text).
  { intros N. apply (C46_malformed_document_raises_refuted A tinyxml text T) in N. rewrite E in N. discriminate N. }
  apply Ac. intros (top & R & root & Ex & D & G). pose proof (ctor_accepted _ _ _ _ _ T Ex D G) as H. rewrite E in H. exact (H (C top R Ex D)).
Qed.
Print Assumptions C49_terminates_without_cycles_partial.

(** the joint graph may have links with two parents *)
Example C49_partial_example : (forall top R, doc twice ex_text = Some top -> describes top R -> cycle_free R).
Proof.
  intros top R E D. assert (ER : R = robot_in twice).
  { injection E as <-. destruct D as (robot & name & Hr & _ & _ & _ & Hk). injection Hr as <-. unfold robot_in. cbn [x_kids el] in Hk. now rewrite Hk. }
  subst R. assert (J : exists j1 j2, r_joints (robot_in twice) = [j1; j2] /\ uj_parent j1 = "a" /\ uj_child j1 = "b" /\ uj_parent j2 = "a" /\ uj_child j2 = "b").
  { exists (nth 0 (r_joints (robot_in twice)) dummy_joint), (nth 1 (r_joints (robot_in twice)) dummy_joint). repeat split; reflexivity. }
  destruct J as (j1 & j2 & EJ & P1 & C1 & P2 & C2). unfold cycle_free. rewrite EJ.
  assert (X : forall n m, leads_to [j1; j2] n m -> n = "a" /\ m = "b").
  { intros n m H. induction H as [j I Hp|j I H IH].
    - destruct I as [<-|[<-|[]]]; [rewrite C1, <- P1 | rewrite C2, <- P2]; auto.
    - exfalso. destruct I as [<-|[<-|[]]]; [rewrite P1 in IH | rewrite P2 in IH]; destruct IH as (_ & IH); discriminate IH. }
  intros n H. destruct (X n n H) as (-> & H'). discriminate H'.
Qed.

(** C49, the rest, is false: on some accepted document the constructor never ends. *)
Theorem C49_terminates_refuted :
  exists tinyxml text top R root, tinyxml text = Some top /\ describes top R /\ graph_ok R root /\
    (forall j, In j (r_joints R) -> is_supported (uj_type j)) /\ ctor tinyxml text = Diverge.
Proof.
  exists (doc island_heavy), ex_text, [el "robot" [("name", "r")] island_heavy], (robot_in island_heavy), "a".
  split; [reflexivity|]. split; [apply doc_describes; reflexivity|]. split.
  - apply graph_ok_by; [| | vm_compute; reflexivity ..].
    + replace (link_names (robot_in island_heavy)) with ["a"; "b"; "c"] by reflexivity. nodup.
    + replace (map uj_name (r_joints (robot_in island_heavy))) with ["j1"; "j2"] by reflexivity. nodup.
  - split; [|vm_compute; reflexivity]. intros j I.
    assert (X : forallb (fun j => supported (uj_type j)) (r_joints (robot_in island_heavy)) = true) by (vm_compute; reflexivity).
    rewrite forallb_forall in X. specialize (X j I). unfold is_supported, is_movable. destruct (uj_type j); try discriminate X; tauto.
Qed.
Print Assumptions C49_terminates_refuted.

(** What [Diverge] stands for: it is the outcome of marking the links below a joint in the
    relevance table exactly when the loop of the program can take any number of turns
    without ending. *)
Theorem C49_divergence_is_endless :
  forall (A : Arith) ls jid c t, table_fits ls jid t ->
    (forall i l d, nth_error ls i = Some l -> In d (l_children l) -> d < length ls)%nat -> (c < length ls)%nat ->
    (rp_joint ls jid c t = Diverge <-> forall n, exists s, turns n (rp_step ls jid) ([c], t) = inl s).
Proof. intros. now apply diverge_adequate. Qed.
Print Assumptions C49_divergence_is_endless.

(** C50.  Reordering the elements inside <robot> does not change the constructed model. *)
Theorem C50_element_order_irrelevant :
  forall (A : Arith) tinyxml tinyxml' text text' top top' attrs kids kids',
    text <> "" -> text' <> "" -> tinyxml text = Some top -> tinyxml' text' = Some top' ->
    hd_error (children "robot" top) = Some (XElem "robot" attrs kids) ->
    hd_error (children "robot" top') = Some (XElem "robot" attrs kids') ->
    Permutation kids kids' ->
    ctor tinyxml text = ctor tinyxml' text'.
Proof.
  intros A tx tx' text text' top top' attrs kids kids' T T' E E' H H' P. rewrite (ctor_cases _ _ T), (ctor_cases _ _ T'), E, E'. f_equal.
  unfold parseURDF_dom. rewrite H, H'. unfold attribute. cbn [x_kids]. destruct (assoc "name" attrs) as [n|]; [|reflexivity].
  destruct (negb _); [reflexivity|]. now apply parse_kids_perm.
Qed.
Print Assumptions C50_element_order_irrelevant.

Example C50_example : exists m, ctor (doc bare_kids) ex_text = Ok m /\ ctor (doc (rev bare_kids)) ex_text = Ok m.
Proof.
  destruct (ctor (doc bare_kids) ex_text) as [m| | |] eqn:E.
  2-4: exfalso; assert (X : (match ctor (doc bare_kids) ex_text with Ok _ => true | _ => false end) = true) by (vm_compute; reflexivity); rewrite E in X; discriminate X.
  exists m. split; [reflexivity|]. rewrite <- E. symmetry.
  eapply (C50_element_order_irrelevant _ (doc bare_kids) (doc (rev bare_kids)) ex_text ex_text); try reflexivity; try discriminate. apply Permutation_rev.
Qed.

(** C51.  Reading a file. *)
Lemma str_app_assoc a b c : (a ++ b) ++ c = a ++ (b ++ c).
Proof. induction a as [|x a IH]; [reflexivity|]. cbn. now rewrite IH. Qed.
Lemma str_app_nil a : a ++ "" = a.
Proof. induction a as [|x a IH]; [reflexivity|]. cbn. now rewrite IH. Qed.

Lemma getline_spec rest : forall cur line rest' good, getline cur rest = (line, rest', good) ->
  if good then line ++ String newline rest' = cur ++ rest /\ (String.length rest' < String.length rest)%nat else line = cur ++ rest /\ rest' = "".
Proof.
  induction rest as [|c t IH]; cbn [getline]; intros cur line rest' good E.
  - inversion E; subst. now rewrite str_app_nil.
  - destruct (Ascii.eqb_spec c newline) as [->|N].
    + inversion E; subst. split; [reflexivity | cbn; lia].
    + apply IH in E. cbn [String.length]. destruct good; rewrite str_app_assoc in E; cbn in E; destruct E; split; auto; lia.
Qed.

Lemma load_turns_spec n : forall acc rest, (String.length rest + 2 <= n)%nat -> load_turns n (acc, rest, true) = Ok (acc ++ rest ++ String newline "").
Proof.
  induction n as [|n IH]; intros acc rest L; [lia|]. cbn [load_turns load_step]. destruct (getline "" rest) as [[line rest'] good] eqn:E.
  apply getline_spec in E. cbn [append] in E. destruct good.
  - destruct E as (E & L'). rewrite IH by lia. rewrite str_app_assoc, <- E, !str_app_assoc. reflexivity.
  - destruct E as (-> & ->). destruct n; [lia|]. reflexivity.
Qed.

Theorem C51_load_urdf :
  (forall content, load_urdf (Some content) = Ok (content ++ String newline "")) /\
  load_urdf None = Ok "" /\
  (forall (A : Arith) tinyxml text, load_urdf None = Ok text -> ctor tinyxml text = Throw RuntimeError).
Proof.
  split; [|split; [reflexivity|]].
  - intros c. unfold load_urdf. now rewrite load_turns_spec.
  - intros A tx text [= <-]. reflexivity.
Qed.
Print Assumptions C51_load_urdf.

(** C55.  A vector attribute denotes three numbers exactly when its words are three
    numbers. *)
Theorem C55_vector_attributes :
  forall (A : Arith) s v,
    v_init s = Some v <->
    exists a b c, words s [a; b; c] /\ str_to_double a = Some (vx v) /\ str_to_double b = Some (vy v) /\ str_to_double c = Some (vz v).
Proof. intros. apply v_init_words. Qed.
Print Assumptions C55_vector_attributes.

(** the words of a string are determined by it *)
Theorem C55_words_unique : forall s ws ws', words s ws -> words s ws' -> ws = ws'.
Proof. intros. eapply words_det; eauto. Qed.
Print Assumptions C55_words_unique.

(** which strings are numbers, and what they denote (before rounding) *)
Theorem C55_numbers : forall s v, strToDouble s = Some v <-> decimal s v.
Proof. exact decimal_iff. Qed.
Print Assumptions C55_numbers.

Example C55_example : words "1  -2.50 3e1 " ["1"; "-2.50"; "3e1"] /\
  exists v, @v_init RA "1  -2.50 3e1 " = Some v /\ decimal "-2.50" (-250 # 100)%Q.
Proof.
  assert (W : words "1  -2.50 3e1 " ["1"; "-2.50"; "3e1"]).
  { apply (words_word "1" "  -2.50 3e1 "); [easy | repeat constructor; easy | right; eauto |]. apply words_space, words_space.
    apply (words_word "-2.50" " 3e1 "); [easy | repeat constructor; easy | right; eauto |]. apply words_space.
    apply (words_word "3e1" " "); [easy | repeat constructor; easy | right; eauto |]. apply words_space, words_nil. }
  split; [exact W|].
  assert (X : match @str_to_double RA "1", @str_to_double RA "-2.50", @str_to_double RA "3e1" with Some _, Some _, Some _ => true | _, _, _ => false end = true) by (vm_compute; reflexivity).
  destruct (@str_to_double RA "1") as [a|] eqn:Ea; [|discriminate X]. destruct (@str_to_double RA "-2.50") as [b|] eqn:Eb; [|discriminate X].
  destruct (@str_to_double RA "3e1") as [c|] eqn:Ec; [|discriminate X].
  exists (V3 a b c). split; [|apply C55_numbers; vm_compute; reflexivity]. apply C55_vector_attributes. exists "1", "-2.50", "3e1". cbn [vx vy vz]. auto.
Qed.

(** C57 is false: on every tree with a massive link x and a link x_com the constructor
    throws std::invalid_argument. *)
Theorem C57_com_name_refuted :
  forall (A : Arith) tinyxml text top R root n i,
    text <> "" -> tinyxml text = Some top -> describes top R -> is_tree R root -> ends_named R ->
    (forall j, In j (r_joints R) -> is_supported (uj_type j)) ->
    In (n, Some i) (r_links R) -> In (n ++ "_com") (link_names R) ->
    ctor tinyxml text = Throw InvalidArgument.
Proof.
  intros A tinyxml text top R root n i T Ex D Tr E SUP I C. rewrite (ctor_cases _ _ T), Ex.
  assert (G : graph_ok R root).
  { pose proof (tree_connected _ _ Tr) as TC. destruct Tr. constructor; auto. intros m Im. split; [intros ->; auto|]. intros H. pose proof (TC m Im) as Cm.
    destruct Cm as [|j Ij Cm]; [reflexivity|]. now destruct (H j Ij). }
  destruct (parse_graph top R root D G) as (mi & so & jl & -> & RA). eapply ctor_mi_clash; eauto.
  - intros j Ij. specialize (SUP j Ij). destruct SUP as [[H|[H|H]]|H]; rewrite H; reflexivity.
  - eapply Permutation_in; [symmetry; exact (ra_perm _ _ _ _ _ RA) | exact I].
  - eapply Permutation_in; [apply Permutation_map; symmetry; exact (ra_perm _ _ _ _ _ RA) | exact C].
Qed.
Print Assumptions C57_com_name_refuted.

Example C57_example : exists top R i, doc clash ex_text = Some top /\ describes top R /\ is_tree R "a" /\ ends_named R /\
  (forall j, In j (r_joints R) -> is_supported (uj_type j)) /\ In ("a", Some i) (r_links R) /\ In "a_com" (link_names R).
Proof.
  set (R := robot_in clash). assert (EL : link_names R = ["a"; "a_com"]) by reflexivity.
  assert (J : exists j, r_joints R = [j] /\ uj_parent j = "a" /\ uj_child j = "a_com" /\ uj_type j = CONTINUOUS).
  { exists (nth 0 (r_joints R) dummy_joint). repeat split; reflexivity. }
  destruct J as (j & EJ & P & C & Ty).
  assert (I : exists i, In ("a", Some i) (r_links R)).
  { assert (X : match r_links R with (n, Some i) :: _ => String.eqb n "a" | _ => false end = true) by reflexivity.
    destruct (r_links R) as [|[n [i|]] l]; try discriminate X. apply String.eqb_eq in X. subst n. exists i. left. reflexivity. }
  destruct I as (i & I). exists [el "robot" [("name", "r")] clash], R, i.
  split; [reflexivity|]. split; [apply doc_describes; reflexivity|]. split; [|split; [|split; [|split; [exact I|rewrite EL; simpl; auto]]]].
  - constructor; rewrite ?EL, ?EJ.
    + nodup.
    + repeat constructor. simpl; tauto.
    + intros j' [<-|[]]. rewrite P, C. simpl; auto.
    + simpl; auto.
    + intros j' [<-|[]]. rewrite C. discriminate.
    + repeat constructor. simpl; tauto.
    + intros n [<-|[<-|[]]]; [constructor|]. rewrite <- C. apply conn_joint; [simpl; auto|]. rewrite P. constructor.
  - intros j'. rewrite EJ. intros [<-|[]]. rewrite P, C. split; discriminate.
  - intros j'. rewrite EJ. intros [<-|[]]. rewrite Ty. left. right. left. reflexivity.
Qed.

(** C60 is false: a link whose inertial element has no mass is accepted. *)
Theorem C60_malformed_inertial_rejected_refuted :
  exists tinyxml text top robot x i m,
    tinyxml text = Some top /\ hd_error (children "robot" top) = Some robot /\ In x (children "link" (x_kids robot)) /\
    first_child "inertial" x = Some i /\ first_child "mass" i = None /\ ctor tinyxml text = Ok m.
Proof.
  destruct (ctor (doc massless) ex_text) as [m| | |] eqn:E.
  2-4: exfalso; assert (X : (match ctor (doc massless) ex_text with Ok _ => true | _ => false end) = true) by (vm_compute; reflexivity); rewrite E in X; discriminate X.
  exists (doc massless), ex_text, [el "robot" [("name", "r")] massless], (el "robot" [("name", "r")] massless), (nth 0 massless XOther), (el "inertial" [] [el "inertia" [] []]), m.
  repeat (split; [first [reflexivity | left; reflexivity]|]). exact E.
Qed.
Print Assumptions C60_malformed_inertial_rejected_refuted.
