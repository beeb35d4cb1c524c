(** What remains true of C57, C60, C62 and C65, whose full statements are refuted in
    Thm_Load, Thm_Mimic and Thm_Py; and how general those refutations are. *)
From Coq Require Import Reals String List Arith Lia Bool Permutation.
From Verif Require Import Base Num Pose DataStructure Urdf Kin Wrapper Py Spec_Robot Spec_Hist Spec_Load Spec_Jac Spec_Py Decimal RealArith
  Pf_Base Pf_Wrap2 Pf_Pose Rep Pf_Reach Pf_Real Ex_Robot Ex_Graphs Ex_Float Thm_Pose Thm_Fk Thm_Mass Thm_Load Thm_Read Thm_Mimic.
Import ListNotations.
Local Open Scope string_scope.

(** C57, partial: a tree with supported joints is loaded exactly when no link is called like
    a massive link followed by "_com"; otherwise the constructor throws
    std::invalid_argument.  Missing: the clashing names, for which the claim is false. *)
Theorem C57_com_name_partial :
  forall (A : Arith) tinyxml text top R root,
    text <> "" -> tinyxml text = Some top -> describes top R -> is_tree R root -> ends_named R ->
    (forall j, In j (r_joints R) -> is_supported (uj_type j)) ->
    ((exists m, ctor tinyxml text = Ok m) <-> forall n i, In (n, Some i) (r_links R) -> ~ In (n ++ "_com") (link_names R)) /\
    ((exists m, ctor tinyxml text = Ok m) \/ ctor tinyxml text = Throw InvalidArgument).
Proof.
  intros A tinyxml text top R root T E D Tr En S.
  assert (Y : (forall n i, In (n, Some i) (r_links R) -> ~ In (n ++ "_com") (link_names R)) -> exists m, ctor tinyxml text = Ok m).
  { intros C. destruct (load_Rep tinyxml text R root) as (so & js & m & _ & Em & _); [constructor; eauto|]. eauto. }
  assert (N : forall n i, In (n, Some i) (r_links R) -> In (n ++ "_com") (link_names R) -> ctor tinyxml text = Throw InvalidArgument).
  { intros n i I C. eapply C57_com_name_refuted; eauto. }
  split; [split; [|exact Y]|].
  - intros (m & Em) n i I C. rewrite (N n i I C) in Em. discriminate Em.
  - destruct (existsb (fun l => match snd l with Some _ => existsb (String.eqb (fst l ++ "_com")) (link_names R) | None => false end) (r_links R)) eqn:X.
    + right. apply existsb_exists in X. destruct X as ((n, [i|]) & I & X); [|discriminate X]. cbn [fst snd] in X.
      apply existsb_exists in X. destruct X as (c & Ic & X). apply String.eqb_eq in X. subst c. eapply N; eauto.
    + left. apply Y. intros n i I C. apply not_true_iff_false in X. apply X. apply existsb_exists. exists (n, Some i). split; [exact I|]. cbn [fst snd].
      apply existsb_exists. exists (n ++ "_com"). split; [exact C | apply String.eqb_refl].
Qed.
Print Assumptions C57_com_name_partial.
(** both sides occur: the example robot, and the one of [C57_example] *)
Example C57_partial_example : (exists m, ctor (A := RA) ex_tinyxml ex_text = Ok m) /\ ctor (A := RA) (doc clash) ex_text = Throw InvalidArgument.
Proof.
  split; [exists ex_m0; exact ex_ctor|]. destruct C57_example as (top & R & i & E & D & T & N & S & I & C).
  eapply C57_com_name_refuted; eauto. discriminate.
Qed.

(** C60 is false in general: whatever the inertial elements of a document contain,
    changing that has no influence on whether it is loaded.  [R] and [R'] are read from
    documents with the same joints and links, of which the same ones have an inertial
    element. *)
Definition same_shape `{A : Arith} (R R' : Robot) : Prop :=
  r_joints R = r_joints R' /\
  Forall2 (fun l l' => fst l = fst l' /\ (snd l = None <-> snd l' = None)) (r_links R) (r_links R').
Theorem C60_inertial_contents_never_matter_refuted :
  forall (A : Arith) tinyxml tinyxml' text text' top top' R R' root,
    loadable tinyxml text R root ->
    text' <> "" -> tinyxml text = Some top -> tinyxml' text' = Some top' -> describes top R -> describes top' R' -> same_shape R R' ->
    loadable tinyxml' text' R' root /\ exists m', ctor tinyxml' text' = Ok m'.
Proof.
  intros A tinyxml tinyxml' text text' top top' R R' root L T' E E' D D' (J & F).
  assert (N : link_names R' = link_names R).
  { unfold link_names. clear - F. induction F as [|? ? ? ? (H & _)]; cbn [map]; congruence. }
  assert (L' : loadable tinyxml' text' R' root).
  { constructor.
    - exact T'.
    - exists top'. auto.
    - pose proof (ld_tree _ _ _ _ L) as Tr. destruct Tr. constructor; rewrite ?N, <- ?J; auto.
    - intros j. rewrite <- J. apply (ld_ends _ _ _ _ L).
    - intros j. rewrite <- J. apply (ld_supported _ _ _ _ L).
    - intros n i I. rewrite N. destruct (Pf_Wrap2.Forall2_in_r _ _ _ _ F I) as ((n0, [i0|]) & I0 & E1 & E2).
      + cbn [fst] in E1. subst n0. exact (ld_com _ _ _ _ L n i0 I0).
      + cbn [snd] in E2. destruct E2 as [E2 _]. discriminate (E2 eq_refl). }
  split; [exact L'|]. destruct (load_Rep _ _ _ _ L') as (so & js & m & _ & Em & _). eauto.
Qed.
Print Assumptions C60_inertial_contents_never_matter_refuted.

(** the example robot with nonsense in both inertial elements *)
Definition nonsense_kids : list xml :=
  [ el "link" [("name", "tool")] [];
    el "link" [("name", "l2")] [el "inertial" [] [el "mass" [("value", "heavy")] []]];
    ex_joint "j2" "prismatic" "l1" "l2" "1 0 0" "1 0 0";
    el "link" [("name", "base")] [];
    ex_joint "j1" "revolute" "base" "l1" "0 0 1" "0 0 1";
    el "link" [("name", "l1")] [el "inertial" [] []];
    ex_joint "j3" "fixed" "l2" "tool" "0 0 0.25" "1 0 0" ].
Example C60_never_matter_example : describes (A := RA) [el "robot" [("name", "r")] nonsense_kids] (robot_in nonsense_kids) /\ same_shape ex_R (robot_in nonsense_kids).
Proof.
  split; [apply doc_describes; reflexivity|]. split; [reflexivity|].
  assert (X : forall l l' : list (string * option (@Inertial RA)), map fst l = map fst l' -> map (fun x => is_some (snd x)) l = map (fun x => is_some (snd x)) l' ->
    Forall2 (fun l l' => fst l = fst l' /\ (snd l = None <-> snd l' = None)) l l').
  { induction l as [|(n, o) l IH]; intros [|(n', o') l'] H1 H2; try discriminate H1; constructor.
    - cbn [map fst snd] in *. injection H1 as H1 _. split; [exact H1|]. injection H2 as H2 _. destruct o, o'; try discriminate H2; split; congruence.
    - apply IH; [now injection H1 | now injection H2]. }
  apply X; reflexivity.
Qed.

(** C62, partial: mimic elements have no effect on where links are, whatever they say; so
    the links are where the mimic joints put them whenever the caller gives those joints the
    values that follow.  Missing: that the library does this itself, which is false. *)
Definition without_mimic `{A : Arith} (j : UJoint) : UJoint :=
  mkUJoint (uj_name j) (uj_type j) (uj_axis j) (uj_parent j) (uj_child j) (uj_origin j) (uj_limits j) None.
(** the values [q] already follow *)
Definition in_step `{A : Arith} (js : list UJoint) (q : string -> num) : Prop :=
  forall j mm, In j js -> uj_mimic j = Some mm -> q (uj_name j) = add (mul (multiplier mm) (q (mimic_joint mm))) (offset mm).
(** joints mimic joints of the robot, and not in circles *)
Definition sensible_mimics `{A : Arith} (js : list UJoint) : Prop :=
  exists rank : string -> nat, forall j mm, In j js -> uj_mimic j = Some mm ->
    In (mimic_joint mm) (map uj_name js) /\ rank (mimic_joint mm) < rank (uj_name j).

Lemma motion_without `{A : Arith} j a : motion (without_mimic j) a = motion j a.
Proof. reflexivity. Qed.
Lemma fk_without `{A : Arith} js js' root added q base n P :
  map without_mimic js = map without_mimic js' -> fk js root added q base n P -> fk js' root added q base n P.
Proof.
  intros E H. induction H as [|j P I H IH|n p T P I H IH]; [constructor| |econstructor; eauto].
  assert (X : In (without_mimic j) (map without_mimic js')) by (rewrite <- E; apply in_map; exact I).
  apply in_map_iff in X. destruct X as (j' & Ej & Ij). pose proof (f_equal uj_child Ej) as E1. pose proof (f_equal uj_parent Ej) as E2. pose proof (f_equal uj_name Ej) as E3.
  cbn [uj_child uj_parent uj_name without_mimic] in E1, E2, E3. rewrite <- E1, <- E3, <- (motion_without j), <- Ej, motion_without. constructor; [exact Ij|]. rewrite E2. exact IH.
Qed.
Lemma fk_same_values `{A : Arith} js root added q q' base n P :
  (forall j, In j js -> q (uj_name j) = q' (uj_name j)) -> fk js root added q base n P -> fk js root added q' base n P.
Proof. intros E H. induction H as [|j P I H IH|n p T P I H IH]; [constructor | rewrite (E j I); constructor; auto | econstructor; eauto]. Qed.

Theorem C62_mimic_joints_follow_partial :
  forall (A : Arith) tinyxml text R root sorted jsorted ops m,
    reached tinyxml text R root sorted jsorted ops m -> clean ops = true ->
    let s := after sorted jsorted ops in
    let q := by_name (jnames jsorted) (as_angles s) in
    forall i n m' P, nth_error (get_link_names m) i = Some n -> get_link_pose i m = (m', Ok P) ->
      (forall js', map without_mimic js' = map without_mimic (r_joints R) -> fk js' root (as_added s) q (as_base s) n P) /\
      (sensible_mimics (r_joints R) -> in_step (r_joints R) q ->
       forall q', follows (r_joints R) q q' -> fk (r_joints R) root (as_added s) q' (as_base s) n P).
Proof.
  intros A tinyxml text R root sorted jsorted ops m Hr Hc s q i n m' P En Eg.
  destruct (C01_link_pose_is_chain_product _ _ _ _ _ _ _ _ _ Hr Hc) as (Nm & _ & H). rewrite Nm in En.
  destruct (H i n En) as (Hp & _). specialize (Hp m' P Eg). unfold pose_at in Hp. fold s in Hp. fold q in Hp. split.
  - intros js' E. eapply fk_without; [symmetry; exact E | exact Hp].
  - intros (rank & Rk) St q' F. eapply fk_same_values; [|exact Hp].
    assert (X : forall k j, In j (r_joints R) -> rank (uj_name j) < k -> q (uj_name j) = q' (uj_name j)).
    { induction k as [|k IH]; intros j Ij L; [lia|]. rewrite (F j Ij). destruct (uj_mimic j) as [mm|] eqn:Em; [|reflexivity].
      rewrite (St j mm Ij Em). destruct (Rk j mm Ij Em) as (I2 & L2). apply in_map_iff in I2. destruct I2 as (j2 & E2 & I2).
      rewrite <- E2 in L2 |- *. rewrite (IH j2 I2); [reflexivity | lia]. }
    intros j Ij. exact (X (S (rank (uj_name j))) j Ij (le_n _)).
Qed.
Print Assumptions C62_mimic_joints_follow_partial.
(** the telescope, with both joints set to one *)
Example C62_partial_example : exists m, @reached RA mk_tinyxml ex_text mk_R "base" mk_sorted mk_jsorted [Op_set_joint_angles [0; 1] [n1; n1]] m /\
  sensible_mimics (r_joints mk_R) /\
  in_step (r_joints mk_R) (by_name (jnames mk_jsorted) (as_angles (after mk_sorted mk_jsorted [Op_set_joint_angles [0; 1] [n1; n1]]))).
Proof.
  assert (X : exists m, run [@Op_set_joint_angles RA [0; 1] [n1; n1]] mk_m0 = Some m) by (apply is_some_ex; vm_compute; reflexivity). destruct X as (m & E).
  exists m. split; [exact (mk_reached _ _ E)|]. split.
  - exists (fun n => if String.eqb n "k" then 1 else 0). intros j mm I Em. destruct (mk_in j I) as [-> | ->]; [rewrite mk_mj in Em; discriminate Em|].
    rewrite mk_mk in Em. injection Em as <-. cbn [mimic_joint]. rewrite mk_joints, mk_nk. cbn [map]. rewrite mk_nj. split; [left; reflexivity | apply Nat.lt_0_1].
  - intros j mm I Em. destruct (mk_in j I) as [-> | ->]; [rewrite mk_mj in Em; discriminate Em|]. rewrite mk_mk in Em. injection Em as <-.
    cbn [mimic_joint multiplier offset]. rewrite mk_nk.
    assert (Ea : as_angles (after mk_sorted mk_jsorted [@Op_set_joint_angles RA [0; 1] [n1; n1]]) = [n1; n1]) by reflexivity. rewrite Ea.
    unfold jnames, mk_jsorted. cbn [map]. rewrite mk_nj, mk_nk. unfold by_name. cbn [combine assoc String.eqb Ascii.eqb Bool.eqb]. rnum. ring.
Qed.

(** C65, partial: vectors that are long enough are read within their bounds, and the calls
    return.  Missing: shorter vectors, which are not rejected but read past their end. *)
Theorem C65_long_vectors_partial :
  forall (A : Arith) tinyxml text R root sorted jsorted ops m,
    reached tinyxml text R root sorted jsorted ops m ->
    (forall n d, levels (r_joints R) root (as_added (after sorted jsorted ops)) n d -> d <= length (r_links R)) ->
    forall jids : list nat, (forall k, In k jids -> k < length (get_joint_names m)) ->
      (forall q, length jids <= length q -> exists m' I, compute_total_inertia_matrix q jids m = (m', Ok I)) /\
      (forall qs ids1 ids2 wb uc, (forall q, In q qs -> length q = length jids + if wb : bool then 6 else 0) ->
         (forall e, In e ids1 \/ In e ids2 -> e < length (get_link_names m)) -> length ids1 <= length ids2 ->
         exists m' D G, compute_inter_link_squared_dists qs ids1 ids2 jids wb false uc m = (m', Ok (D, G))).
Proof.
  intros A tinyxml text R root sorted jsorted ops m Hr Hl jids Hk. split.
  - intros q L. destruct (C24_compute_inertia_cleared_partial _ _ _ _ _ _ _ _ _ Hr q jids) as (_ & H). exact (H Hk L Hl).
  - intros qs ids1 ids2 wb uc Hq He Hf. destruct (C38_inter_link_squared_distances _ _ _ _ _ _ _ _ _ Hr qs ids1 ids2 jids wb false uc Hk) as (_ & H).
    apply H; auto. intros D. discriminate D.
Qed.
Print Assumptions C65_long_vectors_partial.
Example C65_partial_example : exists m, @reached RA fl_tinyxml ex_text fl_R "base" fl_sorted fl_jsorted fl_exact m /\
  forall n d, levels (r_joints fl_R) "base" (as_added (after fl_sorted fl_jsorted fl_exact)) n d -> d <= length (r_links fl_R).
Proof.
  destruct fl_exact_runs as (m & Hr & _). exists m. split; [exact Hr|]. intros n d H. apply fl_levels3 in H.
  assert (E : length (r_links fl_R) = 3) by (vm_compute; reflexivity). lia.
Qed.
