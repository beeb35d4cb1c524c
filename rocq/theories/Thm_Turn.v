(** C105: whole turns of joints. *)
From Coq Require Import QArith String List Arith Lia Bool Permutation ZArith Reals Lra.
From Verif Require Import Base Num Pose DataStructure Urdf Kin Wrapper Spec_Robot Spec_Hist Spec_Load Spec_Jac Spec_Mass Spec_Rot Spec_Body Spec_Turn
  RealArith Pf_Base Pf_Data Inv Pf_FK Pf_Frame Pf_Rp Rep Pf_Ops Pf_Name Pf_Reach Pf_Jac Pf_Safe Pf_Pose Pf_Local Pf_Hist Pf_Wrap Pf_Mass Pf_Wrap2 Pf_Total
  Pf_Stale Pf_Real Pf_Rot Pf_Unit Pf_Rpy Pf_Body Pf_Turn Ex_Robot Ex_Slider Ex_Wheel Thm_Fk Thm_Real Thm_Mass.
Import ListNotations.
Local Open Scope m_scope.
Local Open Scope R_scope.

(** C105.  The same joints are set to [qs] and to [qs'], which differ by whole turns of the joints
    that turn ([jsorted] lists the joints in the order of their ids).  Then every link is at the same
    place, the centre of mass and the inertia are the same, and so are Jacobians (quaternion rows,
    and base columns of angles, excepted: a quaternion may change its sign). *)
Theorem C105_whole_turns_change_nothing :
  forall tinyxml text R root sorted jsorted ops m,
    @reached RA tinyxml text R root sorted jsorted ops m ->
    forall jids (qs qs' : list (@num RA)) m1 m2, length qs' = length qs ->
      (forall c k j a b, nth_error jids c = Some k -> nth_error jsorted k = Some j ->
         nth_error qs c = Some a -> nth_error qs' c = Some b -> whole_turns j a b) ->
      set_joint_angles jids qs m = (m1, Ok tt) -> set_joint_angles jids qs' m = (m2, Ok tt) ->
    (forall i m1' m2' P P', get_link_pose i m1 = (m1', Ok P) -> get_link_pose i m2 = (m2', Ok P') ->
       position P' = position P /\ quat_mat (rotation P') = quat_mat (rotation P) /\
       (rotation P' = rotation P \/ rotation P' = opposite (rotation P)) /\
       same_rpy (getRPY (rotation P)) (getRPY (rotation P'))) /\
    (forall m1' m2' c c', get_com m1 = (m1', Ok c) -> get_com m2 = (m2', Ok c') -> c' = c) /\
    (forall m1' m2' I I', get_total_inertia_matrix m1 = (m1', Ok I) -> get_total_inertia_matrix m2 = (m2', Ok I') -> I' = I) /\
    (forall i ks rt wb m1' m2' J J', (forall k, In k ks -> (k < length (get_joint_names m))%nat) -> rt = IGNORE \/ rt = RPY /\ wb = false ->
       get_jacobian i ks rt wb m1 = (m1', Ok J) -> get_jacobian i ks rt wb m2 = (m2', Ok J') -> J' = J).
Proof.
  intros tinyxml text R root sorted jsorted ops m Hr jids qs qs' m1 m2 L Hq E1 E2.
  assert (Hr1 : reached tinyxml text R root sorted jsorted (ops ++ [Op_set_joint_angles jids qs]) m1)
    by (apply (reached_run _ _ _ _ _ _ _ _ _ _ Hr); cbn [run exec]; rewrite E1; reflexivity).
  assert (Hr2 : reached tinyxml text R root sorted jsorted (ops ++ [Op_set_joint_angles jids qs']) m2)
    by (apply (reached_run _ _ _ _ _ _ _ _ _ _ Hr); cbn [run exec]; rewrite E2; reflexivity).
  assert (C : forall p, clean (ops ++ [Op_set_joint_angles jids p]) = true) by (intros p; unfold clean; rewrite fold_left_app; reflexivity).
  destruct (reached_Rep _ _ _ _ _ _ _ _ Hr) as [HR _]. destruct (reached_Rep _ _ _ _ _ _ _ _ Hr1) as [HR1 HC1]. destruct (reached_Rep _ _ _ _ _ _ _ _ Hr2) as [HR2 HC2].
  specialize (HC1 (C _)). specialize (HC2 (C _)). assert (G1 : Good m1) by (split; auto; apply HR1). assert (G2 : Good m2) by (split; auto; apply HR2).
  set (s1 := after sorted jsorted (ops ++ [Op_set_joint_angles jids qs])) in *. set (s2 := after sorted jsorted (ops ++ [Op_set_joint_angles jids qs'])) in *.
  assert (HT : turned jsorted s1 s2).
  { unfold s1, s2. rewrite !after_app. unfold abs_run. cbn [fold_left abs_step]. set (s := after sorted jsorted ops).
    destruct (assign_turns (fun k a b => forall j, nth_error jsorted k = Some j -> whole_turns j a b) jids qs qs' (as_angles s) (as_angles s) L) as [T1 T2].
    - intros c k a b X1 X2 X3 j X4. apply (Hq c k j a b); auto.
    - reflexivity.
    - intros k a b X1 X2 j _. rewrite X1 in X2. injection X2 as <-. unfold whole_turns. destruct (uj_type j); auto; exists 0%Z; ring.
    - constructor; cbn [as_added as_angles as_base]; auto. intros k j a b X1 X2 X3. now apply (T2 k). }
  pose proof (ord_links _ _ _ (proj1 (proj2 Hr))) as Hp.
  split; [|split; [|split]].
  - intros i m1' m2' P P' X1 X2.
    destruct (get_link_pose_ok m1 i m1' P G1 X1) as [HP1 _]. destruct (get_link_pose_ok m2 i m2' P' G2 X2) as [HP2 _].
    assert (Li : exists n, nth_error (all_links sorted s1) i = Some n).
    { destruct (Nat.lt_ge_cases i (length (links m1))) as [Li|Li]; [|rewrite get_link_pose_oob in X1 by (auto; apply HR1); discriminate].
      apply lt_nth_error. rewrite <- (rep_all_links _ _ _ _ _ _ _ _ HR1). unfold get_link_names. now rewrite map_length. }
    destruct Li as (n & En). assert (En2 : nth_error (all_links sorted s2) i = Some n) by (unfold all_links in *; now rewrite (tn_added _ _ _ HT)).
    pose proof (rep_pose_of' _ _ _ _ _ _ _ _ HR1 i n P En HP1) as F1. pose proof (rep_pose_of' _ _ _ _ _ _ _ _ HR2 i n P' En2 HP2) as F2.
    pose proof (turned_pose _ _ _ _ _ _ _ _ _ _ HR1 HR2 HT n P P' F1 F2) as S. split; [apply S|]. split; [exact (same_mat _ _ S)|]. split; [apply S | exact (same_rpy_of _ _ S)].
  - intros m1' m2' c c' X1 X2. pose proof (get_com_ok _ _ _ _ _ _ _ _ _ _ HR1 G1 (reached_has_com _ _ _) X1) as H1. pose proof (get_com_ok _ _ _ _ _ _ _ _ _ _ HR2 G2 (reached_has_com _ _ _) X2) as H2.
    destruct (is_com_centre R root sorted jsorted _ c Hp H1) as (W & HW & ->). destruct (is_com_centre R root sorted jsorted _ c' Hp H2) as (W' & HW' & ->).
    exact (same_centre _ _ (turned_bodies _ _ _ _ _ _ _ _ _ _ HR1 HR2 HT _ _ HW HW')).
  - intros m1' m2' I I' X1 X2. pose proof (get_inertia_ok _ _ _ _ _ _ _ _ _ _ HR1 G1 (reached_has_com _ _ _) X1) as H1. pose proof (get_inertia_ok _ _ _ _ _ _ _ _ _ _ HR2 G2 (reached_has_com _ _ _) X2) as H2.
    destruct (is_inertia_bodies R root sorted jsorted _ I Hp H1) as (W & HW & ->). destruct (is_inertia_bodies R root sorted jsorted _ I' Hp H2) as (W' & HW' & ->).
    pose proof (turned_bodies _ _ _ _ _ _ _ _ _ _ HR1 HR2 HT _ _ HW HW') as F. now rewrite (same_centre _ _ F), (same_total _ _ _ F).
  - intros i ks rt wb m1' m2' J J' Hk Hrt X1 X2. rewrite (rep_joint_count _ _ _ _ _ _ _ _ HR) in Hk.
    destruct (jacobian_is _ _ _ _ _ _ _ _ _ _ _ _ _ _ HR1 G1 Hk X1) as (n & En & HJ). destruct (jacobian_is _ _ _ _ _ _ _ _ _ _ _ _ _ _ HR2 G2 Hk X2) as (n' & En' & HJ').
    assert (n' = n) by (unfold all_links in *; rewrite (tn_added _ _ _ HT) in En'; congruence). subst n'.
    exact (turned_jacobian _ _ _ _ _ _ _ _ _ _ HR1 HR2 HT rt n ks wb J J' Hrt Hk HJ HJ').
Qed.
Print Assumptions C105_whole_turns_change_nothing.

(** on the wheel, set to 0 and to one turn: the hand is at the same place and its quaternion is the opposite one *)
Lemma set_run (m0 : @KM RA) jids q m1 : run [Op_set_joint_angles jids q] m0 = Some m1 -> is_some (answer (set_joint_angles jids q m0)) = true ->
  set_joint_angles jids q m0 = (m1, Ok tt).
Proof. cbn [run exec]. destruct (set_joint_angles jids q m0) as [m2 [[]|e|u|]]; intros E Y; try discriminate; now injection E as <-. Qed.
Example C105_example : exists m m1 m2 m1' m2' P P',
  reached wh_tinyxml ex_text wh_R "base" wh_sorted wh_jsorted [] m /\
  whole_turns wh_j 0 (2 * PI) /\ nth_error wh_jsorted 0 = Some wh_j /\
  set_joint_angles [0%nat] [0] m = (m1, Ok tt) /\ set_joint_angles [0%nat] [2 * PI] m = (m2, Ok tt) /\
  get_link_pose 1 m1 = (m1', Ok P) /\ get_link_pose 1 m2 = (m2', Ok P') /\
  rotation P' = opposite (rotation P) /\ rotation P' <> rotation P.
Proof.
  assert (G : forall a : R, exists m1 m1' P, set_joint_angles [0%nat] [a] wh_m0 = (m1, Ok tt) /\ get_link_pose 1 m1 = (m1', Ok P) /\ P = mkPose v_clear (axis_q (@V3 RA 0 0 1) a)).
  { intros a. destruct (wh_goto a) as (m1 & E & Ea). pose proof (wh_reached _ _ E) as Hr. assert (PE : exists m' P, get_link_pose 1 m1 = (m', Ok P)) by (apply (answer_at wh_m0 _ _ m1 E); vm_compute; reflexivity).
    destruct PE as (m1' & P & X). exists m1, m1', P. split; [|split; [exact X|]].
    - apply (set_run wh_m0 _ _ m1 E). vm_compute. reflexivity.
    - destruct (reached_Rep _ _ _ _ _ _ _ _ Hr) as [HR HC]. specialize (HC eq_refl). destruct (get_link_pose_ok m1 1 m1' P ltac:(split; auto; apply HR) X) as [HP _].
      rewrite Ea in HR. apply (wh_det a "hand"%string); [|apply wh_arm]. apply (rep_pose_of' _ _ _ _ _ _ _ _ HR 1); [reflexivity | exact HP]. }
  destruct (G 0) as (m1 & m1' & P & S1 & X1 & E1). destruct (G (2 * PI)) as (m2 & m2' & P' & S2 & X2 & E2).
  exists wh_m0, m1, m2, m1', m2', P, P'. split; [apply wh_reached; reflexivity|].
  split; [unfold whole_turns; rewrite wh_type; exists 1%Z; ring|]. split; [reflexivity|]. split; [exact S1|]. split; [exact S2|]. split; [exact X1|]. split; [exact X2|].
  rewrite E1, E2. cbn [rotation]. unfold axis_q, opposite. cbn [vx vy vz qx qy qz qw]. rnum.
  replace (2 * PI * (1 / 2)) with PI by field. replace (0 * (1 / 2)) with 0 by ring. replace (2 * PI / 2) with PI by field. replace (0 / 2) with 0 by field. rewrite sin_PI, cos_PI, sin_0, cos_0. split.
  - apply q_eq; cbn [qx qy qz qw]; rnum; ring.
  - intros Q. injection Q as Q. lra.
Qed.
