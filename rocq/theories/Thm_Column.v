(** C113 and C114: columns of Jacobians are motions of rigid bodies, no larger than the chain is long. *)
From Coq Require Import QArith String List Arith Lia Bool Permutation Reals Lra.
From Verif Require Import Base Num Pose DataStructure Urdf Kin Wrapper Spec_Robot Spec_Hist Spec_Load Spec_Jac Spec_Mass Spec_Rot Spec_Body Spec_Deriv Spec_Reach Spec_Column
  RealArith Pf_Base Pf_Data Inv Rep Pf_Reach Pf_Jac Pf_Safe Pf_Pose Pf_Local Pf_Hist Pf_Name Pf_Frame Pf_Rp Pf_FK Pf_Ops Pf_Mass Pf_Wrap Pf_Wrap2 Pf_Total
  Pf_Real Pf_Rot Pf_Unit Pf_Deriv Pf_Reach2 Pf_Column Ex_Robot Ex_Slider Ex_Wheel Thm_Fk Thm_Ids Thm_Real Thm_Deriv Thm_Rigid Thm_Relative Thm_Reach.
Import ListNotations.
Local Open Scope m_scope.
Local Open Scope R_scope.

(** C113.  The quaternion rows of a joint column are at right angles to the link's quaternion: no joint changes its norm.  They are 0 for a joint that slides or does
    not carry the link and have length 1/2 for any other.  For two links that both follow a joint or both do not, the joint's columns do not change the
    distance between them. *)
Theorem C113_jacobian_columns_are_rigid_motions :
  forall tinyxml text R root sorted jsorted ops m,
    @reached RA tinyxml text R root sorted jsorted ops m -> clean ops = true -> unit_axes R -> unit_bases ops ->
    let carried := carries (r_joints R) (as_added (after sorted jsorted ops)) in
    forall jids k j c, (forall k, In k jids -> (k < length (get_joint_names m))%nat) -> nth_error jids c = Some k -> nth_error jsorted k = Some j ->
    (forall i n wb m' J m1 P, nth_error (get_link_names m) i = Some n ->
       get_jacobian i jids XYZW wb m = (m', Ok J) -> get_link_pose i m = (m1, Ok P) ->
       qdot (qcol J c) (rotation P) = 0 /\
       (uj_type j = PRISMATIC \/ ~ carried j n -> qcol J c = @Q4 RA 0 0 0 0) /\
       (uj_type j <> PRISMATIC -> carried j n -> qdot (qcol J c) (qcol J c) = 1 / 4)) /\
    (forall i1 i2 n1 n2 rt1 rt2 wb1 wb2 m1 m2 m3 m4 J1 J2 P1 P2,
       nth_error (get_link_names m) i1 = Some n1 -> nth_error (get_link_names m) i2 = Some n2 ->
       get_jacobian i1 jids rt1 wb1 m = (m1, Ok J1) -> get_jacobian i2 jids rt2 wb2 m = (m2, Ok J2) ->
       get_link_pose i1 m = (m3, Ok P1) -> get_link_pose i2 m = (m4, Ok P2) -> (carried j n1 <-> carried j n2) ->
       vdot (v_sub (position P1) (position P2)) (v_sub (pcol J1 c) (pcol J2 c)) = 0).
Proof.
  intros tinyxml text R root sorted jsorted ops m Hr Hc Hu Hb carried jids k j c Hk Ec Ej. split.
  - intros i n wb m' J m1 P En X XP. exact (column_quaternion _ _ _ _ _ _ _ _ Hr Hc Hu Hb i n jids wb m' J c k j m1 P En Hk X XP Ec Ej).
  - intros i1 i2 n1 n2 rt1 rt2 wb1 wb2 m1 m2 m3 m4 J1 J2 P1 P2 N1 N2 X1 X2 Y1 Y2 Hcc.
    exact (columns_rigid _ _ _ _ _ _ _ _ Hr Hc i1 i2 n1 n2 jids jids rt1 rt2 wb1 wb2 m1 m2 m3 m4 J1 J2 c c k j P1 P2 N1 N2 Hk Hk X1 X2 Y1 Y2 Ec Ec Ej Hcc).
Qed.
Print Assumptions C113_jacobian_columns_are_rigid_motions.

(** C114.  While every joint stays within [B], the position rows of a joint column are no longer than the joint's gain (see [gain]). *)
Theorem C114_jacobian_columns_are_bounded :
  forall tinyxml text R root sorted jsorted ops m,
    @reached RA tinyxml text R root sorted jsorted ops m -> clean ops = true -> unit_axes R -> unit_bases ops ->
    forall (B : string -> Rdefinitions.R), (forall k j a, nth_error jsorted k = Some j -> angle_of k m = Ok [a] -> Rabs a <= B (uj_name j)) ->
    forall i n jids rt wb m' J, nth_error (get_link_names m) i = Some n -> (forall k, In k jids -> (k < length (get_joint_names m))%nat) ->
      get_jacobian i jids rt wb m = (m', Ok J) ->
    forall c k j g, nth_error jids c = Some k -> nth_error jsorted k = Some j ->
      gain (r_joints R) (as_added (after sorted jsorted ops)) B n j g -> vlen (pcol J c) <= g.
Proof.
  intros tinyxml text R root sorted jsorted ops m Hr Hc Hu Hb B HB i n jids rt wb m' J En Hk X c k j g Ec Ej Hg.
  destruct (reached_Rep _ _ _ _ _ _ _ _ Hr) as [HR HC]. specialize (HC Hc).
  apply (column_bounded _ _ _ _ _ _ _ _ Hr Hc Hu Hb B i n jids rt wb m' J c k j g En Hk); auto.
  intros k' x Ex. apply (HB k' x _ Ex).
  unfold angle_of. rewrite get_angles_spec; [cbn [map snd]; now rewrite (rep_angles _ _ _ _ _ _ _ _ HR)|].
  intros i' [<-|[]]. rewrite (rep_angles _ _ _ _ _ _ _ _ HR), (rep_angles_length _ _ _ _ _ _ _ _ HR). unfold jnames. rewrite map_length. eapply nth_error_lt; eauto.
Qed.
Print Assumptions C114_jacobian_columns_are_bounded.

(** the wheel with a tip one unit away from its axis: the hand and the tip follow the wheel, whose gain for the tip is 1 *)
Example C113_C114_example : exists m m1 m2 m3 m4 J1 J2 P1 P2, reached wh_tinyxml ex_text wh_R "base" wh_sorted wh_jsorted rl_ops m /\ clean rl_ops = true /\ unit_axes wh_R /\ unit_bases rl_ops /\
  (forall k, In k [0%nat] -> (k < length (get_joint_names m))%nat) /\ nth_error wh_jsorted 0 = Some wh_j /\ uj_type wh_j <> PRISMATIC /\
  nth_error (get_link_names m) 1 = Some "hand"%string /\ nth_error (get_link_names m) 4 = Some "tip"%string /\
  get_jacobian 1 [0%nat] XYZW true m = (m1, Ok J1) /\ get_jacobian 4 [0%nat] XYZW true m = (m2, Ok J2) /\
  get_link_pose 1 m = (m3, Ok P1) /\ get_link_pose 4 m = (m4, Ok P2) /\
  carries (r_joints wh_R) (as_added (after wh_sorted wh_jsorted rl_ops)) wh_j "hand" /\ carries (r_joints wh_R) (as_added (after wh_sorted wh_jsorted rl_ops)) wh_j "tip" /\
  (forall B : string -> R, (forall x, 2 <= B x) -> (forall k j a, nth_error wh_jsorted k = Some j -> angle_of k m = Ok [a] -> Rabs a <= B (uj_name j)) /\
    gain (r_joints wh_R) (as_added (after wh_sorted wh_jsorted rl_ops)) B "tip" wh_j 1).
Proof.
  destruct (rel_go wh_m0 rl_ops [0%nat] [n2] pose_clear 1 4 ltac:(vm_compute; reflexivity)) as (m & ma & mb & m1 & m2 & m3 & m4 & P1 & P2 & P1' & P2' & E & Ea & Eb & A1 & A2 & _ & _).
  assert (G1 : exists m' J, get_jacobian 1 [0%nat] XYZW true m = (m', Ok J)) by (apply (answer_at wh_m0 _ _ m E); vm_compute; reflexivity). destruct G1 as (k1 & J1 & G1).
  assert (G2 : exists m' J, get_jacobian 4 [0%nat] XYZW true m = (m', Ok J)) by (apply (answer_at wh_m0 _ _ m E); vm_compute; reflexivity). destruct G2 as (k2 & J2 & G2).
  exists m, k1, k2, m1, m2, J1, J2, P1, P2. pose proof (wh_reached _ _ E) as Hr. split; [exact Hr|]. split; [reflexivity|]. split; [exact wh_unit|].
  split; [intros p [I|[]]; discriminate I|]. destruct (reached_Rep _ _ _ _ _ _ _ _ Hr) as [HR _]. rewrite (rep_all_links _ _ _ _ _ _ _ _ HR).
  split; [rewrite (Pf_Pose.rep_joint_count _ _ _ _ _ _ _ _ HR); intros k [<-|[]]; cbn; lia|].
  split; [reflexivity|]. split; [rewrite wh_type; discriminate|]. split; [reflexivity|]. split; [reflexivity|].
  split; [exact G1|]. split; [exact G2|]. split; [exact A1|]. split; [exact A2|]. split; [rewrite <- wh_child at 1; constructor|]. split; [apply rc_carries|]. intros B HB. split.
  - intros k j a Ej Ek. destruct (rc_angle rl_ops m k j n0 Hr ltac:(now rewrite rc_after) Ej) as [_ Ek']. assert (Q : a = @n0 RA) by congruence. rewrite Q. rnum. rewrite Rabs_R0. specialize (HB (uj_name j)). lra.
  - apply gain_turn; [rewrite wh_type; discriminate|]. rewrite wh_child. apply rc_tip.
Qed.
