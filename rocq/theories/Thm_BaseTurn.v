(** C115: the joint columns of Jacobians turn with the base. *)
From Coq Require Import QArith String List Arith Lia Bool Permutation Reals Lra.
From Verif Require Import Base Num Pose DataStructure Urdf Kin Wrapper Spec_Robot Spec_Hist Spec_Load Spec_Jac Spec_Mass Spec_Rot Spec_Body Spec_Deriv Spec_Column
  RealArith Pf_Base Pf_Data Inv Pf_FK Pf_Frame Pf_Rp Rep Pf_Ops Pf_Name Pf_Reach Pf_Jac Pf_Safe Pf_Rpy Pf_Pose Pf_Local Pf_Hist Pf_Mass Pf_Wrap Pf_Total
  Pf_Real Pf_Rot Pf_Unit Pf_Column Pf_BaseTurn Ex_Robot Ex_Slider Ex_Wheel Thm_Fk Thm_Real Thm_Rigid Thm_Deriv Thm_Relative.
Import ListNotations.
Local Open Scope m_scope.
Local Open Scope R_scope.

(** C115.  The same configuration with the base at the origin and at [B]: the position rows of every joint column are turned by the rotation of [B], the
    quaternion rows are multiplied by its quaternion, and so are the columns of the centre of mass. *)
Theorem C115_jacobian_columns_turn_with_base :
  forall tinyxml text R root sorted jsorted ops m,
    @reached RA tinyxml text R root sorted jsorted ops m -> unit_axes R ->
    forall B : Pose, unit_quaternion (rotation B) ->
    let Q := quat_mat (rotation B) in
    forall m0 m1, set_base_pose pose_clear m = (m0, Ok tt) -> set_base_pose B m = (m1, Ok tt) ->
    forall jids wb c, (forall k, In k jids -> (k < length (get_joint_names m))%nat) -> (c < length jids)%nat ->
    (forall i rt m0' m1' J0 J, get_jacobian i jids rt wb m0 = (m0', Ok J0) -> get_jacobian i jids rt wb m1 = (m1', Ok J) ->
       pcol J c = mvec Q (pcol J0 c) /\ (rt = XYZW -> qcol J c = q_mul (rotation B) (qcol J0 c))) /\
    (forall m0' m1' J0 J, get_com_jacobian jids wb m0 = (m0', Ok J0) -> get_com_jacobian jids wb m1 = (m1', Ok J) -> pcol J c = mvec Q (pcol J0 c)).
Proof.
  intros tinyxml text R root sorted jsorted ops m Hr Hu B HB Q m0 m1 E0 E1 jids wb c Hk Lc. apply unit_quaternion_q in HB.
  assert (Hr0 : reached tinyxml text R root sorted jsorted (ops ++ [Op_set_base_pose pose_clear]) m0)
    by (apply (reached_run _ _ _ _ _ _ _ _ _ _ Hr); cbn [run exec]; rewrite E0; reflexivity).
  assert (Hr1 : reached tinyxml text R root sorted jsorted (ops ++ [Op_set_base_pose B]) m1)
    by (apply (reached_run _ _ _ _ _ _ _ _ _ _ Hr); cbn [run exec]; rewrite E1; reflexivity).
  assert (C : forall p, clean (ops ++ [Op_set_base_pose p]) = true) by (intros p; unfold clean; rewrite fold_left_app; reflexivity).
  destruct (reached_Rep _ _ _ _ _ _ _ _ Hr) as [HR _]. destruct (reached_Rep _ _ _ _ _ _ _ _ Hr0) as [HR0 HC0]. destruct (reached_Rep _ _ _ _ _ _ _ _ Hr1) as [HR1 HC1].
  specialize (HC0 (C _)). specialize (HC1 (C _)). assert (G0 : Good m0) by (split; auto; apply HR0). assert (G1 : Good m1) by (split; auto; apply HR1).
  rewrite (rep_joint_count _ _ _ _ _ _ _ _ HR) in Hk. rewrite after_app in HR0, HR1. unfold abs_run in *. cbn [fold_left abs_step] in *.
  pose proof (loaded_axes_ok _ _ _ _ (proj1 Hr) Hu) as AX. pose proof (after_ok sorted jsorted ops) as AD. split.
  - intros i rt m0' m1' J0 J X0 X1. destruct (jacobian_is _ _ _ _ _ _ _ _ _ _ _ _ _ _ HR0 G0 Hk X0) as (n & En & HJ0). destruct (jacobian_is _ _ _ _ _ _ _ _ _ _ _ _ _ _ HR1 G1 Hk X1) as (n' & En' & HJ1).
    assert (n' = n) by (unfold all_links in *; cbn [as_added] in *; congruence). subst n'.
    exact (column_turns R root sorted jsorted _ _ _ B m1 AX AD HB HR1 n jids rt wb J0 J c HJ0 HJ1 Lc Hk).
  - intros m0' m1' J0 J X0 X1.
    exact (com_column_turns R root sorted jsorted _ _ _ B m1 AX AD HB HR1 jids wb J0 J c (get_com_jacobian_ok _ _ _ _ _ _ _ _ _ _ _ _ HR0 G0 Hk X0) (get_com_jacobian_ok _ _ _ _ _ _ _ _ _ _ _ _ HR1 G1 Hk X1) Lc Hk).
Qed.
Print Assumptions C115_jacobian_columns_turn_with_base.

Lemma based_run (k0 : @KM RA) ops m B : run ops k0 = Some m -> exists m1, set_base_pose B m = (m1, Ok tt) /\ run (ops ++ [Op_set_base_pose B]) k0 = Some m1.
Proof. intros E. eexists. split; [reflexivity|]. rewrite run_app, E. reflexivity. Qed.

(** the wheel with a tip on its hand, with the base at the origin and moved and turned *)
Example C115_example : exists m m0 m1, reached wh_tinyxml ex_text wh_R "base" wh_sorted wh_jsorted rl_ops m /\ unit_axes wh_R /\ unit_quaternion (rotation rg_base) /\
  set_base_pose pose_clear m = (m0, Ok tt) /\ set_base_pose rg_base m = (m1, Ok tt) /\ (forall k, In k [0%nat] -> (k < length (get_joint_names m))%nat) /\
  (exists m' J, get_jacobian 4 [0%nat] XYZW true m0 = (m', Ok J)) /\ (exists m' J, get_jacobian 4 [0%nat] XYZW true m1 = (m', Ok J)) /\
  (exists m' J, get_com_jacobian [0%nat] true m0 = (m', Ok J)) /\ (exists m' J, get_com_jacobian [0%nat] true m1 = (m', Ok J)).
Proof.
  destruct (rel_go wh_m0 rl_ops [0%nat] [n2] pose_clear 1 4 ltac:(vm_compute; reflexivity)) as (m & _ & _ & _ & _ & _ & _ & _ & _ & _ & _ & E & _).
  destruct (based_run _ _ m pose_clear E) as (m0 & S0 & R0). destruct (based_run _ _ m rg_base E) as (m1 & S1 & R1). exists m, m0, m1.
  pose proof (wh_reached _ _ E) as Hr. split; [exact Hr|]. split; [exact wh_unit|]. split; [apply unit_quaternion_q; apply (rpy_unit n1 n0 n0)|].
  destruct (reached_Rep _ _ _ _ _ _ _ _ Hr) as [HR _]. split; [exact S0|]. split; [exact S1|].
  split; [rewrite (rep_joint_count _ _ _ _ _ _ _ _ HR); intros k [<-|[]]; cbn; lia|].
  split; [apply (answer_at wh_m0 _ _ m0 R0); vm_compute; reflexivity|]. split; [apply (answer_at wh_m0 _ _ m1 R1); vm_compute; reflexivity|].
  split; [apply (answer_at wh_m0 _ _ m0 R0); vm_compute; reflexivity | apply (answer_at wh_m0 _ _ m1 R1); vm_compute; reflexivity].
Qed.
