(** What remains true of C15, C23 and C54, whose full statements are refuted in Thm_Deriv,
    Thm_Mass and Thm_Real. *)
From Coq Require Import QArith String List Arith Lia Bool Permutation Reals Lra.
From Coquelicot Require Import Coquelicot.
From Verif Require Import Base Num Pose DataStructure Urdf Kin Wrapper Spec_Robot Spec_Hist Spec_Load Spec_Jac Spec_Mass Spec_Rot Spec_Body Spec_Deriv RealArith
  Pf_Base Pf_Wrap2 Pf_Pose Rep Pf_Reach Pf_Real Pf_Rot Pf_Unit Pf_Rpy Pf_Deriv Pf_JacD Pf_BaseD Pf_Lock Pf_BaseO Ex_Robot Ex_Slider Ex_Wheel Thm_Real Thm_Mass Thm_Deriv.
Import ListNotations.
Local Open Scope m_scope.
Local Open Scope R_scope.

(** C54, partial: for every orientation, also near gimbal lock, the angles read from it
    describe a rotation whose matrix differs from the original by at most 0.02 in every
    entry.  Missing: equality near gimbal lock, which does not hold. *)
Theorem C54_rpy_near_gimbal_lock_partial :
  forall q : @Rotation RA, unit_quaternion q ->
    let v := getRPY q in within (1 / 50) (Rot_rpy (vx v) (vy v) (vz v)) (quat_mat q).
Proof.
  intros q U v. apply unit_quaternion_q in U. destruct (Rlt_dec (Rabs (2 * (qw q * qy q - qx q * qz q))) (99999 / 100000)) as [A|N].
  - pose proof (rpy_of_away q U A) as E. cbv zeta in E. fold v in E. rewrite rpy_mat in E. rewrite E.
    unfold within. repeat split; match goal with |- Rabs (?x - ?x) <= _ => replace (x - x) with 0 by ring end; rewrite Rabs_R0; lra.
  - apply lock_near; [exact U|lra].
Qed.
Print Assumptions C54_rpy_near_gimbal_lock_partial.
(** straight up: both halves of the hypothesis of the refutation are met *)
Example C54_partial_example : let q := @Q4 RA (3/5 * sqrt (1/2)) (4/5 * sqrt (1/2)) (- (3/5 * sqrt (1/2)))%R (4/5 * sqrt (1/2))%R in unit_quaternion q /\ 99999 / 100000 <= Rabs (2 * (qw q * qy q - qx q * qz q)).
Proof.
  cbv zeta. assert (S : sqrt (1 / 2) * sqrt (1 / 2) = 1 / 2) by (apply sqrt_sqrt; lra). set (k := sqrt (1 / 2)) in *. clearbody k. split.
  - apply unit_quaternion_q. unfold unit_q, qn. cbn [qx qy qz qw]. rnum. change (@num RA) with R.
    transitivity (2 * (k * k)); [field|rewrite S; field].
  - cbn [qx qy qz qw]. change (@num RA) with R.
    match goal with |- _ <= Rabs ?x => replace x with 1 by (transitivity (2 * (k * k)); [rewrite S; field|rnum; field]) end. rewrite Rabs_R1. lra.
Qed.

(** ** C23 *)
Lemma mtr_mmul a b : mtr (mmul a b) = mmul (mtr b) (mtr a).
Proof. unfold mtr, mmul. cbn [m11 m12 m13 m21 m22 m23 m31 m32 m33]. f_equal; ring. Qed.
Lemma rotated_mul a b i : rotated (mmul a b) i = rotated a (rotated b i).
Proof. unfold rotated. now rewrite mtr_mmul, !mmul_assoc. Qed.
Lemma msum_ext {B} (f g : B -> M33) l : (forall x, In x l -> f x = g x) -> msum f l = msum g l.
Proof. unfold msum. induction l as [|x l IH]; intros H; [reflexivity|]. cbn [fold_right]. rewrite H by (left; reflexivity). rewrite IH; [reflexivity|]. intros y I. apply H. now right. Qed.

(** C23, partial: if no inertia tensor changes when turned by the orientation of its own
    inertial frame - no orientation given, or a tensor symmetric about its axis - the
    result is the inertia with the inertial frames taken into account.  Missing: tensors
    that do change. *)
Theorem C23_inertial_frame_orientation_partial :
  forall tinyxml text R root sorted jsorted ops m,
    @reached RA tinyxml text R root sorted jsorted ops m -> clean ops = true ->
    (forall n i, In (n, Some i) (r_links R) -> rotated (quat_mat (rotation (in_origin i))) (tensor i) = tensor i) ->
    forall m' I, get_total_inertia_matrix m = (m', Ok I) ->
    exists W, bodies R root jsorted (after sorted jsorted ops) W /\ I = mrows (msum (inertia_of_frame (centre_of W)) W).
Proof.
  intros tinyxml text R root sorted jsorted ops m Hr Hc Hi m' I X.
  destruct (C22_inertia_is_parallel_axis_sum _ _ _ _ _ _ _ _ Hr Hc m' I X) as (W & T & HW & ET & EI & _). exists W. split; [exact HW|].
  rewrite EI, ET. f_equal. apply msum_ext. intros w Iw. unfold inertia_of, inertia_of_frame. f_equal. rewrite rotated_mul. f_equal.
  unfold bodies in HW. destruct (Forall2_in_r _ _ _ _ HW Iw) as ((n, i) & In & E & _). cbn [fst snd] in E. rewrite E. symmetry. apply (Hi n).
  unfold massive in In. apply in_flat_map in In. destruct In as ((n', [i'|]) & J1 & J2); cbn [fst snd] in J2; [|destruct J2]. destruct J2 as [J2|[]]. inversion J2; subst. exact J1.
Qed.
Print Assumptions C23_inertial_frame_orientation_partial.
(** a sphere or cube (a multiple of the identity) meets the hypothesis at any orientation,
    and any tensor meets it without one *)
Lemma isotropic_ok q (k : R) : unit_q q -> rotated (quat_mat q) (mscale k mid) = mscale k mid.
Proof.
  intros U. destruct (quat_rotation q U) as (E & _). unfold rotated.
  assert (X : mmul (mmul (quat_mat q) (mscale k mid)) (mtr (quat_mat q)) = mscale k (mmul (quat_mat q) (mtr (quat_mat q)))).
  { unfold mmul, mscale, mid, mtr. cbn [m11 m12 m13 m21 m22 m23 m31 m32 m33]. f_equal; ring. }
  now rewrite X, E.
Qed.
Lemma unrotated_ok t : rotated (quat_mat q_clear) t = t.
Proof. rewrite quat_mat_clear. destruct t. unfold rotated, mmul, mid, mtr. cbn [Spec_Rot.m11 Spec_Rot.m12 Spec_Rot.m13 Spec_Rot.m21 Spec_Rot.m22 Spec_Rot.m23 Spec_Rot.m31 Spec_Rot.m32 Spec_Rot.m33]. f_equal; ring. Qed.
Example C23_partial_example : let v := @V3 RA 5 1 7 in exists m, reached sl_tinyxml ex_text sl_R "base" sl_sorted sl_jsorted (sl_turned v) m /\ clean (sl_turned v) = true /\
  (forall n i, In (n, Some i) (r_links sl_R) -> rotated (quat_mat (rotation (in_origin i))) (tensor i) = tensor i) /\
  exists m' I, get_total_inertia_matrix m = (m', Ok I).
Proof.
  intros v. unfold sl_turned. generalize (mkPose v_clear (from_rpy v)). intros B0.
  assert (X : exists m, run [Op_set_joint_angles [0]%nat [1]; Op_set_base_pose B0] sl_m0 = Some m) by (apply is_some_ex; vm_compute; reflexivity).
  destruct X as (m & E). exists m. split; [exact (sl_reached _ _ E)|]. split; [reflexivity|]. split.
  - intros n i H. rewrite sl_links_are in H. destruct H as [H|[H|[]]]; inversion H; subst; rewrite sl_i_origin; apply unrotated_ok.
  - apply (answer_at sl_m0 _ _ m E). vm_compute. reflexivity.
Qed.

(** ** C15 *)
(** C15, partial: with the base's roll and yaw in (-pi, pi] and its pitch in (-pi/2, pi/2)
    with sine below 0.99999 in absolute value, the quaternion rows are within 1e-7 of the derivative; the
    roll-pitch-yaw rows are within 2e-6 / cos(pitch of the link)^4 of it if the link's own
    angles are clear of gimbal lock and of the jump from pi to -pi.  The position rows are
    C14.  Missing: base angles outside these ranges (the refutation is there), and links near gimbal
    lock or the jump, where the reported angles themselves are not differentiable. *)
Theorem C15_base_rotation_columns_bounded_partial :
  forall tinyxml text R root sorted jsorted ops m,
    @reached RA tinyxml text R root sorted jsorted ops m -> clean ops = true -> unit_axes R -> unit_bases ops ->
    forall pos v, as_base (after sorted jsorted ops) = mkPose pos (from_rpy v) ->
      - PI < vx v <= PI -> - PI < vz v <= PI -> - (PI / 2) < vy v < PI / 2 -> Rabs (sin (vy v)) < 99999 / 100000 ->
    forall i n jids rt m' J, nth_error (get_link_names m) i = Some n -> (forall k, In k jids -> (k < length (get_joint_names m))%nat) ->
      get_jacobian i jids rt true m = (m', Ok J) ->
      forall b P, (b < 3)%nat -> (forall t, pose_with_base m i (mkPose pos (from_rpy (with_coord b t v))) (P t)) ->
      (rt = XYZW -> forall r, (3 <= r < 7)%nat -> exists d,
         derivative_at (fun t => reported XYZW r (P t)) (coord b v) d /\ Rabs (entry J r (length jids + 3 + b) - d) <= 1 / 10000000) /\
      (rt = RPY -> let a := getRPY (rotation (P (coord b v))) in
         Rabs (sin (vy a)) <= 9999 / 10000 -> Rabs (vx a) <= PI - 1 / 10 -> Rabs (vz a) <= PI - 1 / 10 ->
         forall r, (3 <= r < 6)%nat -> exists d,
         derivative_at (fun t => reported RPY r (P t)) (coord b v) d /\ Rabs (entry J r (length jids + 3 + b) - d) <= 2 / 1000000 / cos (vy a) ^ 4).
Proof.
  intros tinyxml text R root sorted jsorted ops m Hr Hc Hu Hb pos v EB Hx Hz Hp Hs i n jids rt m' J En Hk X b P Lb HP.
  destruct (base_path _ _ _ _ _ _ _ _ Hr Hc Hu Hb i n jids rt m' J En Hk X) as (D & UD & _ & HD & HB).
  destruct (HB b Lb) as (_ & Col & Inv). rewrite EB in Col, Inv.
  assert (EP : forall t, P t = pose_transform (mkPose pos (from_rpy (with_coord b t v))) D) by (intros t; apply HD; [apply from_rpy_unit | apply HP]).
  split.
  - intros -> r Lr. destruct (base_turn_quat_error pos v D b (r - 3) Lb ltac:(lia) UD Hx Hz Hp Hs Inv) as (d & H1 & H2). replace (3 + (r - 3))%nat with r in * by lia.
    exists d. split; [|rewrite entry_column, Col; exact H2]. apply (dext (fun t => reported XYZW r (pose_transform (mkPose pos (from_rpy (with_coord b t v))) D))); [|exact H1]. intros t. now rewrite EP.
  - intros -> a Ha Hax Haz r Lr. unfold a in *. rewrite EP in *. apply Rabs_le_between in Hax. apply Rabs_le_between in Haz.
    destruct (base_turn_rpy_error pos v D b Lb UD Hp Hs Ha Hax Haz (r - 3) ltac:(lia) Inv) as (d & H1 & H2). replace (3 + (r - 3))%nat with r in * by lia.
    exists d. split; [|rewrite entry_column, Col; exact H2]. apply (dext (fun t => reported RPY r (pose_transform (mkPose pos (from_rpy (with_coord b t v))) D))); [|exact H1]. intros t. now rewrite EP.
Qed.
Print Assumptions C15_base_rotation_columns_bounded_partial.

Lemma sin1_small : Rabs (sin 1) <= 9999 / 10000.
Proof.
  pose proof PI2_3_2. rewrite Rabs_pos_eq by (apply sin_ge_0; lra). pose proof (sin2_cos2 1) as Q. unfold Rsqr in Q.
  assert (C : 1 / 4 < cos 1) by (destruct (cos_poly 1 ltac:(lra)) as [C _]; lra). assert (S : 0 <= sin 1) by (apply sin_ge_0; lra). nra.
Qed.
Example C15_partial_example : let v := @V3 RA 2 1 (-2) in forall rt, exists m, reached sl_tinyxml ex_text sl_R "base" sl_sorted sl_jsorted (sl_turned v) m /\ clean (sl_turned v) = true /\
  unit_axes sl_R /\ unit_bases (sl_turned v) /\ as_base (after sl_sorted sl_jsorted (sl_turned v)) = mkPose v_clear (from_rpy v) /\
  - PI < vx v <= PI /\ - PI < vz v <= PI /\ - (PI / 2) < vy v < PI / 2 /\ Rabs (sin (vy v)) < 99999 / 100000 /\ nth_error (get_link_names m) 1 = Some "car"%string /\
  (exists m' J, get_jacobian 1 [] rt true m = (m', Ok J)) /\
  forall b, exists P, (forall t, pose_with_base m 1 (mkPose v_clear (from_rpy (with_coord b t v))) (P t)) /\
    let a := getRPY (rotation (P (coord b v))) in Rabs (sin (vy a)) <= 9999 / 10000 /\ Rabs (vx a) <= PI - 1 / 10 /\ Rabs (vz a) <= PI - 1 / 10.
Proof.
  intros v rt. destruct (sl_turned_ex v 1 rt ltac:(lia)) as (m & E & HJ & HP). exists m. split; [exact (sl_reached _ _ E)|]. split; [reflexivity|].
  split; [exact sl_unit|]. split; [apply sl_turned_bases|]. split; [now rewrite sl_turned_after|].
  assert (X2 : - PI < 2 <= PI) by (pose proof PI2_3_2; lra). assert (Y1 : - (PI / 2) < 1 < PI / 2) by (pose proof PI2_3_2; lra).
  assert (Z2 : - PI < -2 <= PI) by (pose proof PI2_3_2; lra). assert (S1 : Rabs (sin 1) < 99999 / 100000) by (pose proof sin1_small; lra).
  split; [exact X2|]. split; [exact Z2|]. split; [exact Y1|]. split; [exact S1|].
  assert (Nm : nth_error (get_link_names m) 1 = Some "car"%string) by now rewrite (sl_turned_names v m E).
  split; [exact Nm|]. split; [exact HJ|]. intros b. destruct (HP b) as (P & HPb). exists P. split; [exact HPb|].
  destruct HJ as (m' & J & HJ).
  destruct (base_path _ _ _ _ _ _ _ _ (sl_reached _ _ E) eq_refl sl_unit (sl_turned_bases v) 1 "car" [] rt m' J Nm ltac:(intros k []) HJ) as (D & UD & PD & HD & _).
  rewrite sl_turned_after in PD. cbn [as_added as_angles as_base] in PD.
  assert (ED : D = mkPose (V3 1 0 0) q_clear) by (apply (sl_det 1 "car"%string); [exact PD | apply sl_car]). subst D. clear PD HJ HP.
  pose proof (HD (mkPose v_clear (from_rpy (with_coord b (coord b v) v))) (P (coord b v)) (from_rpy_unit _) (HPb (coord b v))) as EP. clear HD HPb E.
  assert (G : getRPY (rotation (P (coord b v))) = v).
  { rewrite EP, with_coord_same. cbn [pose_transform rotation]. rewrite q_mul_1r. exact (rpy_round 2 1 (-2) X2 Z2 Y1 S1). }
  cbv zeta. rewrite G. unfold v. cbn [vx vy vz]. split; [exact sin1_small|]. pose proof PI2_3_2. split; apply Rabs_le; lra.
Qed.
