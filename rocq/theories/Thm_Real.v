(** C02, C06, C07, C31 (angles), C52, C53, C54: exact arithmetic. *)
From Coq Require Import QArith String List Arith Lia Bool Permutation Reals Lra.
From Verif Require Import Base Num Pose DataStructure Urdf Kin Wrapper Spec_Robot Spec_Hist Spec_Load Spec_Jac Spec_Rot RealArith
  Pf_Base Pf_Data Inv Pf_FK Pf_Frame Pf_Rp Rep Pf_Ops Pf_Name Pf_Reach Pf_Jac Pf_Safe Pf_Pose Pf_Local Pf_Hist Pf_Real Pf_Rot Pf_Unit Pf_Rpy Ex_Robot.
Import ListNotations.
Local Open Scope R_scope.

(** vector attribute [name] of the origin element of a joint; zero when absent *)
Definition origin_attr (name : string) (x : xml) (v : @Vector3 RA) : Prop :=
  match first_child "origin" x with
  | None => v = @V3 RA 0 0 0
  | Some o => match attribute name o with None => v = @V3 RA 0 0 0 | Some s => v_init s = Some v end
  end.

Lemma v_clear_0 : v_clear = @V3 RA 0 0 0.
Proof. unfold v_clear. apply v_eq; cbn [vx vy vz]; rnum; reflexivity. Qed.

Lemma joint_origin_attr x (j : @UJoint RA) : parseJoint x = Some j ->
  exists xyz rpy, origin_attr "xyz" x xyz /\ origin_attr "rpy" x rpy /\
    uj_origin j = mkPose xyz (setFromRPY (vx rpy) (vy rpy) (vz rpy)).
Proof.
  unfold parseJoint. destruct (attribute "name" x) as [nm|]; [|discriminate]. destruct (parse_joint_origin x) as [o|] eqn:Eo; [|discriminate].
  destruct (attribute "type" x) as [ts|]; [|discriminate]. destruct (joint_type_of_string ts); [|discriminate]. destruct (parse_axis _ x); [|discriminate].
  destruct (parse_limit _ x); [|discriminate]. destruct (opt_child_ok "safety_controller" _ x); [|discriminate]. destruct (opt_child_ok "calibration" _ x); [|discriminate].
  cbn [negb]. destruct (parse_mimic x); [|discriminate]. destruct (opt_child_ok "dynamics" _ x); [|discriminate]. intros E. cbn [negb] in E. inversion E; subst. cbn [uj_origin].
  clear E. unfold parse_joint_origin in Eo. unfold origin_attr. destruct (first_child "origin" x) as [e|].
  - unfold parsePose, q_init in Eo. destruct (attribute "xyz" e) as [sx|]; [destruct (v_init sx) as [p|] eqn:Ep; [|discriminate]|];
      (destruct (attribute "rpy" e) as [sr|]; [destruct (v_init sr) as [v0|] eqn:Ev; [|discriminate]|]); inversion Eo; subst.
    + exists p, v0. auto.
    + exists p, (@V3 RA 0 0 0). cbn [vx vy vz]. rewrite rpy_0. auto.
    + exists (@V3 RA 0 0 0), v0. rewrite <- v_clear_0. auto.
    + exists (@V3 RA 0 0 0), (@V3 RA 0 0 0). cbn [vx vy vz]. rewrite rpy_0, <- v_clear_0. auto.
  - inversion Eo; subst. exists (@V3 RA 0 0 0), (@V3 RA 0 0 0). cbn [vx vy vz]. rewrite rpy_0, <- v_clear_0. auto.
Qed.

Lemma qn_pos (q : @Rotation RA) : q <> @Q4 RA 0 0 0 0 -> 0 < qn q.
Proof.
  intros H. destruct (Rle_lt_or_eq_dec _ _ (qn_nonneg q)) as [H'|H']; auto. exfalso. apply H. unfold qn in H'. destruct q as [x y z w]. cbn [qx qy qz qw] in *.
  rnumin H'. pose proof (Rle_0_sqr x). pose proof (Rle_0_sqr y). pose proof (Rle_0_sqr z). pose proof (Rle_0_sqr w). unfold Rsqr in *.
  assert (S : forall t : R, t * t = 0 -> t = 0) by (intros t Ht; destruct (Rmult_integral _ _ Ht); auto).
  f_equal; apply S; lra.
Qed.

(** C02.  With unit axes (and unit base rotations, where set_base_pose is used) every link
    pose is the one of the homogeneous-matrix semantics of the URDF format; origins read
    from the document are rotations Rz(yaw) Ry(pitch) Rx(roll), and so are the offsets of
    links attached later. *)
Theorem C02_quaternion_fk_is_matrix_fk :
  forall tinyxml text R root sorted jsorted ops m,
    @reached RA tinyxml text R root sorted jsorted ops m -> clean ops = true -> unit_axes R -> unit_bases ops ->
    let s := after sorted jsorted ops in
    let offsets := map (fun a => (fst (fst a), snd (fst a), pose_hom (snd a))) (as_added s) in
    (forall i n m' P, nth_error (get_link_names m) i = Some n -> get_link_pose i m = (m', Ok P) ->
       hfk (r_joints R) root offsets (fun j => pose_hom (uj_origin j)) (by_name (jnames jsorted) (as_angles s)) (pose_hom (as_base s)) n (pose_hom P)) /\
    (forall j, In j (r_joints R) -> exists x xyz rpy, parseJoint x = Some j /\ origin_attr "xyz" x xyz /\ origin_attr "rpy" x rpy /\
       pose_hom (uj_origin j) = mkH (Rot_rpy (vx rpy) (vy rpy) (vz rpy)) xyz) /\
    (forall pos (r p y : @num RA), pose_hom (mkPose pos (setFromRPY r p y)) = mkH (Rot_rpy r p y) pos).
Proof.
  intros tinyxml text R root sorted jsorted ops m Hr Hc Hu Hb s offsets.
  destruct (reached_Rep _ _ _ _ _ _ _ _ Hr) as [HR HC]. fold s in HR. specialize (HC Hc). assert (G : Good m) by (split; auto; apply HR).
  pose proof (loaded_axes_ok _ _ _ _ (proj1 Hr) Hu) as Ha.
  assert (Z : forall pos (r p y : @num RA), pose_hom (mkPose pos (setFromRPY r p y)) = mkH (Rot_rpy r p y) pos).
  { intros pos r p y. unfold pose_hom. cbn [rotation position]. now rewrite rpy_mat. }
  split; [|split; [|exact Z]].
  - intros i n m' P En X. rewrite (rep_all_links _ _ _ _ _ _ _ _ HR) in En.
    destruct (get_link_pose_ok m i m' P G X) as [HP _].
    apply (fk_hfk (r_joints R) root (as_added s)); auto; [apply after_ok | apply after_base_unit; auto|].
    exact (rep_pose_of' _ _ _ _ _ _ _ _ HR i n P En HP).
  - intros j I. destruct (ld_xml _ _ _ _ (proj1 Hr)) as (top & _ & D). destruct (described_joints top R j D I) as (x & E).
    destruct (joint_origin_attr x j E) as (xyz & rpy & H1 & H2 & H3). exists x, xyz, rpy. rewrite H3. auto.
Qed.
Print Assumptions C02_quaternion_fk_is_matrix_fk.

Lemma ex_unit_axes : unit_axes ex_R.
Proof.
  intros j I T. unfold unit_vector. destruct (ex_joint_in j I) as [->|[->| ->]].
  - rewrite ex_type in T. destruct T as [T|T]; discriminate T.
  - rewrite ex_axis1. cbn [vx vy vz]. rnum. ring.
  - rewrite ex_type in T. destruct T as [T|T]; discriminate T.
Qed.
Lemma ex_unit_bases : unit_bases ex_ops.
Proof. intros p I. unfold ex_ops in I. cbn [In] in I. repeat (destruct I as [I|I]; [try discriminate I; inversion I; subst; apply unit_quaternion_q, unit_clear|]). destruct I. Qed.

Example C02_example : exists m, reached ex_tinyxml ex_text ex_R "base" ex_sorted ex_jsorted ex_ops m /\ clean ex_ops = true /\
  unit_axes ex_R /\ unit_bases ex_ops /\ exists m' P, get_link_pose 6 m = (m', Ok P).
Proof.
  destruct ex_run as (m & E). exists m. split; [exact (ex_reached _ _ E)|]. split; [reflexivity|]. split; [exact ex_unit_axes|]. split; [exact ex_unit_bases|].
  apply (observe_answer ex_ops (get_link_pose 6) m E). vm_compute. reflexivity.
Qed.

(** C06.  After any history, whatever the cache holds; axes that turn need only be non-zero. *)
Theorem C06_base_moves_every_link_rigidly :
  forall tinyxml text R root sorted jsorted ops m,
    @reached RA tinyxml text R root sorted jsorted ops m ->
    (forall j, In j (r_joints R) -> uj_type j = REVOLUTE \/ uj_type j = CONTINUOUS -> uj_axis j <> @V3 RA 0 0 0) ->
    forall B : Pose, rotation B <> @Q4 RA 0 0 0 0 ->
    forall i m0 m1 m0' m1' P0 P, (i < length (get_link_names m))%nat ->
      set_base_pose pose_clear m = (m0, Ok tt) -> get_link_pose i m0 = (m0', Ok P0) ->
      set_base_pose B m = (m1, Ok tt) -> get_link_pose i m1 = (m1', Ok P) ->
      P = pose_transform B P0.
Proof.
  intros tinyxml text R root sorted jsorted ops m Hr Hn B HB i m0 m1 m0' m1' P0 P Li E0 X0 E1 X1.
  assert (HB' : 0 < qn (rotation B)) by now apply qn_pos.
  assert (N : nonzero_axes (r_joints R)).
  { intros j I. split; [eapply loaded_origins; [apply Hr | exact I]|]. intros T. specialize (Hn j I T).
    destruct (Req_dec (vx (uj_axis j)) 0) as [Ex|]; auto. destruct (Req_dec (vy (uj_axis j)) 0) as [Ey|]; auto. right. right. intros Ez. apply Hn.
    apply v_eq; cbn [vx vy vz]; auto. }
  assert (Hr0 : reached tinyxml text R root sorted jsorted (ops ++ [Op_set_base_pose pose_clear]) m0)
    by (apply (reached_run _ _ _ _ _ _ _ _ _ _ Hr); cbn [run exec]; rewrite E0; reflexivity).
  assert (Hr1 : reached tinyxml text R root sorted jsorted (ops ++ [Op_set_base_pose B]) m1)
    by (apply (reached_run _ _ _ _ _ _ _ _ _ _ Hr); cbn [run exec]; rewrite E1; reflexivity).
  destruct (reached_Rep _ _ _ _ _ _ _ _ Hr) as [HR _]. destruct (reached_Rep _ _ _ _ _ _ _ _ Hr0) as [HR0 HC0]. destruct (reached_Rep _ _ _ _ _ _ _ _ Hr1) as [HR1 HC1].
  assert (C : forall p, clean (ops ++ [Op_set_base_pose p]) = true) by (intros p; unfold clean; rewrite fold_left_app; reflexivity).
  specialize (HC0 (C _)). specialize (HC1 (C _)). rewrite after_app in *. cbn [abs_run fold_left abs_step] in *. unfold abs_run in *. cbn [fold_left abs_step] in *.
  set (s := after sorted jsorted ops) in *.
  rewrite (rep_all_links _ _ _ _ _ _ _ _ HR) in Li. destruct (lt_nth_error _ _ Li) as (n & En).
  destruct (get_link_pose_ok m0 i m0' P0 ltac:(split; auto; apply HR0) X0) as [HP0 _]. destruct (get_link_pose_ok m1 i m1' P ltac:(split; auto; apply HR1) X1) as [HP1 _].
  pose proof (rep_pose_of' _ _ _ _ _ _ _ _ HR0 i n P0 En HP0) as F0. pose proof (rep_pose_of' _ _ _ _ _ _ _ _ HR1 i n P En HP1) as F1.
  apply (rep_pose_det _ _ _ _ _ _ _ _ HR1 n P _ F1). unfold pose_at in *. cbn [as_added as_angles as_base] in *.
  apply fk_base; auto. apply after_ok.
Qed.
Print Assumptions C06_base_moves_every_link_rigidly.

Example C06_example : exists m, reached ex_tinyxml ex_text ex_R "base" ex_sorted ex_jsorted ex_ops m /\
  (forall j, In j (r_joints ex_R) -> uj_type j = REVOLUTE \/ uj_type j = CONTINUOUS -> uj_axis j <> @V3 RA 0 0 0) /\
  (exists m0, set_base_pose pose_clear m = (m0, Ok tt) /\ exists m' P, get_link_pose 6 m0 = (m', Ok P)) /\
  (let B := @mkPose RA (@V3 RA n1 n2 n0) (setFromRPY n1 n2 n0) in
   exists m0, set_base_pose B m = (m0, Ok tt) /\ exists m' P, get_link_pose 6 m0 = (m', Ok P)).
Proof.
  destruct ex_run as (m & E). exists m. split; [exact (ex_reached _ _ E)|]. split.
  - intros j I T. pose proof (ex_unit_axes j I T) as U. intros Z. unfold unit_vector in U. rewrite Z in U. cbn [vx vy vz] in U. lra.
  - assert (X : forall B : @Pose RA, is_some (match run (ex_ops ++ [Op_set_base_pose B]) ex_m0 with Some m => answer (get_link_pose 6 m) | None => None end) = true ->
      exists m0, set_base_pose B m = (m0, Ok tt) /\ exists m' P, get_link_pose 6 m0 = (m', Ok P)).
    { intros B H. rewrite run_app, E in H. cbn [run exec] in H. unfold set_base_pose in *. rewrite bind_get in *. eexists. split; [reflexivity|].
      apply is_some_ex in H. destruct H as (P & H). apply answer_ok in H. destruct H as (m' & H). exists m', P. exact H. }
    split; [|cbv zeta]; apply X; vm_compute; reflexivity.
Qed.

(** C07. *)
Theorem C07_orientations_are_unit_quaternions :
  forall tinyxml text R root sorted jsorted ops m,
    @reached RA tinyxml text R root sorted jsorted ops m -> clean ops = true -> unit_axes R -> unit_bases ops ->
    unit_quaternion (rotation (base_pose m)) /\
    forall i m' P, get_link_pose i m = (m', Ok P) -> unit_quaternion (rotation P).
Proof.
  intros tinyxml text R root sorted jsorted ops m Hr Hc Hu Hb.
  destruct (reached_Rep _ _ _ _ _ _ _ _ Hr) as [HR HC]. specialize (HC Hc). assert (G : Good m) by (split; auto; apply HR).
  pose proof (loaded_axes_ok _ _ _ _ (proj1 Hr) Hu) as Ha. pose proof (after_base_unit sorted jsorted ops Hb) as Hq. split.
  - rewrite (rep_base _ _ _ _ _ _ _ _ HR). now apply unit_quaternion_q.
  - intros i m' P X. apply unit_quaternion_q. destruct (get_link_pose_ok m i m' P G X) as [HP _].
    destruct (lt_nth_error _ _ (pose_of_lt _ _ _ _ _ HP)) as (l & El). pose proof (rep_link_inv _ _ _ _ _ _ _ _ HR i l El) as En.
    apply (fk_unit _ _ _ _ _ _ _ Ha (after_ok sorted jsorted ops) Hq (rep_pose_of' _ _ _ _ _ _ _ _ HR i _ P En HP)).
Qed.
Print Assumptions C07_orientations_are_unit_quaternions.
(** C02_example meets these hypotheses. *)

(** without set_base_pose there is nothing to assume about the base *)
Example C07_no_set_base_pose : unit_bases [Op_set_base_xyzrpy [n1; n2; n0; n1; n2; n0]; Op_solve_fk [[n1; n0]] [3]%nat [0; 1]%nat IGNORE false true false].
Proof. intros p [I|[I|[]]]; discriminate I. Qed.

(** C52. *)
Theorem C52_poses_form_a_group :
  forall a b c : @Pose RA, rotation a <> @Q4 RA 0 0 0 0 -> rotation b <> @Q4 RA 0 0 0 0 ->
    pose_transform (pose_transform a b) c = pose_transform a (pose_transform b c) /\
    pose_transform pose_clear a = a /\ pose_transform a pose_clear = a /\
    pose_transform (pose_inverse a) a = pose_clear /\ pose_transform a (pose_inverse a) = pose_clear.
Proof.
  intros a b c Ha Hb.
  apply qn_pos in Ha. apply qn_pos in Hb. repeat split; auto using pt_assoc, pt_1l, pt_1r, pt_inverse_l, pt_inverse_r.
Qed.
Print Assumptions C52_poses_form_a_group.
Example C52_example : rotation (@mkPose RA (@V3 RA 1 2 3) (@Q4 RA 2 0 1 0)) <> @Q4 RA 0 0 0 0.
Proof. cbn [rotation]. intros H. inversion H. lra. Qed.

(** C53.  [2 (w y - x z)] is the sine of the pitch of a unit quaternion. *)
Theorem C53_rpy_exact_away_from_gimbal_lock :
  (forall r p y : R, quat_mat (@setFromRPY RA r p y) = Rot_rpy r p y /\ unit_quaternion (@setFromRPY RA r p y)) /\
  (forall q : @Rotation RA, unit_quaternion q -> Rabs (2 * (qw q * qy q - qx q * qz q)) < 99999 / 100000 ->
     let v := getRPY q in Rot_rpy (vx v) (vy v) (vz v) = quat_mat q) /\
  (forall r p y : R, - PI < r <= PI -> - PI < y <= PI -> - (PI / 2) < p < PI / 2 -> Rabs (sin p) < 99999 / 100000 ->
     getRPY (@setFromRPY RA r p y) = @V3 RA r p y).
Proof.
  split; [|split].
  - intros r p y. split; [apply rpy_mat | apply unit_quaternion_q, rpy_unit].
  - intros q Hq Ha v. rewrite <- rpy_mat. apply rpy_of_away; [now apply unit_quaternion_q | exact Ha].
  - intros. now apply rpy_round.
Qed.
Print Assumptions C53_rpy_exact_away_from_gimbal_lock.
Example C53_example : let q := @Q4 RA (3/5) 0 0 (4/5) in unit_quaternion q /\ Rabs (2 * (qw q * qy q - qx q * qz q)) < 99999 / 100000.
Proof. cbv zeta. unfold unit_quaternion. cbn [qx qy qz qw]. rnum. split; [field|]. rewrite Rabs_pos_eq; lra. Qed.

(** C54, refuted: a rotation about y by an angle whose sine is 0.99999 (or 1) comes back as
    a different rotation, because the pitch is replaced by the constant
    1.57079632679489661923, whose sine cannot be both. *)
Definition about_y (s : R) : @Rotation RA := yq (asin s).
Lemma about_y_row s : -1 <= s <= 1 -> unit_q (about_y s) /\ 2 * (qw (about_y s) * qy (about_y s) - qx (about_y s) * qz (about_y s)) = s.
Proof.
  intros H. split; [apply yq_unit|]. unfold about_y, yq, axis_q. cbn [qx qy qz qw vx vy vz]. rnum.
  replace (2 * (cos (asin s / 2) * (1 * sin (asin s / 2)) - 0 * sin (asin s / 2) * (0 * sin (asin s / 2)))) with (2 * (sin (asin s / 2) * cos (asin s / 2))) by ring.
  rewrite half_sincos, sin_asin by lra. field.
Qed.
Lemma near_lock_pitch q : 99999 / 100000 <= 2 * (qw q * qy q - qx q * qz q) -> vy (getRPY q) = Q2R (157079632679489661923 # 100000000000000000000).
Proof.
  intros H. unfold getRPY. rnum. rewrite Q2R_99, Q2R_m99.
  replace (-2 * (qx q * qz q - qw q * qy q)) with (2 * (qw q * qy q - qx q * qz q)) by ring. unfold Rleb.
  destruct (Rle_dec (2 * (qw q * qy q - qx q * qz q)) (- (99999 / 100000))); [lra|].
  destruct (Rle_dec (99999 / 100000) (2 * (qw q * qy q - qx q * qz q))); [reflexivity | lra].
Qed.
Theorem C54_rpy_near_gimbal_lock_refuted :
  exists q : @Rotation RA, unit_quaternion q /\ let v := getRPY q in Rot_rpy (vx v) (vy v) (vz v) <> quat_mat q.
Proof.
  set (L := Q2R (157079632679489661923 # 100000000000000000000)).
  assert (X : forall s, 99999 / 100000 <= s <= 1 -> sin L <> s ->
    exists q : @Rotation RA, unit_quaternion q /\ let v := getRPY q in Rot_rpy (vx v) (vy v) (vz v) <> quat_mat q).
  { intros s Hs N. destruct (about_y_row s ltac:(lra)) as [U E]. exists (about_y s). split; [now apply unit_quaternion_q|].
    cbv zeta. intros Z. apply (f_equal m31) in Z. rewrite Rot_rpy_is in Z. cbn [m31] in Z. destruct (quat_mat_row _ U) as (E31 & _).
    rewrite E31, E, near_lock_pitch in Z by (rewrite E; lra). fold L in Z. lra. }
  destruct (Req_dec (sin L) 1) as [E|E]; [apply (X (99999 / 100000)); lra | apply (X 1); lra].
Qed.
Print Assumptions C54_rpy_near_gimbal_lock_refuted.
