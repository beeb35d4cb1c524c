(** C10-C15: the Jacobian's columns are derivatives of what is reported for the link, in
    exact arithmetic. *)
From Coq Require Import String List Arith Lia Bool Permutation Reals Lra.
From Verif Require Import Base Num Pose DataStructure Urdf Kin Wrapper Spec_Robot Spec_Hist Spec_Load Spec_Jac Spec_Rot Spec_Deriv RealArith
  Pf_Base Pf_Data Inv Pf_FK Pf_Frame Pf_Rp Rep Pf_Ops Pf_Name Pf_Ctor Pf_Reach Pf_Jac Pf_Safe Pf_Pose Pf_Real Pf_Rot Pf_Unit Pf_Rpy Pf_Deriv Pf_JacD Pf_BaseD Ex_Robot Ex_Slider Ex_Wheel Thm_Real.
Import ListNotations.
Local Open Scope m_scope.
Local Open Scope R_scope.

(** the poses reported for all angles form a function *)
Lemma joint_path (m : @KM RA) k i : (forall t, exists m1 P, (set_joint_angles [k] [t] ;;; get_link_pose i) m = (m1, Ok P)) ->
  exists P, forall t, pose_with_joint m k i t (P t).
Proof.
  intros H. exists (fun t => match snd ((set_joint_angles [k] [t] ;;; get_link_pose i) m) with Ok P => P | _ => pose_clear end).
  intros t. destruct (H t) as (m1 & P & E). exists m1. rewrite E. reflexivity.
Qed.

(** C10.  After any clean history, for any request: the entry of position row [r] in the
    column of joint [k] is the derivative of that coordinate at the current angle. *)
Theorem C10_position_rows_are_derivatives :
  forall tinyxml text R root sorted jsorted ops m,
    @reached RA tinyxml text R root sorted jsorted ops m -> clean ops = true -> unit_axes R -> unit_bases ops ->
    forall i jids rt wb m' J, (forall k, In k jids -> (k < length (get_joint_names m))%nat) ->
      get_jacobian i jids rt wb m = (m', Ok J) ->
      forall c k q0 P, nth_error jids c = Some k -> angle_is m k q0 -> (forall t, pose_with_joint m k i t (P t)) ->
      derivative_at (fun t => vx (position (P t)) : Rdefinitions.R) q0 (entry J 0 c) /\
      derivative_at (fun t => vy (position (P t)) : Rdefinitions.R) q0 (entry J 1 c) /\
      derivative_at (fun t => vz (position (P t)) : Rdefinitions.R) q0 (entry J 2 c).
Proof.
  intros tinyxml text R root sorted jsorted ops m Hr Hc Hu Hb i jids rt wb m' J Hk X c k q0 P Ec Ha HP.
  assert (D : forall r, (r < 3)%nat -> derivable_pt_lim (fun t => reported rt r (P t)) q0 (entry J r c)).
  { intros r Lr. apply (column_derives _ _ _ _ _ _ _ _ Hr Hc Hu Hb i jids rt wb m' J c k q0 P r Hk X Ec Ha HP).
    - destruct rt; simpl; lia.
    - intros _ L. lia. }
  split; [|split]; [exact (D 0%nat ltac:(lia))|exact (D 1%nat ltac:(lia))|exact (D 2%nat ltac:(lia))].
Qed.
Print Assumptions C10_position_rows_are_derivatives.

(** the tool's Jacobian for both joints of the example, which it depends on *)
Example C10_example : exists m, reached ex_tinyxml ex_text ex_R "base" ex_sorted ex_jsorted ex_ops m /\ clean ex_ops = true /\ unit_axes ex_R /\ unit_bases ex_ops /\
  (exists m' J, get_jacobian 3 [1; 0]%nat XYZW true m = (m', Ok J)) /\ (exists q0, angle_is m 1 q0) /\ (exists q0, angle_is m 0 q0) /\
  (exists P, forall t, pose_with_joint m 1 3 t (P t)) /\ (exists P, forall t, pose_with_joint m 0 3 t (P t)).
Proof.
  destruct ex_run as (m & E). exists m. split; [exact (ex_reached _ _ E)|]. split; [reflexivity|]. split; [exact ex_unit_axes|]. split; [exact ex_unit_bases|].
  split; [apply (observe_answer ex_ops (get_jacobian 3 [1; 0]%nat XYZW true) m E); vm_compute; reflexivity|].
  destruct (reached_Rep _ _ _ _ _ _ _ _ (ex_reached _ _ E)) as [HR _].
  assert (L : length (joint_angles m) = 2%nat).
  { rewrite (wf_angles m (rep_wf _ _ _ _ _ _ _ _ HR)). rewrite <- (Forall2_len _ _ _ (rep_joints _ _ _ _ _ _ _ _ HR)). reflexivity. }
  split; [exists (nth 1 (joint_angles m) n0); exact (Pf_Local.get_angles_spec [1]%nat m ltac:(intros j [<-|[]]; rewrite L; lia))|].
  split; [exists (nth 0 (joint_angles m) n0); exact (Pf_Local.get_angles_spec [0]%nat m ltac:(intros j [<-|[]]; rewrite L; lia))|].
  split; apply joint_path; intros t.
  - apply (observe_answer ex_ops (set_joint_angles [1]%nat [t] ;;; get_link_pose 3) m E). vm_compute. reflexivity.
  - apply (observe_answer ex_ops (set_joint_angles [0]%nat [t] ;;; get_link_pose 3) m E). vm_compute. reflexivity.
Qed.

(** C11. *)
Theorem C11_quaternion_rows_are_derivatives :
  forall tinyxml text R root sorted jsorted ops m,
    @reached RA tinyxml text R root sorted jsorted ops m -> clean ops = true -> unit_axes R -> unit_bases ops ->
    forall i jids wb m' J, (forall k, In k jids -> (k < length (get_joint_names m))%nat) ->
      get_jacobian i jids XYZW wb m = (m', Ok J) ->
      forall c k q0 P, nth_error jids c = Some k -> angle_is m k q0 -> (forall t, pose_with_joint m k i t (P t)) ->
      derivative_at (fun t => qx (rotation (P t)) : Rdefinitions.R) q0 (entry J 3 c) /\
      derivative_at (fun t => qy (rotation (P t)) : Rdefinitions.R) q0 (entry J 4 c) /\
      derivative_at (fun t => qz (rotation (P t)) : Rdefinitions.R) q0 (entry J 5 c) /\
      derivative_at (fun t => qw (rotation (P t)) : Rdefinitions.R) q0 (entry J 6 c).
Proof.
  intros tinyxml text R root sorted jsorted ops m Hr Hc Hu Hb i jids wb m' J Hk X c k q0 P Ec Ha HP.
  assert (D : forall r, (r < 7)%nat -> derivable_pt_lim (fun t => reported XYZW r (P t)) q0 (entry J r c)).
  { intros r Lr. apply (column_derives _ _ _ _ _ _ _ _ Hr Hc Hu Hb i jids XYZW wb m' J c k q0 P r Hk X Ec Ha HP).
    - exact Lr.
    - intros L. discriminate L. }
  split; [|split; [|split]]; [exact (D 3%nat ltac:(lia))|exact (D 4%nat ltac:(lia))|exact (D 5%nat ltac:(lia))|exact (D 6%nat ltac:(lia))].
Qed.
Print Assumptions C11_quaternion_rows_are_derivatives.
(** [C10_example] is an instance of the hypotheses *)

(** C12.  [2 (w y - x z)] is the sine of the pitch. *)
Theorem C12_rpy_rows_are_derivatives :
  forall tinyxml text R root sorted jsorted ops m,
    @reached RA tinyxml text R root sorted jsorted ops m -> clean ops = true -> unit_axes R -> unit_bases ops ->
    forall i jids wb m' J, (forall k, In k jids -> (k < length (get_joint_names m))%nat) ->
      get_jacobian i jids RPY wb m = (m', Ok J) ->
      forall c k q0 P, nth_error jids c = Some k -> angle_is m k q0 -> (forall t, pose_with_joint m k i t (P t)) ->
      (let q := rotation (P q0) in Rabs (2 * (qw q * qy q - qx q * qz q)) < 99999 / 100000 /\ vx (getRPY q) <> PI /\ vz (getRPY q) <> PI) ->
      derivative_at (fun t => vx (getRPY (rotation (P t))) : Rdefinitions.R) q0 (entry J 3 c) /\
      derivative_at (fun t => vy (getRPY (rotation (P t))) : Rdefinitions.R) q0 (entry J 4 c) /\
      derivative_at (fun t => vz (getRPY (rotation (P t))) : Rdefinitions.R) q0 (entry J 5 c).
Proof.
  intros tinyxml text R root sorted jsorted ops m Hr Hc Hu Hb i jids wb m' J Hk X c k q0 P Ec Ha HP Hreg.
  assert (D : forall r, (r < 6)%nat -> derivable_pt_lim (fun t => reported RPY r (P t)) q0 (entry J r c)).
  { intros r Lr. apply (column_derives _ _ _ _ _ _ _ _ Hr Hc Hu Hb i jids RPY wb m' J c k q0 P r Hk X Ec Ha HP); [exact Lr|]. intros _ _. exact Hreg. }
  split; [|split]; [exact (D 3%nat ltac:(lia))|exact (D 4%nat ltac:(lia))|exact (D 5%nat ltac:(lia))].
Qed.
Print Assumptions C12_rpy_rows_are_derivatives.

Lemma unit_no_bases ops : (forall p, ~ In (@Op_set_base_pose RA p) ops) -> unit_bases ops.
Proof. intros H p I. destruct (H p I). Qed.
Lemma getRPY_clear : getRPY (@q_clear RA) = @V3 RA 0 0 0.
Proof.
  rewrite <- rpy_0. apply rpy_round; try (pose proof PI_RGT_0; lra). rewrite sin_0, Rabs_R0. lra.
Qed.
(** a link turning about z, seen at angle 0 *)
Example C12_example : exists m P, reached wh_tinyxml ex_text wh_R "base" wh_sorted wh_jsorted [Op_set_joint_angles [0]%nat [0]] m /\
  clean [Op_set_joint_angles [0]%nat [0]] = true /\ unit_axes wh_R /\ unit_bases [Op_set_joint_angles [0]%nat [0]] /\
  (exists m' J, get_jacobian 1 [0]%nat RPY true m = (m', Ok J)) /\ angle_is m 0 0 /\ (forall t, pose_with_joint m 0 1 t (P t)) /\
  let q := rotation (P 0) in Rabs (2 * (qw q * qy q - qx q * qz q)) < 99999 / 100000 /\ vx (getRPY q) <> PI /\ vz (getRPY q) <> PI.
Proof.
  destruct (wh_goto 0) as (m & E & Ea). pose proof (wh_reached _ _ E) as Hr. exists m.
  assert (PE : forall t, exists m1 P, (set_joint_angles [0]%nat [t] ;;; get_link_pose 1) m = (m1, Ok P)).
  { intros t. apply (answer_at wh_m0 _ _ m E). vm_compute. reflexivity. }
  destruct (joint_path m 0 1 PE) as (P & HP). exists P. split; [exact Hr|]. split; [reflexivity|]. split; [exact wh_unit|].
  split; [apply unit_no_bases; intros p [I|[]]; discriminate I|].
  split; [apply (answer_at wh_m0 _ _ m E); vm_compute; reflexivity|].
  destruct (reached_Rep _ _ _ _ _ _ _ _ Hr) as [HR _]. rewrite Ea in HR. pose proof (rep_angles _ _ _ _ _ _ _ _ HR) as EA. cbn [as_angles wh_s] in EA.
  assert (An : angle_is m 0 0). { unfold angle_is. rewrite Pf_Local.get_angles_spec by (rewrite EA; intros j [<-|[]]; simpl; lia). rewrite EA. reflexivity. }
  split; [exact An|]. split; [exact HP|].
  assert (N : nth_error (get_link_names m) 1 = Some "hand"%string) by (rewrite (rep_all_links _ _ _ _ _ _ _ _ HR); reflexivity).
  pose proof (Pf_Chain.observed_pose _ _ _ _ _ _ _ _ 1 _ 0 0 (P 0) Hr ltac:(simpl; lia) N (HP 0)) as OP. rewrite Ea in OP. cbn [as_added as_angles as_base wh_s list_set] in OP.
  pose proof (wh_det 0 _ _ _ OP (wh_arm 0)) as EP. rewrite EP. cbn [rotation].
  assert (Q : axis_q (@V3 RA 0 0 1) 0 = q_clear).
  { unfold axis_q. replace (0 / 2) with 0 by field. rewrite sin_0, cos_0. unfold q_clear. apply q_eq; proj; rnum; ring. }
  rewrite Q, getRPY_clear. cbn [vx vz]. unfold q_clear. cbn [qx qy qz qw]. rnum. split; [|pose proof PI_RGT_0; split; lra].
  replace (2 * (1 * 0 - 0 * 0)) with 0 by ring. rewrite Rabs_R0. lra.
Qed.

(** C13.  The base translation columns (the first three after the joints'). *)
Theorem C13_base_translation_columns_exact :
  forall tinyxml text R root sorted jsorted ops m,
    @reached RA tinyxml text R root sorted jsorted ops m -> clean ops = true -> unit_axes R -> unit_bases ops ->
    let B := as_base (after sorted jsorted ops) in
    forall i n jids rt m' J, nth_error (get_link_names m) i = Some n -> (forall k, In k jids -> (k < length (get_joint_names m))%nat) ->
      get_jacobian i jids rt true m = (m', Ok J) ->
      forall b P, (b < 3)%nat -> (forall t, pose_with_base m i (mkPose (with_coord b t (position B)) (rotation B)) (P t)) ->
      forall r, (r < jac_rows rt)%nat ->
        entry J r (length jids + b) = (if Nat.eqb r b then 1 else 0) /\
        derivative_at (fun t => reported rt r (P t)) (coord b (position B)) (entry J r (length jids + b)).
Proof.
  intros tinyxml text R root sorted jsorted ops m Hr Hc Hu Hb B i n jids rt m' J En Hk X b P Lb HP r Lr.
  destruct (base_path _ _ _ _ _ _ _ _ Hr Hc Hu Hb i n jids rt m' J En Hk X) as (D & UD & _ & HD & HB).
  destruct (HB b Lb) as (Col & _ & _). rewrite entry_column, Col. split.
  { rewrite (nth_indep _ 0 ((fun r => if Nat.eqb r b then @n1 RA else n0) 0%nat)) by (rewrite map_length, seq_length; auto).
    rewrite (map_nth (fun r => if Nat.eqb r b then @n1 RA else n0)), seq_nth by auto. rewrite Nat.add_0_l. rnum. reflexivity. }
  apply (dext (fun t => reported rt r (pose_transform (mkPose (with_coord b t (position B)) (rotation B)) D))).
  - intros t. f_equal. symmetry. apply HD; [|apply HP]. cbn [rotation]. now apply after_base_unit.
  - now apply base_shift.
Qed.
Print Assumptions C13_base_translation_columns_exact.

Lemma base_fun (m : @KM RA) i (B : R -> Pose) : (forall t, exists m1 P, (set_base_pose (B t) ;;; get_link_pose i) m = (m1, Ok P)) ->
  exists P, forall t, pose_with_base m i (B t) (P t).
Proof.
  intros H. exists (fun t => match snd ((set_base_pose (B t) ;;; get_link_pose i) m) with Ok P => P | _ => pose_clear end).
  intros t. destruct (H t) as (m1 & P & E). exists m1. rewrite E. reflexivity.
Qed.
Example C13_example : exists m, reached ex_tinyxml ex_text ex_R "base" ex_sorted ex_jsorted ex_ops m /\ clean ex_ops = true /\ unit_axes ex_R /\ unit_bases ex_ops /\
  (exists m' J, get_jacobian 3 [1; 0]%nat XYZW true m = (m', Ok J)) /\
  forall b, exists P, forall t, let B := as_base (after ex_sorted ex_jsorted ex_ops) in pose_with_base m 3 (mkPose (with_coord b t (position B)) (rotation B)) (P t).
Proof.
  destruct ex_run as (m & E). exists m. split; [exact (ex_reached _ _ E)|]. split; [reflexivity|]. split; [exact ex_unit_axes|]. split; [exact ex_unit_bases|].
  split; [apply (observe_answer ex_ops (get_jacobian 3 [1; 0]%nat XYZW true) m E); vm_compute; reflexivity|].
  intros b. apply base_fun. intros t. cbv zeta. generalize (mkPose (with_coord b t (position (as_base (after ex_sorted ex_jsorted ex_ops)))) (rotation (as_base (after ex_sorted ex_jsorted ex_ops)))).
  intros B. apply (observe_answer ex_ops (set_base_pose B ;;; get_link_pose 3) m E). vm_compute. reflexivity.
Qed.

Lemma from_rpy_unit v : unit_q (from_rpy v).
Proof. unfold from_rpy. apply rpy_unit. Qed.
(** C14.  The base orientation was set from roll, pitch, yaw [v] (any roll and yaw) with the
    sine of the pitch below 0.99999 in absolute value. *)
Theorem C14_base_rotation_columns_approximate :
  forall tinyxml text R root sorted jsorted ops m,
    @reached RA tinyxml text R root sorted jsorted ops m -> clean ops = true -> unit_axes R -> unit_bases ops ->
    forall pos v, as_base (after sorted jsorted ops) = mkPose pos (from_rpy v) ->
      - (PI / 2) < vy v < PI / 2 -> Rabs (sin (vy v)) < 99999 / 100000 ->
    forall i n jids rt m' J, nth_error (get_link_names m) i = Some n -> (forall k, In k jids -> (k < length (get_joint_names m))%nat) ->
      get_jacobian i jids rt true m = (m', Ok J) ->
      forall b P, (b < 3)%nat -> (forall t, pose_with_base m i (mkPose pos (from_rpy (with_coord b t v))) (P t)) ->
      forall r, (r < 3)%nat -> exists d,
        derivative_at (fun t => coord r (position (P t))) (coord b v) d /\
        Rabs (entry J r (length jids + 3 + b) - d) <= 4 / 10000000 * dist3 (position (P (coord b v))) pos.
Proof.
  intros tinyxml text R root sorted jsorted ops m Hr Hc Hu Hb pos v EB Hp Hs i n jids rt m' J En Hk X b P Lb HP r Lr.
  destruct (base_path _ _ _ _ _ _ _ _ Hr Hc Hu Hb i n jids rt m' J En Hk X) as (D & UD & _ & HD & HB).
  destruct (HB b Lb) as (_ & Col & Inv). rewrite EB in Col, Inv.
  assert (EP : forall t, P t = pose_transform (mkPose pos (from_rpy (with_coord b t v))) D) by (intros t; apply HD; [apply from_rpy_unit | apply HP]).
  destruct (base_turn_error pos v D b r rt Lb Lr UD Hp Hs Inv) as (d & H1 & H2). exists d. split.
  - apply (dext (fun t => reported rt r (pose_transform (mkPose pos (from_rpy (with_coord b t v))) D))); [|exact H1].
    intros t. rewrite EP. unfold reported, link_row. destruct r as [|[|[|r]]]; [reflexivity..|lia].
  - rewrite entry_column, Col, EP, with_coord_same. exact H2.
Qed.
Print Assumptions C14_base_rotation_columns_approximate.

(** the slider at displacement 1 with its base turned to roll, pitch, yaw [v] *)
Definition sl_turned (v : @Vector3 RA) : list op := [Op_set_joint_angles [0]%nat [1]; Op_set_base_pose (mkPose v_clear (from_rpy v))].
Lemma sl_unit : unit_axes sl_R.
Proof. intros j I _. rewrite (sl_in j I), sl_axis. unfold unit_vector. cbn [vx vy vz]. rnum. ring. Qed.
Lemma sl_turned_bases v : unit_bases (sl_turned v).
Proof. intros p [I|[I|[]]]; [discriminate I|]. inversion I. cbn [rotation]. apply unit_quaternion_q, from_rpy_unit. Qed.
Lemma sl_turned_after v : after sl_sorted sl_jsorted (sl_turned v) = mkAS (as_added (sl_s 1)) [1] (mkPose v_clear (from_rpy v)).
Proof. unfold after. rewrite sl_initial. reflexivity. Qed.
Lemma sl_turned_names v m : run (sl_turned v) sl_m0 = Some m -> get_link_names m = ["base"; "car"; "base_com"; "car_com"]%string.
Proof.
  intros E. destruct (reached_Rep _ _ _ _ _ _ _ _ (sl_reached _ _ E)) as [HR _]. rewrite (rep_all_links _ _ _ _ _ _ _ _ HR), sl_turned_after. reflexivity.
Qed.
Lemma sl_turned_ex v i rt : (i < 2)%nat -> exists m, run (sl_turned v) sl_m0 = Some m /\ (exists m' J, get_jacobian i [] rt true m = (m', Ok J)) /\
  forall b, exists P, forall t, pose_with_base m i (mkPose v_clear (from_rpy (with_coord b t v))) (P t).
Proof.
  intros Li. unfold sl_turned. generalize (mkPose v_clear (from_rpy v)). intros B0.
  assert (X : exists m, run [Op_set_joint_angles [0]%nat [1]; Op_set_base_pose B0] sl_m0 = Some m) by (apply is_some_ex; vm_compute; reflexivity).
  destruct X as (m & E). exists m. split; [exact E|]. split.
  - apply (answer_at sl_m0 _ _ m E). destruct i as [|[|i]]; [| |lia]; destruct rt; vm_compute; reflexivity.
  - intros b. apply base_fun. intros t. generalize (mkPose v_clear (from_rpy (with_coord b t v))). intros B.
    apply (answer_at sl_m0 _ _ m E). destruct i as [|[|i]]; [| |lia]; vm_compute; reflexivity.
Qed.

Example C14_example : let v := @V3 RA 5 1 7 in exists m, reached sl_tinyxml ex_text sl_R "base" sl_sorted sl_jsorted (sl_turned v) m /\ clean (sl_turned v) = true /\
  unit_axes sl_R /\ unit_bases (sl_turned v) /\ as_base (after sl_sorted sl_jsorted (sl_turned v)) = mkPose v_clear (from_rpy v) /\
  - (PI / 2) < vy v < PI / 2 /\ Rabs (sin (vy v)) < 99999 / 100000 /\ nth_error (get_link_names m) 1 = Some "car"%string /\
  (exists m' J, get_jacobian 1 [] RPY true m = (m', Ok J)) /\
  forall b, exists P, forall t, pose_with_base m 1 (mkPose v_clear (from_rpy (with_coord b t v))) (P t).
Proof.
  intros v. destruct (sl_turned_ex v 1 RPY ltac:(lia)) as (m & E & HJ & HP). exists m. split; [exact (sl_reached _ _ E)|]. split; [reflexivity|].
  split; [exact sl_unit|]. split; [apply sl_turned_bases|]. split; [now rewrite sl_turned_after|]. cbn [vy v].
  pose proof PI2_3_2. split; [unfold v; cbn [vy]; lra|]. split.
  { unfold v. cbn [vy]. rewrite Rabs_pos_eq by (apply sin_ge_0; lra). pose proof (sin2_cos2 1) as Q. unfold Rsqr in Q.
    assert (C : 1 / 4 < cos 1) by (destruct (cos_poly 1 ltac:(lra)) as [C _]; lra). assert (S : 0 <= sin 1) by (apply sin_ge_0; lra). nra. }
  split; [now rewrite (sl_turned_names v m E)|]. split; assumption.
Qed.

(** C15, refuted.  [off_by rt r b v e]: some robot's base is at roll, pitch, yaw [v] and the
    entry in row [r] of base rotation column [b] misses the derivative by at least [e]. *)
Definition off_by (rt : RotationType) (r b : nat) (v : @Vector3 RA) (e : R) : Prop :=
  exists tinyxml text R root sorted jsorted ops m pos i jids m' J P d,
    reached tinyxml text R root sorted jsorted ops m /\ clean ops = true /\ unit_axes R /\ unit_bases ops /\
    as_base (after sorted jsorted ops) = mkPose pos (from_rpy v) /\ get_jacobian i jids rt true m = (m', Ok J) /\
    (forall t, pose_with_base m i (mkPose pos (from_rpy (with_coord b t v))) (P t)) /\
    derivative_at (fun t => reported rt r (P t)) (coord b v) d /\
    e <= Rabs (entry J r (length jids + 3 + b) - d).

Lemma setFromRPY_z (y : R) : @setFromRPY RA 0 0 y = @Q4 RA 0 0 (sin (y / 2)) (cos (y / 2)).
Proof.
  rewrite setFromRPY_q. unfold zq, yq, xq, axis_q, q_mul. replace (0 / 2) with 0 by field. rewrite sin_0, cos_0. apply q_eq; proj; rnum; ring.
Qed.
Lemma getRPY_flipped : getRPY (@Q4 RA 0 0 0 (-1)) = @V3 RA 0 0 0.
Proof.
  rewrite getRPY_away; unfold away; cbn [qx qy qz qw]; [|replace (2 * (-1 * 0 - 0 * 0)) with 0 by ring; rewrite Rabs_R0; lra].
  replace (2 * (0 * 0 + -1 * 0)) with 0 by ring. replace (-1 * -1 - 0 * 0 - 0 * 0 + 0 * 0) with 1 by ring.
  replace (2 * (-1 * 0 - 0 * 0)) with 0 by ring. replace (-1 * -1 + 0 * 0 - 0 * 0 - 0 * 0) with 1 by ring.
  rewrite asin_0. unfold ratan2. destruct (Rlt_dec 0 1) as [_|]; [|lra]. replace (0 / 1) with 0 by field. rewrite atan_0. reflexivity.
Qed.

(** at yaw 2 pi the quaternion column is off by ten million *)
Lemma off_yaw : off_by XYZW 6 2 (@V3 RA 0 0 (2 * PI)%R) 10000000.
Proof.
  set (v := @V3 RA 0 0 (2 * PI)%R). destruct (sl_turned_ex v 0 XYZW ltac:(lia)) as (m & E & (m' & J & HJ) & HP). destruct (HP 2%nat) as (P & HP2).
  assert (Nm : nth_error (get_link_names m) 0 = Some "base"%string) by now rewrite (sl_turned_names v m E).
  destruct (base_path _ _ _ _ _ _ _ _ (sl_reached _ _ E) eq_refl sl_unit (sl_turned_bases v) 0 "base" [] XYZW m' J Nm ltac:(intros k []) HJ) as (D & UD & PD & HD & HB).
  rewrite sl_turned_after in PD, HB. cbn [as_added as_angles as_base] in PD, HB.
  assert (ED : D = pose_clear) by (apply (sl_det 1 "base"%string); [exact PD | apply sl_base]). subst D.
  exists sl_tinyxml, ex_text, sl_R, "base"%string, sl_sorted, sl_jsorted, (sl_turned v), m, v_clear, 0%nat, [], m', J, P, 0.
  split; [exact (sl_reached _ _ E)|]. split; [reflexivity|]. split; [exact sl_unit|]. split; [apply sl_turned_bases|].
  split; [now rewrite sl_turned_after|]. split; [exact HJ|]. split; [exact HP2|].
  assert (EP : forall t, P t = mkPose v_clear (from_rpy (@V3 RA 0 0 t))).
  { intros t. rewrite (HD (mkPose v_clear (from_rpy (@V3 RA 0 0 t))) (P t)); [apply pt_1r | apply from_rpy_unit | exact (HP2 t)]. }
  split.
  - apply (dext (fun t => cos (t / 2))).
    + intros t. rewrite EP. unfold reported, link_row, from_rpy. cbn [app nth rotation vx vy vz]. rewrite setFromRPY_z. reflexivity.
    + cbn [coord v vz]. replace 0 with (- sin (2 * PI / 2) * (1 / 2)) by (replace (2 * PI / 2) with PI by field; rewrite sin_PI; ring).
      apply (derivable_pt_lim_comp (fun t => t / 2) cos); [|apply derivable_pt_lim_cos].
      apply (dext (fun t => / 2 * t)); [intros; field|]. replace (1 / 2) with (/ 2 * 1) by field. apply derivable_pt_lim_scal, derivable_pt_lim_id.
  - destruct (HB 2%nat ltac:(lia)) as (_ & Col & Inv). rewrite entry_column, Col. clear Col HB HD HP HP2.
    assert (Q : from_rpy v = @Q4 RA 0 0 0 (-1)).
    { unfold from_rpy, v. cbn [vx vy vz]. rewrite setFromRPY_z. replace (2 * PI / 2) with PI by field. rewrite sin_PI, cos_PI. reflexivity. }
    assert (T : rotation (base_turned 2 (mkPose v_clear (from_rpy v)) (pose_transform (mkPose v_clear (from_rpy v)) pose_clear)) = @Q4 RA 0 0 (sin (1 / 10000000 / 2)) (cos (1 / 10000000 / 2))).
    { unfold base_turned. rewrite Inv. cbn [pose_transform rotation pose_clear position]. rewrite q_mul_1r, Q, getRPY_flipped. unfold v_add_at. cbn [vx vy vz].
      rewrite fd_eps_R. rnum. rewrite Rplus_0_l. apply setFromRPY_z. }
    unfold base_quotient, link_row. set (X := base_turned _ _ _) in *. set (Y := pose_transform (mkPose v_clear (from_rpy v)) pose_clear) in *.
    cbn [app combine map nth fst snd length]. rewrite T. assert (RY : rotation Y = @Q4 RA 0 0 0 (-1)) by (unfold Y; cbn [pose_transform rotation pose_clear]; rewrite q_mul_1r; exact Q).
    rewrite RY. cbn [qw]. rewrite fd_eps_R. rnum.
    assert (C : 0 <= cos (1 / 10000000 / 2)) by (pose proof PI2_3_2; apply cos_ge_0; lra).
    rewrite Rabs_pos_eq; [|apply Rmult_le_reg_r with (1 / 10000000); [lra|]; field_simplify; lra].
    apply Rmult_le_reg_r with (1 / 10000000); [lra|]. field_simplify; lra.
Qed.

(** at a pitch whose sine is 0.99999 a position entry is off by a thousand for a link one
    metre away *)
Lemma off_pitch : off_by IGNORE 0 0 (@V3 RA 0 (asin (99999 / 100000)%R) 0) 1000.
Proof.
  set (s := 99999 / 100000). set (v := @V3 RA 0 (asin s) 0). destruct (sl_turned_ex v 1 IGNORE ltac:(lia)) as (m & E & (m' & J & HJ) & HP). destruct (HP 0%nat) as (P & HP2).
  assert (Nm : nth_error (get_link_names m) 1 = Some "car"%string) by now rewrite (sl_turned_names v m E).
  destruct (base_path _ _ _ _ _ _ _ _ (sl_reached _ _ E) eq_refl sl_unit (sl_turned_bases v) 1 "car" [] IGNORE m' J Nm ltac:(intros k []) HJ) as (D & UD & PD & HD & HB).
  rewrite sl_turned_after in PD, HB. cbn [as_added as_angles as_base] in PD, HB.
  assert (ED : D = mkPose (V3 1 0 0) q_clear) by (apply (sl_det 1 "car"%string); [exact PD | apply sl_car]). subst D.
  exists sl_tinyxml, ex_text, sl_R, "base"%string, sl_sorted, sl_jsorted, (sl_turned v), m, v_clear, 1%nat, [], m', J, P, 0.
  split; [exact (sl_reached _ _ E)|]. split; [reflexivity|]. split; [exact sl_unit|]. split; [apply sl_turned_bases|].
  split; [now rewrite sl_turned_after|]. split; [exact HJ|]. split; [exact HP2|].
  assert (POS : forall u, vx (position (pose_transform (mkPose v_clear (from_rpy u)) (mkPose (V3 1 0 0) q_clear))) = cos (vz u) * cos (vy u)).
  { intros u. cbn [pose_transform position rotation]. rewrite quat_mat_rot by apply from_rpy_unit. unfold from_rpy. rewrite rpy_mat, Rot_rpy_is.
    destruct u as [r p y]. unfold mvec, v_add, v_clear. cbn [vx vy vz m11 m12 m13]. rnum. ring. }
  assert (EP : forall t, P t = pose_transform (mkPose v_clear (from_rpy (with_coord 0 t v))) (mkPose (V3 1 0 0) q_clear)).
  { intros t. apply (HD (mkPose v_clear (from_rpy (with_coord 0 t v)))); [apply from_rpy_unit | exact (HP2 t)]. }
  split.
  - apply deriv_const. intros t. rewrite !EP. unfold reported, link_row. cbn [nth app]. now rewrite !POS.
  - destruct (HB 0%nat ltac:(lia)) as (_ & Col & Inv). rewrite entry_column, Col. clear Col HB HD HP HP2.
    unfold base_quotient, link_row. cbn [app combine map nth fst snd length]. rewrite POS. unfold base_turned. rewrite Inv. cbn [position rotation].
    assert (U : unit_q (from_rpy v)) by apply from_rpy_unit.
    assert (Es : 2 * (qw (from_rpy v) * qy (from_rpy v) - qx (from_rpy v) * qz (from_rpy v)) = s).
    { destruct (quat_mat_row _ U) as (E31 & _). unfold from_rpy in E31 at 1. rewrite rpy_mat, Rot_rpy_is in E31. cbn [m31 vx vy vz v] in E31. rewrite sin_asin in E31 by (unfold s; lra). lra. }
    pose proof (near_lock_pitch (from_rpy v) ltac:(rewrite Es; unfold s; lra)) as Ep. set (g := getRPY (from_rpy v)) in *.
    assert (EY : vy (v_add_at 0 fd_eps g) = vy g) by reflexivity.
    match goal with |- context [setFromRPY ?a ?b ?c] => change (setFromRPY a b c) with (from_rpy (v_add_at 0 fd_eps g)) end.
    rewrite POS, EY, Ep, fd_eps_R. rnum. cbn [v vy vz]. rewrite cos_0, cos_asin by (unfold s; lra).
    pose proof (cos_L _ ltac:(instantiate (1 := Q2R (QArith_base.Qmake 157079632679489661923 100000000000000000000)); unfold Q2R; simpl; lra)) as CL.
    set (c := cos (Q2R _)) in *. match goal with |- context [cos (vz ?x) * c] => set (k := cos (vz x)) end. assert (Hk : -1 <= k <= 1) by apply COS_bound.
    assert (S4 : 4 / 1000 <= sqrt (1 - s²)) by (apply le_sqrt_sq; unfold s, Rsqr; lra).
    assert (CL1 : - (1 / 1000) <= c <= 1 / 1000) by (split; [pose proof (Rle_abs (- c)) as Z; rewrite Rabs_Ropp in Z; lra | pose proof (Rle_abs c); lra]). set (w := sqrt (1 - s²)) in *. clearbody c k w.
    assert (B : k * c - 1 * w <= - (3 / 1000)) by nra.
    replace ((k * c - 1 * w) / (1 / 10000000) - 0) with ((k * c - 1 * w) * 10000000) by field. set (z := k * c - 1 * w) in *. clearbody z. assert (Z : 1000 <= Rabs (z * 10000000)) by (rewrite Rabs_left1; lra). exact Z.
Qed.

Theorem C15_base_rotation_columns_bounded_refuted :
  off_by XYZW 6 2 (@V3 RA 0 0 (2 * PI)%R) 10000000 /\ off_by IGNORE 0 0 (@V3 RA 0 (asin (99999 / 100000)%R) 0) 1000.
Proof. split; [exact off_yaw | exact off_pitch]. Qed.
Print Assumptions C15_base_rotation_columns_bounded_refuted.
