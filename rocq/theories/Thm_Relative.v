(** C106: how one link is placed relative to another. *)
From Coq Require Import QArith String List Arith Lia Bool Permutation Reals Lra.
From Verif Require Import Base Num Pose DataStructure Urdf Kin Wrapper Spec_Robot Spec_Hist Spec_Load Spec_Jac Spec_Mass Spec_Rot Spec_Body Spec_Relative
  RealArith Pf_Base Pf_Data Inv Pf_FK Pf_Frame Pf_Rp Rep Pf_Ops Pf_Name Pf_Reach Pf_Jac Pf_Safe Pf_Pose Pf_Local Pf_Hist Pf_Wrap Pf_Mass Pf_Wrap2 Pf_Total
  Pf_Stale Pf_Real Pf_Rot Pf_Unit Pf_Rpy Pf_Chain Pf_Deriv Pf_BaseD Pf_Body Pf_Rigid Pf_Relative Ex_Robot Ex_Slider Ex_Wheel Thm_Fk Thm_Real Thm_Deriv Thm_Rigid.
Import ListNotations.
Local Open Scope m_scope.
Local Open Scope R_scope.

(** C106.  Joints that carry both links or neither of them, and the base, are set to anything; the
    pose of the second link in the frame of the first one does not change, nor does their distance. *)
Theorem C106_relative_pose_needs_only_joints_between :
  forall tinyxml text R root sorted jsorted ops m,
    @reached RA tinyxml text R root sorted jsorted ops m -> clean ops = true -> unit_axes R -> unit_bases ops ->
    forall i1 i2 n1 n2, nth_error (get_link_names m) i1 = Some n1 -> nth_error (get_link_names m) i2 = Some n2 ->
    forall jids qs B ma mb, (forall k, In k jids -> (k < length (get_joint_names m))%nat) ->
      (forall k j, In k jids -> nth_error jsorted k = Some j ->
         (carries (r_joints R) (as_added (after sorted jsorted ops)) j n1 <-> carries (r_joints R) (as_added (after sorted jsorted ops)) j n2)) ->
      unit_quaternion (rotation B) ->
      set_joint_angles jids qs m = (ma, Ok tt) -> set_base_pose B ma = (mb, Ok tt) ->
    forall m1 m2 m3 m4 P1 P2 P1' P2',
      get_link_pose i1 m = (m1, Ok P1) -> get_link_pose i2 m = (m2, Ok P2) ->
      get_link_pose i1 mb = (m3, Ok P1') -> get_link_pose i2 mb = (m4, Ok P2') ->
      seen_from P1' P2' = seen_from P1 P2 /\
      vdot (v_sub (position P2') (position P1')) (v_sub (position P2') (position P1')) = vdot (v_sub (position P2) (position P1)) (v_sub (position P2) (position P1)).
Proof.
  intros tinyxml text R root sorted jsorted ops m Hr Hc Hu Hb i1 i2 n1 n2 En1 En2 jids qs B ma mb Hk Ht HB Ea Eb m1 m2 m3 m4 P1 P2 P1' P2' X1 X2 X3 X4.
  apply unit_quaternion_q in HB.
  assert (Hra : reached tinyxml text R root sorted jsorted (ops ++ [Op_set_joint_angles jids qs]) ma)
    by (apply (reached_run _ _ _ _ _ _ _ _ _ _ Hr); cbn [run exec]; rewrite Ea; reflexivity).
  assert (Hrb : reached tinyxml text R root sorted jsorted ((ops ++ [Op_set_joint_angles jids qs]) ++ [Op_set_base_pose B]) mb)
    by (apply (reached_run _ _ _ _ _ _ _ _ _ _ Hra); cbn [run exec]; rewrite Eb; reflexivity).
  destruct (reached_Rep _ _ _ _ _ _ _ _ Hr) as [HR HC]. specialize (HC Hc). destruct (reached_Rep _ _ _ _ _ _ _ _ Hra) as [HRa _]. destruct (reached_Rep _ _ _ _ _ _ _ _ Hrb) as [HRb HCb].
  assert (Cb : clean ((ops ++ [Op_set_joint_angles jids qs]) ++ [Op_set_base_pose B]) = true) by (unfold clean; rewrite fold_left_app; reflexivity). specialize (HCb Cb).
  assert (G : Good m) by (split; auto; apply HR). assert (Gb : Good mb) by (split; auto; apply HRb).
  rewrite !after_app in HRb. rewrite after_app in HRa. unfold abs_run in HRa, HRb. cbn [fold_left abs_step] in HRa, HRb. cbn [as_added as_angles as_base] in HRb.
  pose proof (after_ok sorted jsorted ops) as AD. pose proof (after_base_unit sorted jsorted ops Hb) as UB. set (s := after sorted jsorted ops) in *.
  pose proof (loaded_axes_ok _ _ _ _ (proj1 Hr) Hu) as AX. pose proof (axes_ok_nonzero _ AX) as NZ.
  rewrite (rep_all_links _ _ _ _ _ _ _ _ HR) in En1, En2. rewrite (rep_joint_count _ _ _ _ _ _ _ _ HR) in Hk.
  destruct (get_link_pose_ok m i1 m1 P1 G X1) as [Y1 _]. destruct (get_link_pose_ok m i2 m2 P2 G X2) as [Y2 _]. destruct (get_link_pose_ok mb i1 m3 P1' Gb X3) as [Y3 _]. destruct (get_link_pose_ok mb i2 m4 P2' Gb X4) as [Y4 _].
  pose proof (rep_pose_of' _ _ _ _ _ _ _ _ HR i1 n1 P1 En1 Y1) as F1. pose proof (rep_pose_of' _ _ _ _ _ _ _ _ HR i2 n2 P2 En2 Y2) as F2.
  pose proof (rep_pose_of' _ _ _ _ _ _ _ _ HRb i1 n1 P1' En1 Y3) as F3. pose proof (rep_pose_of' _ _ _ _ _ _ _ _ HRb i2 n2 P2' En2 Y4) as F4.
  assert (U1 : unit_q (rotation P1)) by exact (fk_unit _ _ _ _ _ _ _ AX AD UB F1). assert (U1' : unit_q (rotation P1')) by exact (fk_unit _ _ _ _ _ _ _ AX AD HB F3).
  (* the two links with the base at the origin *)
  destruct (fk_base_inv _ _ _ _ _ _ _ NZ AD (unit_pos _ HB) F3) as (D1 & HD1 & E1). destruct (fk_base_inv _ _ _ _ _ _ _ NZ AD (unit_pos _ HB) F4) as (D2 & HD2 & E2).
  assert (V1 : unit_q (rotation D1)) by exact (fk_unit _ _ _ _ _ _ _ AX AD (unit_clear : unit_q (rotation pose_clear)) HD1).
  assert (V2 : unit_q (rotation D2)) by exact (fk_unit _ _ _ _ _ _ _ AX AD (unit_clear : unit_q (rotation pose_clear)) HD2).
  pose proof (fk_base _ _ _ _ _ _ _ NZ AD (unit_pos _ UB) HD1) as K1. pose proof (fk_base _ _ _ _ _ _ _ NZ AD (unit_pos _ UB) HD2) as K2.
  assert (S : seen_from P1' P2' = seen_from P1 P2).
  { transitivity (seen_from (pose_transform (as_base s) D1) (pose_transform (as_base s) D2)).
    - rewrite E1, E2. rewrite !seen_from_moved by assumption. reflexivity.
    - apply (relative_assign R root sorted jsorted _ _ (tree_joints _ _ (ld_tree _ _ _ _ (proj1 Hr))) AX n1 n2 jids qs s m P1 P2 _ _ HR AD UB); auto.
      + eapply nth_error_In; eauto.
      + eapply nth_error_In; eauto.
      + intros k I. destruct (lt_nth_error _ _ (Hk k I)) as (j & Ej). exists j. split; [exact Ej|]. exact (Ht k j I Ej). }
  split; [exact S|]. rewrite !seen_from_offset by assumption. rewrite S. rewrite !vdot_mvec, <- !mvec_mmul.
  destruct (quat_rotation _ U1) as (_ & O1 & _). destruct (quat_rotation _ U1') as (_ & O1' & _). now rewrite O1, O1', !mvec_id.
Qed.
Print Assumptions C106_relative_pose_needs_only_joints_between.

(** the slider with a tip fixed on its car: the slider and the base are moved, car and tip keep their places relative to each other *)
Definition rl_ops : list (@op RA) := [Op_add_new_link "tip"%string 1 (@V3 RA n0 n1 n0) (@V3 RA n0 n0 n0)].
Lemma rel_go (m0 : @KM RA) ops jids qs B i1 i2 :
  is_some (match run ops m0 with
           | Some m => match set_joint_angles jids qs m with
             | (ma, Ok tt) => match set_base_pose B ma with
               | (mb, Ok tt) => match answer (get_link_pose i1 m), answer (get_link_pose i2 m), answer (get_link_pose i1 mb), answer (get_link_pose i2 mb) with
                 | Some _, Some _, Some _, Some _ => Some tt | _, _, _, _ => None end
               | _ => None end
             | _ => None end
           | None => None end) = true ->
  exists m ma mb m1 m2 m3 m4 P1 P2 P1' P2', run ops m0 = Some m /\ set_joint_angles jids qs m = (ma, Ok tt) /\ set_base_pose B ma = (mb, Ok tt) /\
    get_link_pose i1 m = (m1, Ok P1) /\ get_link_pose i2 m = (m2, Ok P2) /\ get_link_pose i1 mb = (m3, Ok P1') /\ get_link_pose i2 mb = (m4, Ok P2').
Proof.
  destruct (run ops m0) as [m|]; [|discriminate]. destruct (set_joint_angles jids qs m) as [ma [[]|e|u|]] eqn:Ea; try discriminate.
  destruct (set_base_pose B ma) as [mb [[]|e|u|]] eqn:Eb; try discriminate.
  destruct (answer (get_link_pose i1 m)) as [P1|] eqn:A1; [|discriminate]. destruct (answer (get_link_pose i2 m)) as [P2|] eqn:A2; [|discriminate].
  destruct (answer (get_link_pose i1 mb)) as [P3|] eqn:A3; [|discriminate]. destruct (answer (get_link_pose i2 mb)) as [P4|] eqn:A4; [|discriminate].
  apply answer_ok in A1, A2, A3, A4. destruct A1 as (m1 & A1). destruct A2 as (m2 & A2). destruct A3 as (m3 & A3). destruct A4 as (m4 & A4).
  intros _. exists m, ma, mb, m1, m2, m3, m4, P1, P2, P3, P4. auto 10.
Qed.
Example C106_example : exists m ma mb m1 m2 m3 m4 P1 P2 P1' P2',
  reached sl_tinyxml ex_text sl_R "base" sl_sorted sl_jsorted rl_ops m /\ clean rl_ops = true /\ unit_axes sl_R /\ unit_bases rl_ops /\
  nth_error (get_link_names m) 1 = Some "car"%string /\ nth_error (get_link_names m) 4 = Some "tip"%string /\
  (forall k j, In k [0%nat] -> nth_error sl_jsorted k = Some j ->
     (carries (r_joints sl_R) (as_added (after sl_sorted sl_jsorted rl_ops)) j "car" <-> carries (r_joints sl_R) (as_added (after sl_sorted sl_jsorted rl_ops)) j "tip")) /\
  unit_quaternion (rotation rg_base) /\ set_joint_angles [0%nat] [n2] m = (ma, Ok tt) /\ set_base_pose rg_base ma = (mb, Ok tt) /\
  get_link_pose 1 m = (m1, Ok P1) /\ get_link_pose 4 m = (m2, Ok P2) /\ get_link_pose 1 mb = (m3, Ok P1') /\ get_link_pose 4 mb = (m4, Ok P2').
Proof.
  destruct (rel_go sl_m0 rl_ops [0%nat] [n2] rg_base 1 4 ltac:(vm_compute; reflexivity)) as (m & ma & mb & m1 & m2 & m3 & m4 & P1 & P2 & P1' & P2' & E & Ea & Eb & A1 & A2 & A3 & A4).
  exists m, ma, mb, m1, m2, m3, m4, P1, P2, P1', P2'. pose proof (sl_reached _ _ E) as Hr. split; [exact Hr|]. split; [reflexivity|]. split; [exact sl_unit|].
  split; [intros p [I|[]]; discriminate I|]. destruct (reached_Rep _ _ _ _ _ _ _ _ Hr) as [HR _]. rewrite (rep_all_links _ _ _ _ _ _ _ _ HR). split; [reflexivity|]. split; [reflexivity|].
  split; [|split; [apply unit_quaternion_q; apply (rpy_unit n1 n0 n0)|auto 10]].
  intros k j [<-|[]] Ej. injection Ej as <-. rewrite <- sl_child. split; intros _; [|constructor].
  apply (carries_added _ _ _ _ (uj_child sl_j) (mkPose (@V3 RA n0 n1 n0) (setFromRPY n0 n0 n0))); [|constructor].
  rewrite sl_child. cbn. auto.
Qed.
