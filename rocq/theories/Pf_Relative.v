(** The pose of one link seen from another; for C106. *)
From Coq Require Import QArith String List Arith Lia Bool Permutation Reals Lra.
From Verif Require Import Base Num Pose DataStructure Urdf Kin Wrapper Spec_Robot Spec_Hist Spec_Load Spec_Jac Spec_Rot Spec_Relative
  RealArith Pf_Base Pf_Data Inv Pf_FK Rep Pf_Ops Pf_Name Pf_Reach Pf_Pose Pf_Local Pf_Real Pf_Rot Pf_Unit Pf_Chain Pf_Deriv.
Import ListNotations.
Local Open Scope R_scope.

Lemma inv_pos (P : pose) : unit_q (rotation P) -> 0 < qn (rotation (pose_inverse P)).
Proof. intros U. unfold pose_inverse. cbn [rotation]. now apply qn_inverse_pos, unit_pos. Qed.
Lemma seen_from_moved (M D1 D2 : pose) : unit_q (rotation M) -> unit_q (rotation D1) -> unit_q (rotation D2) ->
  seen_from (pose_transform M D1) (pose_transform M D2) = seen_from D1 D2.
Proof.
  intros UM U1 U2. unfold seen_from. assert (U : unit_q (rotation (pose_transform M D1))) by (cbn [pose_transform rotation]; now apply unit_mul).
  assert (E : pose_transform M D2 = pose_transform (pose_transform M D1) (pose_transform (pose_inverse D1) D2)).
  { rewrite pt_assoc by (now apply unit_pos). f_equal. rewrite <- pt_assoc, pt_inverse_r, pt_1l by (try apply inv_pos; try apply unit_pos; auto). reflexivity. }
  rewrite E at 1. rewrite <- pt_assoc, pt_inverse_l, pt_1l by (try apply inv_pos; try apply unit_pos; auto). reflexivity.
Qed.
(** the offset, turned into the world *)
Lemma seen_from_offset (P1 P2 : pose) : unit_q (rotation P1) -> v_sub (position P2) (position P1) = mvec (quat_mat (rotation P1)) (position (seen_from P1 P2)).
Proof.
  intros U. assert (E : P2 = pose_transform P1 (seen_from P1 P2)).
  { unfold seen_from. rewrite <- pt_assoc, pt_inverse_r, pt_1l by (try apply inv_pos; try apply unit_pos; auto). reflexivity. }
  rewrite E at 1. cbn [pose_transform position]. rewrite quat_mat_rot by exact U. unfold v_sub, v_add. proj. apply v_eq; proj; rnum; ring.
Qed.

Section Relative.
Context (R : @Robot RA) (root : string) (sorted : list (string * option (@Inertial RA))) (jsorted : list (@UJoint RA)) (ms : list (string * @Inertial RA)) (mass : @num RA).
Context (ND : NoDup (map uj_name (r_joints R))) (AX : axes_ok (r_joints R)).
Variables n1 n2 : string.

Definition together (added : @Added RA) (j : UJoint) : Prop := carries (r_joints R) added j n1 <-> carries (r_joints R) added j n2.

Lemma relative_step s m k j t P1 P2 P1' P2' : Rep R root sorted jsorted ms mass s m -> added_ok (as_added s) -> unit_q (rotation (as_base s)) ->
  nth_error jsorted k = Some j -> together (as_added s) j ->
  let s' := mkAS (as_added s) (list_set (as_angles s) k t) (as_base s) in
  pose_at R root jsorted s n1 P1 -> pose_at R root jsorted s n2 P2 -> pose_at R root jsorted s' n1 P1' -> pose_at R root jsorted s' n2 P2' ->
  seen_from P1' P2' = seen_from P1 P2.
Proof.
  intros HR AD UB Ej Tg s' H1 H2 H1' H2'. pose proof (Rep_conf _ _ _ _ _ _ s m (list_set (as_angles s) k t) (as_base s) HR) as HR'. fold s' in HR'.
  assert (L : length (list_set (as_angles s) k t) = length (joint_angles m)) by (rewrite list_set_length, (rep_angles _ _ _ _ _ _ _ _ HR); reflexivity). specialize (HR' L).
  assert (Ij : In j (r_joints R)) by (apply (rep_jsorted _ _ _ _ _ _ _ _ HR); eapply nth_error_In; eauto).
  assert (En : nth_error (jnames jsorted) k = Some (uj_name j)) by (unfold jnames; rewrite nth_error_map', Ej; reflexivity).
  pose proof (jn_nodup _ _ _ _ _ _ _ _ HR) as JN. pose proof (rep_angles_length _ _ _ _ _ _ _ _ HR) as LA.
  destruct (by_name_set (jnames jsorted) (as_angles s) k (uj_name j) t JN LA En) as [Q1 Q2].
  destruct (Classical_Prop.classic (carries (r_joints R) (as_added s) j n1)) as [C|C].
  - assert (C2 : carries (r_joints R) (as_added s) j n2) by now apply Tg.
    destruct (parent_pose_ex _ _ _ _ _ _ _ _ HR j Ij) as (Pp & HPp).
    destruct (chain _ _ _ _ _ _ _ _ HR j n1 _ _ Pp ND AX AD UB Ij C HPp) as (D1 & U1 & HD1). destruct (chain _ _ _ _ _ _ _ _ HR j n2 _ _ Pp ND AX AD UB Ij C2 HPp) as (D2 & U2 & HD2).
    assert (UP : unit_q (rotation Pp)) by exact (fk_unit _ _ _ _ _ _ _ AX AD UB HPp).
    assert (UM : forall a, unit_q (rotation (pose_transform Pp (motion j a)))) by (intros a; cbn [pose_transform rotation]; apply unit_mul; auto; eapply motion_unit; eauto).
    rewrite (rep_pose_det _ _ _ _ _ _ _ _ HR _ _ _ H1 (HD1 _ (fun _ _ _ => eq_refl))), (rep_pose_det _ _ _ _ _ _ _ _ HR _ _ _ H2 (HD2 _ (fun _ _ _ => eq_refl))).
    rewrite (rep_pose_det _ _ _ _ _ _ _ _ HR' _ _ _ H1' (HD1 _ (fun j' _ N => Q2 _ N))), (rep_pose_det _ _ _ _ _ _ _ _ HR' _ _ _ H2' (HD2 _ (fun j' _ N => Q2 _ N))).
    rewrite !seen_from_moved by (first [apply UM | assumption]). reflexivity.
  - assert (C2 : ~ carries (r_joints R) (as_added s) j n2) by (intros C2; now apply C, Tg).
    assert (K : forall n P P', ~ carries (r_joints R) (as_added s) j n -> pose_at R root jsorted s n P -> pose_at R root jsorted s' n P' -> P' = P).
    { intros n P P' Nc H H'. apply (rep_pose_det _ _ _ _ _ _ _ _ HR' _ _ _ H'). unfold pose_at in *. cbn [s' as_added as_angles as_base].
      apply (fk_local _ _ _ _ _ _ _ _ H). intros j' I' C'. symmetry. apply Q2. intros E. apply (same_name_same_joint R) in E; auto. subst j'. auto. }
    now rewrite (K _ _ _ C H1 H1'), (K _ _ _ C2 H2 H2').
Qed.

Lemma relative_assign : forall jids qs s m P1 P2 P1' P2', Rep R root sorted jsorted ms mass s m -> added_ok (as_added s) -> unit_q (rotation (as_base s)) ->
  In n1 (all_links sorted s) -> In n2 (all_links sorted s) ->
  (forall k, In k jids -> exists j, nth_error jsorted k = Some j /\ together (as_added s) j) ->
  let s' := mkAS (as_added s) (assign jids qs (as_angles s)) (as_base s) in
  pose_at R root jsorted s n1 P1 -> pose_at R root jsorted s n2 P2 -> pose_at R root jsorted s' n1 P1' -> pose_at R root jsorted s' n2 P2' ->
  seen_from P1' P2' = seen_from P1 P2.
Proof.
  induction jids as [|k jids IH]; intros qs s m P1 P2 P1' P2' HR AD UB I1 I2 Hk s' H1 H2 H1' H2'.
  - assert (E : s' = s) by (unfold s', assign; destruct s; reflexivity). rewrite E in *. clear E.
    now rewrite (rep_pose_det _ _ _ _ _ _ _ _ HR _ _ _ H1' H1), (rep_pose_det _ _ _ _ _ _ _ _ HR _ _ _ H2' H2).
  - destruct qs as [|a qs].
    { assert (E : s' = s) by (unfold s', assign; destruct s; reflexivity). rewrite E in *. clear E.
      now rewrite (rep_pose_det _ _ _ _ _ _ _ _ HR _ _ _ H1' H1), (rep_pose_det _ _ _ _ _ _ _ _ HR _ _ _ H2' H2). }
    destruct (Hk k (or_introl eq_refl)) as (j & Ej & Tg).
    set (s1 := mkAS (as_added s) (list_set (as_angles s) k a) (as_base s)).
    assert (HR1 : Rep R root sorted jsorted ms mass s1 (set_base (as_base s) (set_angles (list_set (as_angles s) k a) m))).
    { apply (Rep_conf _ _ _ _ _ _ s m (list_set (as_angles s) k a) (as_base s) HR). rewrite list_set_length, (rep_angles _ _ _ _ _ _ _ _ HR). reflexivity. }
    destruct (rep_pose_ex _ _ _ _ _ _ _ _ HR1 n1 I1) as (P3 & H3). destruct (rep_pose_ex _ _ _ _ _ _ _ _ HR1 n2 I2) as (P4 & H4).
    transitivity (seen_from P3 P4).
    + apply (IH qs s1 _ P3 P4 P1' P2' HR1 AD UB I1 I2); auto. intros k' I'. apply Hk. now right.
    + apply (relative_step s m k j a P1 P2 P3 P4 HR AD UB Ej Tg); auto.
Qed.
End Relative.
