(** How the joint columns of Jacobians change with the base pose (lemmas for C115). *)
From Coq Require Import String List Arith Lia Bool Permutation Classical Reals Lra.
From Verif Require Import Base Num Pose DataStructure Urdf Kin Wrapper Spec_Robot Spec_Hist Spec_Load Spec_Jac Spec_Mass Spec_Rot Spec_Deriv Spec_Body Spec_Reach Spec_Column RealArith
  Pf_Base Pf_Data Inv Pf_FK Pf_Frame Pf_Rp Rep Pf_Ops Pf_Name Pf_Ctor Pf_Reach Pf_Jac Pf_Safe Pf_Pose Pf_Local Pf_Hist Pf_Wrap Pf_Mass Pf_Wrap2 Pf_Real Pf_Rot Pf_Unit Pf_Rpy Pf_Chain Pf_Deriv Pf_JacD Pf_Body Pf_ComD Pf_BaseD Pf_Rigid Pf_Reach2 Pf_Column.
Import ListNotations.
Local Open Scope m_scope.
Local Open Scope R_scope.

Lemma mvec_cross q (a b : vec) : unit_q q -> cross_product (mvec (quat_mat q) a) (mvec (quat_mat q) b) = mvec (quat_mat q) (cross_product a b).
Proof.
  intros U. destruct q as [x y z w], a as [a1 a2 a3], b as [b1 b2 b3]. unfold unit_q, qn in U. cbn [qx qy qz qw] in U.
  assert (E : x * x = 1 - w * w - y * y - z * z) by lra. clear U.
  unfold cross_product, mvec, quat_mat. cbn [m11 m12 m13 m21 m22 m23 m31 m32 m33 vx vy vz qx qy qz qw].
  apply v_eq; cbn [vx vy vz]; rnum; ring_simplify; replace (x ^ 4) with ((x * x) * (x * x)) by ring; replace (x ^ 3) with ((x * x) * x) by ring; replace (x ^ 2) with (x * x) by ring; rewrite !E; ring.
Qed.
Lemma mvec_clear (M : M33) : mvec M v_clear = v_clear.
Proof. unfold mvec, v_clear. apply v_eq; cbn [vx vy vz]; rnum; ring. Qed.
Lemma q_mul_zero (b : quat) : q_mul b (@Q4 RA 0 0 0 0) = @Q4 RA 0 0 0 0.
Proof. unfold q_mul. apply q_eq; cbn [qx qy qz qw]; rnum; ring. Qed.
Lemma q_mul_scale (b q : quat) (k : R) : q_mul b (qscale k q) = qscale k (q_mul b q).
Proof. unfold q_mul, qscale. apply q_eq; cbn [qx qy qz qw]; rnum; ring. Qed.
Lemma moved_position (B P : pose) : unit_q (rotation B) -> position (pose_transform B P) = v_add (mvec (quat_mat (rotation B)) (position P)) (position B).
Proof. intros U. cbn [pose_transform position]. now rewrite quat_mat_rot. Qed.

Lemma turn_sum (M : M33) (k tot a0 a1 a2 b0 b1 b2 s0 s1 s2 t0 t1 t2 : R) : @V3 RA b0 b1 b2 = mvec M (@V3 RA a0 a1 a2) ->
  @V3 RA (t0 / tot) (t1 / tot) (t2 / tot) = mvec M (@V3 RA (s0 / tot) (s1 / tot) (s2 / tot)) ->
  @V3 RA ((k * b0 + t0) / tot) ((k * b1 + t1) / tot) ((k * b2 + t2) / tot) = mvec M (@V3 RA ((k * a0 + s0) / tot) ((k * a1 + s1) / tot) ((k * a2 + s2) / tot)).
Proof.
  unfold mvec. cbn [vx vy vz]. rnum. intros K I. injection I as I1 I2 I3. injection K as K1 K2 K3. unfold Rdiv in *.
  apply v_eq; cbn [vx vy vz]; rewrite !Rmult_plus_distr_r; [rewrite I1, K1 | rewrite I2, K2 | rewrite I3, K3]; match goal with |- @eq _ ?a ?b => change (@eq Rdefinitions.R a b) end; ring.
Qed.

Section Turn.
Context (R : @Robot RA) (root : string) (sorted : list (string * option (@Inertial RA))) (jsorted : list (@UJoint RA)) (ms : list (string * @Inertial RA)) (mass : @num RA).
Context (s : @AState RA) (B : @Pose RA) (m0 m1 : @KM RA).
Context (AX : axes_ok (r_joints R)) (AD : added_ok (as_added s)) (UB : unit_q (rotation B)).
Notation s0 := (mkAS (as_added s) (as_angles s) pose_clear).
Notation s1 := (mkAS (as_added s) (as_angles s) B).
Context (HR0 : Rep R root sorted jsorted ms mass s0 m0) (HR1 : Rep R root sorted jsorted ms mass s1 m1).
Notation Q := (quat_mat (rotation B)).

Lemma pose_moves n P0 P1 : pose_at R root jsorted s0 n P0 -> pose_at R root jsorted s1 n P1 -> P1 = pose_transform B P0 /\ unit_q (rotation P0).
Proof.
  intros H0 H1. split.
  - apply (rep_pose_det _ _ _ _ _ _ _ _ HR1 n _ _ H1). unfold pose_at in *. cbn [as_added as_angles as_base] in *. apply fk_base; auto; [now apply axes_ok_nonzero | now apply unit_pos].
  - unfold pose_at in H0. cbn [as_added as_angles as_base] in H0. exact (fk_unit _ _ _ _ _ _ _ AX AD (unit_clear : unit_q (rotation pose_clear)) H0).
Qed.

Lemma column_turns n jids rt wb J0 J1 c : is_jacobian R root jsorted s0 rt n jids wb J0 -> is_jacobian R root jsorted s1 rt n jids wb J1 -> (c < length jids)%nat ->
  (forall k, In k jids -> (k < length jsorted)%nat) ->
  pcol J1 c = mvec Q (pcol J0 c) /\ (rt = XYZW -> qcol J1 c = q_mul (rotation B) (qcol J0 c)).
Proof.
  intros (_ & E0 & HE0 & HJ0 & _) (_ & E1 & HE1 & HJ1 & _) Lc Hk.
  destruct (lt_nth_error jids c Lc) as (k & Ek). destruct (lt_nth_error jsorted k (Hk k (nth_error_In _ _ Ek))) as (j & Ej).
  destruct (HJ0 c k j Ek Ej) as [Z0 G0]. destruct (HJ1 c k j Ek Ej) as [Z1 G1]. cbn [as_added] in *.
  destruct (classic (carries (r_joints R) (as_added s) j n)) as [Y|N].
  - destruct (G0 Y) as (C0 & HC0 & K0). destruct (G1 Y) as (C1 & HC1 & K1).
    destruct (pose_moves n E0 E1 HE0 HE1) as [-> UE]. destruct (pose_moves _ C0 C1 HC0 HC1) as [-> UC].
    assert (W : q_rot (rotation (pose_transform B C0)) (uj_axis j) = mvec Q (q_rot (rotation C0) (uj_axis j))).
    { cbn [pose_transform rotation]. rewrite q_rot_mul by (now apply unit_pos). apply quat_mat_rot. exact UB. }
    split.
    + rewrite (pcol_geometric _ _ _ _ _ _ K0), (pcol_geometric _ _ _ _ _ _ K1), W. rewrite !moved_position by exact UB.
      assert (D : v_sub (v_add (mvec Q (position E0)) (position B)) (v_add (mvec Q (position C0)) (position B)) = mvec Q (v_sub (position E0) (position C0))) by apply moved_diff.
      rewrite D, mvec_cross by exact UB. destruct (uj_type j); reflexivity.
    + intros ->. rewrite (qcol_geometric _ _ _ _ _ K0), (qcol_geometric _ _ _ _ _ K1), W.
      assert (X : q_derivative (q_inverse (rotation (pose_transform B E0))) (mvec Q (q_rot (rotation C0) (uj_axis j))) = q_mul (rotation B) (q_derivative (q_inverse (rotation E0)) (q_rot (rotation C0) (uj_axis j)))).
      { cbn [pose_transform rotation]. rewrite !q_derivative_mul by auto using unit_mul. rewrite q_mul_scale. f_equal. rewrite <- q_mul_assoc, world_axis_mul by exact UB. apply q_mul_assoc. }
      rewrite X. destruct (uj_type j); try reflexivity. now rewrite q_mul_zero.
  - split; [now rewrite (pcol_zeros _ _ _ (Z0 N)), (pcol_zeros _ _ _ (Z1 N)), mvec_clear|]. intros _. now rewrite (qcol_zeros _ _ _ (Z0 N)), (qcol_zeros _ _ _ (Z1 N)), q_mul_zero.
Qed.

Lemma com_column_turns jids wb J0 J1 c : is_com_jacobian R root jsorted ms s0 jids wb J0 -> is_com_jacobian R root jsorted ms s1 jids wb J1 -> (c < length jids)%nat ->
  (forall k, In k jids -> (k < length jsorted)%nat) -> pcol J1 c = mvec Q (pcol J0 c).
Proof.
  intros (Js0 & F0 & ->) (Js1 & F1 & ->) Lc Hk.
  assert (SH : forall st Js, Forall2 (fun ni J => is_jacobian R root jsorted st IGNORE (fst ni ++ "_com")%string jids wb J) ms Js ->
    forall w, In w (map (fun x => (in_mass (snd (fst x)), snd x)) (combine ms Js)) -> has_shape 3 (length jids + (if wb then 6 else 0))%nat (snd w)).
  { intros st Js F w I. apply in_map_iff in I. destruct I as ([ni J] & <- & I). cbn [snd fst]. apply in_combine_r in I. destruct (Forall2_in_r _ _ _ _ F I) as (ni' & _ & (HS & _)). exact HS. }
  unfold pcol at 1 2. rewrite !entry_mean by (try lia; eapply SH; eauto).
  assert (Sum : forall tot l Js0 Js1, Forall2 (fun ni J => is_jacobian R root jsorted s0 IGNORE (fst ni ++ "_com")%string jids wb J) l Js0 ->
     Forall2 (fun ni J => is_jacobian R root jsorted s1 IGNORE (fst ni ++ "_com")%string jids wb J) l Js1 ->
     let S (r : nat) (Js : list (@mat RA)) := rsum (fun w => fst w * entry (snd w) r c) (map (fun x : string * @Inertial RA * @mat RA => (in_mass (snd (fst x)), snd x)) (combine l Js)) / tot in
     @V3 RA (S 0%nat Js1) (S 1%nat Js1) (S 2%nat Js1) = mvec Q (@V3 RA (S 0%nat Js0) (S 1%nat Js0) (S 2%nat Js0))).
  { clear F0 F1 Js0 Js1. intros tot. induction l as [|ni l IH]; intros Js0 Js1 F0 F1.
    - cbn. replace (0 / tot) with 0 by (unfold Rdiv; ring). unfold mvec. apply v_eq; cbn [vx vy vz]; rnum; ring.
    - inversion F0 as [|? A0 ? As0 V0 G0]; inversion F1 as [|? A1 ? As1 V1 G1]; subst. specialize (IH As0 As1 G0 G1).
      destruct (column_turns _ _ _ _ _ _ c V0 V1 Lc Hk) as [K _]. cbv zeta in *. cbn [combine map rsum fold_right fst snd] in *. unfold pcol, rsum in *.
      exact (turn_sum Q _ _ _ _ _ _ _ _ _ _ _ _ _ _ K IH). }
  exact (Sum (mass_sum ms) ms Js0 Js1 F0 F1).
Qed.
End Turn.
