(** Quaternions against rotation matrices. *)
From Coq Require Import QArith Qreals String List Arith Lia Reals Lra.
From Verif Require Import Base Num Pose Urdf RealArith Spec_Robot Spec_Rot Pf_Real.
Import ListNotations.
Local Open Scope R_scope.

Lemma m_eq (a b : M33) : m11 a = m11 b -> m12 a = m12 b -> m13 a = m13 b -> m21 a = m21 b -> m22 a = m22 b -> m23 a = m23 b ->
  m31 a = m31 b -> m32 a = m32 b -> m33 a = m33 b -> a = b.
Proof. destruct a, b; simpl; intros; subst; reflexivity. Qed.
Ltac mproj := cbn [m11 m12 m13 m21 m22 m23 m31 m32 m33 hrot htrans].

Lemma unit_quaternion_q q : unit_quaternion q <-> unit_q q.
Proof. unfold unit_quaternion, unit_q, qn. split; intros H; rewrite <- H; rnum; ring. Qed.

Lemma mvec_mmul a b v : mvec (mmul a b) v = mvec a (mvec b v).
Proof. unfold mvec, mmul. mproj. apply v_eq; proj; rnum; ring. Qed.
Lemma mmul_assoc a b c : mmul (mmul a b) c = mmul a (mmul b c).
Proof. unfold mmul. apply m_eq; mproj; ring. Qed.
Lemma mmul_1l a : mmul mid a = a.
Proof. unfold mmul, mid. apply m_eq; mproj; ring. Qed.
Lemma mmul_1r a : mmul a mid = a.
Proof. unfold mmul, mid. apply m_eq; mproj; ring. Qed.

(** use the unit equation to eliminate w*w *)
Lemma quat_mat_rot q v : unit_q q -> q_rot q v = mvec (quat_mat q) v.
Proof.
  intros H. rewrite q_rot_unit by auto. unfold unit_q, qn in H. rnumin H. unfold rotu, q_mul, qconj, quat_mat, mvec. destruct q as [x y z w], v as [a b c]. cbn [qx qy qz qw vx vy vz] in *.
  assert (W : w * w = 1 - x * x - y * y - z * z) by lra. mproj.
  apply v_eq; proj; rnum; ring_simplify; repeat match goal with |- context [w ^ 2] => replace (w ^ 2) with (1 - x * x - y * y - z * z) by lra end; ring.
Qed.
Lemma quat_mat_mul a b : unit_q a -> unit_q b -> quat_mat (q_mul a b) = mmul (quat_mat a) (quat_mat b).
Proof.
  intros Ha Hb. pose proof (unit_mul _ _ Ha Hb) as Hab.
  assert (X : forall v, mvec (quat_mat (q_mul a b)) v = mvec (mmul (quat_mat a) (quat_mat b)) v).
  { intros v. rewrite mvec_mmul, <- !quat_mat_rot by auto. apply q_rot_mul; now apply unit_pos. }
  pose proof (X (@V3 RA 1 0 0)) as X1. pose proof (X (@V3 RA 0 1 0)) as X2. pose proof (X (@V3 RA 0 0 1)) as X3. clear X.
  generalize dependent (quat_mat (q_mul a b)). generalize (mmul (quat_mat a) (quat_mat b)). intros M N X1 X2 X3.
  pose proof (f_equal (@vx RA) X1) as A1. pose proof (f_equal (@vy RA) X1) as A2. pose proof (f_equal (@vz RA) X1) as A3.
  pose proof (f_equal (@vx RA) X2) as B1. pose proof (f_equal (@vy RA) X2) as B2. pose proof (f_equal (@vz RA) X2) as B3.
  pose proof (f_equal (@vx RA) X3) as C1. pose proof (f_equal (@vy RA) X3) as C2. pose proof (f_equal (@vz RA) X3) as C3.
  cbn [mvec vx vy vz] in *. rnumin A1. rnumin A2. rnumin A3. rnumin B1. rnumin B2. rnumin B3. rnumin C1. rnumin C2. rnumin C3.
  apply m_eq; lra.
Qed.
Lemma quat_mat_clear : quat_mat q_clear = mid.
Proof. unfold quat_mat, q_clear, mid. apply m_eq; mproj; proj; rnum; ring. Qed.

(** ** half angles *)
Lemma half_sin2 a : sin (a / 2) * sin (a / 2) = (1 - cos a) / 2.
Proof. replace a with (2 * (a / 2)) at 3 by field. rewrite cos_2a_sin. field. Qed.
Lemma half_cos2 a : cos (a / 2) * cos (a / 2) = (1 + cos a) / 2.
Proof. replace a with (2 * (a / 2)) at 3 by field. rewrite cos_2a_cos. field. Qed.
Lemma half_sincos a : sin (a / 2) * cos (a / 2) = sin a / 2.
Proof. replace a with (2 * (a / 2)) at 3 by field. rewrite sin_2a. field. Qed.

Definition axis_q (u : vec) (a : R) : quat := @Q4 RA (vx u * sin (a / 2)) (vy u * sin (a / 2)) (vz u * sin (a / 2)) (cos (a / 2)).
Lemma sc2 a : sin a * sin a + cos a * cos a = 1.
Proof. pose proof (sin2_cos2 a) as X. unfold Rsqr in X. exact X. Qed.
Lemma axis_q_unit u a : unit_vector u -> unit_q (axis_q u a).
Proof.
  unfold unit_vector, unit_q, qn, axis_q. intros H. proj. pose proof (sc2 (a / 2)) as X. rnumin H. rnum.
  generalize dependent (sin (a/2)). generalize dependent (cos (a/2)). intros c s X. destruct u as [x y z]. cbn [vx vy vz] in *.
  replace (c * c + x * s * (x * s) + y * s * (y * s) + z * s * (z * s)) with (c * c + (x * x + y * y + z * z) * (s * s)) by ring. rewrite H. lra.
Qed.
Lemma axis_q_pos u a : (vx u <> 0 \/ vy u <> 0 \/ vz u <> 0) -> 0 < qn (axis_q u a).
Proof.
  intros H. unfold qn, axis_q. proj. pose proof (sc2 (a / 2)) as X. rnum. rnumin H.
  generalize dependent (sin (a/2)). generalize dependent (cos (a/2)). intros c s X. destruct u as [x y z]. cbn [vx vy vz] in *.
  replace (c * c + x * s * (x * s) + y * s * (y * s) + z * s * (z * s)) with (c * c + (x * x + y * y + z * z) * (s * s)) by ring.
  assert (N : 0 < x * x + y * y + z * z).
  { assert (SQ : forall t : R, t <> 0 -> 0 < t * t) by (intros t Ht; pose proof (Rsqr_pos_lt t Ht) as Z; exact Z).
    pose proof (Rle_0_sqr x). pose proof (Rle_0_sqr y). pose proof (Rle_0_sqr z). unfold Rsqr in *.
    destruct H as [H|[H|H]]; apply SQ in H; lra. }
  pose proof (Rle_0_sqr c) as C. pose proof (Rle_0_sqr s) as S. unfold Rsqr in *. pose proof (Rmult_le_pos _ _ (Rlt_le _ _ N) S).
  destruct (Rle_lt_or_eq_dec _ _ C) as [|E]; [lra|]. assert (s * s = 1) by lra. rewrite H1. lra.
Qed.
Lemma skew2 u : mmul (skew u) (skew u) =
  mkM (- (vy u * vy u + vz u * vz u)) (vx u * vy u) (vx u * vz u)
      (vx u * vy u) (- (vx u * vx u + vz u * vz u)) (vy u * vz u)
      (vx u * vz u) (vy u * vz u) (- (vx u * vx u + vy u * vy u)).
Proof. destruct u as [x y z]. cbn [vx vy vz skew]. unfold mmul. cbn [m11 m12 m13 m21 m22 m23 m31 m32 m33 skew vx vy vz]. rnum. f_equal; ring. Qed.
Lemma Rodrigues_is u a : Rodrigues u a =
  mkM (1 - (1 - cos a) * (vy u * vy u + vz u * vz u)) ((1 - cos a) * (vx u * vy u) - sin a * vz u) ((1 - cos a) * (vx u * vz u) + sin a * vy u)
      ((1 - cos a) * (vx u * vy u) + sin a * vz u) (1 - (1 - cos a) * (vx u * vx u + vz u * vz u)) ((1 - cos a) * (vy u * vz u) - sin a * vx u)
      ((1 - cos a) * (vx u * vz u) - sin a * vy u) ((1 - cos a) * (vy u * vz u) + sin a * vx u) (1 - (1 - cos a) * (vx u * vx u + vy u * vy u)).
Proof.
  unfold Rodrigues. rewrite skew2. destruct u as [x y z]. unfold madd, mscale, mid. cbn [m11 m12 m13 m21 m22 m23 m31 m32 m33 skew vx vy vz]. rnum. f_equal; ring.
Qed.
Lemma axis_q_mat u a : unit_vector u -> quat_mat (axis_q u a) = Rodrigues u a.
Proof.
  intros _. rewrite Rodrigues_is. pose proof (half_sin2 a) as S2. pose proof (half_sincos a) as SC. unfold quat_mat, axis_q. destruct u as [x y z]. cbn [qx qy qz qw vx vy vz]. rnum.
  generalize dependent (sin (a/2)). intros s S2 SC. generalize dependent (cos (a/2)). intros c SC.
  replace (1 - cos a) with (2 * (s * s)) by lra. replace (sin a) with (2 * (s * c)) by lra. clear. f_equal; ring.
Qed.

(** ** roll, pitch, yaw *)
Lemma normalize_unit q : qn q = 1 -> q_normalize q = q.
Proof.
  intros H. unfold q_normalize. rnum. assert (E : sqrt (qx q * qx q + qy q * qy q + qz q * qz q + qw q * qw q) = 1).
  { replace (qx q * qx q + qy q * qy q + qz q * qz q + qw q * qw q) with 1 by (rewrite <- H; unfold qn; rnum; ring). apply sqrt_1. }
  rewrite E. unfold Reqb. destruct (Req_EM_T 1 0); [lra|]. destruct q. apply q_eq; proj; rnum; field.
Qed.
Definition xq (a : R) : quat := axis_q (@V3 RA 1 0 0) a.
Definition yq (a : R) : quat := axis_q (@V3 RA 0 1 0) a.
Definition zq (a : R) : quat := axis_q (@V3 RA 0 0 1) a.
Lemma xq_unit a : unit_q (xq a). Proof. apply axis_q_unit. unfold unit_vector. proj. rnum. ring. Qed.
Lemma yq_unit a : unit_q (yq a). Proof. apply axis_q_unit. unfold unit_vector. proj. rnum. ring. Qed.
Lemma zq_unit a : unit_q (zq a). Proof. apply axis_q_unit. unfold unit_vector. proj. rnum. ring. Qed.
Lemma setFromRPY_q r p y : @setFromRPY RA r p y = q_mul (zq y) (q_mul (yq p) (xq r)).
Proof.
  unfold setFromRPY. rnum.
  match goal with |- q_normalize ?q = _ => assert (E : q = q_mul (zq y) (q_mul (yq p) (xq r))) end.
  { unfold zq, yq, xq, axis_q, q_mul. apply q_eq; proj; rnum; ring. }
  rewrite E. apply normalize_unit. apply unit_mul; [apply zq_unit | apply unit_mul; [apply yq_unit | apply xq_unit]].
Qed.
Lemma rpy_unit r p y : unit_q (@setFromRPY RA r p y).
Proof. rewrite setFromRPY_q. apply unit_mul; [apply zq_unit | apply unit_mul; [apply yq_unit | apply xq_unit]]. Qed.
Lemma Rod_x a : Rodrigues (@V3 RA 1 0 0) a = Rot_x a.
Proof. rewrite Rodrigues_is. unfold Rot_x. cbn [vx vy vz]. rnum. f_equal; ring. Qed.
Lemma Rod_y a : Rodrigues (@V3 RA 0 1 0) a = Rot_y a.
Proof. rewrite Rodrigues_is. unfold Rot_y. cbn [vx vy vz]. rnum. f_equal; ring. Qed.
Lemma Rod_z a : Rodrigues (@V3 RA 0 0 1) a = Rot_z a.
Proof. rewrite Rodrigues_is. unfold Rot_z. cbn [vx vy vz]. rnum. f_equal; ring. Qed.
Lemma rpy_mat r p y : quat_mat (@setFromRPY RA r p y) = Rot_rpy r p y.
Proof.
  rewrite setFromRPY_q. rewrite !quat_mat_mul by auto using xq_unit, yq_unit, zq_unit, unit_mul. unfold Rot_rpy, xq, yq, zq.
  rewrite !axis_q_mat by (unfold unit_vector; proj; rnum; ring). now rewrite Rod_x, Rod_y, Rod_z.
Qed.
Lemma rpy_0 : @setFromRPY RA 0 0 0 = q_clear.
Proof.
  rewrite setFromRPY_q. unfold zq, yq, xq, axis_q, q_mul, q_clear. replace (0 / 2) with 0 by field. rewrite sin_0, cos_0. apply q_eq; proj; rnum; ring.
Qed.
