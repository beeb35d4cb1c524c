(** atan2 over the reals, and the conversions between quaternions and roll-pitch-yaw. *)
From Coq Require Import QArith Qreals String List Arith Lia Reals Lra.
From Verif Require Import Base Num Pose Urdf RealArith Spec_Robot Spec_Rot Pf_Real Pf_Rot.
Import ListNotations.
Local Open Scope R_scope.

(** ** atan2 *)
Lemma sqrt_div_pos (y x : R) : x <> 0 -> sqrt (1 + (y / x)²) = sqrt (x * x + y * y) / Rabs x.
Proof.
  intros H. replace (1 + (y / x)²) with ((x * x + y * y) / (x * x)) by (unfold Rsqr; field; auto).
  assert (0 < x * x) by (pose proof (Rsqr_pos_lt x H); unfold Rsqr in *; lra).
  rewrite sqrt_div; [|pose proof (Rle_0_sqr x); pose proof (Rle_0_sqr y); unfold Rsqr in *; lra|auto].
  f_equal. change (x * x) with (Rsqr x). apply sqrt_Rsqr_abs.
Qed.
Lemma rho_pos (x y : R) : x <> 0 \/ y <> 0 -> 0 < sqrt (x * x + y * y).
Proof.
  intros H. apply sqrt_lt_R0. pose proof (Rle_0_sqr x). pose proof (Rle_0_sqr y). unfold Rsqr in *.
  destruct H as [H|H]; apply Rsqr_pos_lt in H; unfold Rsqr in H; lra.
Qed.
Lemma cos_atan2 (y x : R) : x <> 0 \/ y <> 0 -> cos (ratan2 y x) = x / sqrt (x * x + y * y).
Proof.
  intros H. pose proof (rho_pos x y H) as HP. unfold ratan2. destruct (Rlt_dec 0 x) as [X|X].
  - rewrite cos_atan, sqrt_div_pos by lra. rewrite Rabs_pos_eq by lra. field. lra.
  - destruct (Rlt_dec x 0) as [X'|X'].
    + assert (E : cos (atan (y / x)) = - x / sqrt (x * x + y * y)).
      { rewrite cos_atan, sqrt_div_pos by lra. rewrite Rabs_left by lra. field. lra. }
      destruct (Rle_dec 0 y).
      * rewrite neg_cos, E. field. lra.
      * replace (atan (y / x) - PI) with (- (PI - atan (y / x))) by ring. rewrite cos_neg, Rtrigo_facts.cos_pi_minus, E. field. lra.
    + assert (x = 0) by lra. subst x. destruct (Rlt_dec 0 y); [rewrite cos_PI2; field; lra|]. destruct (Rlt_dec y 0).
      * rewrite cos_neg, cos_PI2. field. lra.
      * exfalso. destruct H; [lra|]. apply H. lra.
Qed.
Lemma sin_atan2 (y x : R) : x <> 0 \/ y <> 0 -> sin (ratan2 y x) = y / sqrt (x * x + y * y).
Proof.
  intros H. pose proof (rho_pos x y H) as HP. unfold ratan2. destruct (Rlt_dec 0 x) as [X|X].
  - rewrite sin_atan, sqrt_div_pos by lra. rewrite Rabs_pos_eq by lra. field. lra.
  - destruct (Rlt_dec x 0) as [X'|X'].
    + assert (E : sin (atan (y / x)) = - y / sqrt (x * x + y * y)).
      { rewrite sin_atan, sqrt_div_pos by lra. rewrite Rabs_left by lra. field. lra. }
      destruct (Rle_dec 0 y).
      * rewrite neg_sin, E. field. lra.
      * replace (atan (y / x) - PI) with (- (PI - atan (y / x))) by ring. rewrite sin_neg, Rtrigo_facts.sin_pi_minus, E. field. lra.
    + assert (x = 0) by lra. subst x. replace (0 * 0 + y * y) with (y * y) by ring. destruct (Rlt_dec 0 y).
      * rewrite sin_PI2, sqrt_square by lra. field. lra.
      * destruct (Rlt_dec y 0).
        { rewrite sin_neg, sin_PI2. replace (y * y) with (- y * - y) by ring. rewrite sqrt_square by lra. field. lra. }
        exfalso. destruct H; [lra|]. apply H. lra.
Qed.
(** the angle in (-pi, pi] is recovered *)
Lemma atan2_angle (k r : R) : 0 < k -> - PI < r <= PI -> ratan2 (k * sin r) (k * cos r) = r.
Proof.
  intros Hk [H1 H2]. pose proof PI_RGT_0 as Hp. unfold ratan2.
  assert (T : cos r <> 0 -> k * sin r / (k * cos r) = tan r) by (intros; unfold tan; field; split; auto; lra).
  destruct (Rlt_dec 0 (k * cos r)) as [X|X].
  - assert (C : 0 < cos r). { destruct (Rlt_dec 0 (cos r)); auto. exfalso. assert (cos r <= 0) by lra. pose proof (Rmult_le_compat_l k _ _ (Rlt_le _ _ Hk) H). lra. }
    rewrite T by lra. apply atan_tan. split.
    + destruct (Rlt_dec (- (PI / 2)) r); auto. exfalso. assert (cos (- r) <= 0) by (apply cos_le_0; lra). rewrite cos_neg in H. lra.
    + destruct (Rlt_dec r (PI / 2)); auto. exfalso. assert (cos r <= 0) by (apply cos_le_0; lra). lra.
  - assert (C : cos r <= 0). { destruct (Rle_dec (cos r) 0); auto. exfalso. apply X. apply Rmult_lt_0_compat; lra. }
    destruct (Rlt_dec (k * cos r) 0) as [X'|X'].
    + assert (C' : cos r < 0). { destruct (Rlt_dec (cos r) 0); auto. exfalso. assert (cos r = 0) by lra. rewrite H in X'. lra. }
      rewrite T by lra. destruct (Rle_dec 0 (k * sin r)) as [Y|Y].
      * assert (S : 0 <= sin r). { destruct (Rle_dec 0 (sin r)); auto. exfalso. pose proof (Rmult_lt_compat_l k (sin r) 0 Hk ltac:(lra)). lra. }
        assert (0 <= r). { destruct (Rle_dec 0 r); auto. exfalso. pose proof (sin_lt_0_var r ltac:(lra) ltac:(lra)). lra. }
        assert (PI / 2 < r). { destruct (Rlt_dec (PI / 2) r); auto. exfalso. pose proof (cos_ge_0 r ltac:(lra) ltac:(lra)). lra. }
        replace (tan r) with (tan (r - PI)).
        { rewrite atan_tan by lra. ring. }
        unfold tan. replace (r - PI) with (- (PI - r)) by ring. rewrite sin_neg, cos_neg, Rtrigo_facts.sin_pi_minus, Rtrigo_facts.cos_pi_minus. field. lra.
      * assert (S : sin r < 0). { destruct (Rlt_dec (sin r) 0); auto. exfalso. apply Y. apply Rmult_le_pos; lra. }
        assert (r < 0). { destruct (Rlt_dec r 0); auto. exfalso. pose proof (sin_ge_0 r ltac:(lra) ltac:(lra)). lra. }
        assert (r < - (PI / 2)). { destruct (Rlt_dec r (- (PI / 2))); auto. exfalso. pose proof (cos_ge_0 r ltac:(lra) ltac:(lra)). lra. }
        replace (tan r) with (tan (r + PI)).
        { rewrite atan_tan by lra. ring. }
        unfold tan. rewrite neg_sin, neg_cos. field. lra.
    + assert (Z : cos r = 0). { destruct (Req_dec (cos r) 0); auto. exfalso. apply X'. pose proof (Rmult_lt_compat_l k (cos r) 0 Hk ltac:(lra)). lra. }
      pose proof (sc2 r) as SC. rewrite Z in SC.
      destruct (Rlt_dec 0 (k * sin r)) as [Y|Y].
      * assert (S : 0 < sin r). { destruct (Rlt_dec 0 (sin r)); auto. exfalso. assert (Hs : sin r <= 0) by lra. pose proof (Rmult_le_compat_l k _ 0 (Rlt_le _ _ Hk) Hs). lra. }
        assert (0 <= r). { destruct (Rle_dec 0 r); auto. exfalso. pose proof (sin_lt_0_var r ltac:(lra) ltac:(lra)). lra. }
        apply cos_inj; try lra; try (rewrite cos_PI2; lra).
      * assert (S : sin r < 0). { assert (sin r <= 0). { destruct (Rle_dec (sin r) 0); auto. exfalso. apply Y. apply Rmult_lt_0_compat; lra. } destruct (Req_dec (sin r) 0) as [E|]; [rewrite E in SC; lra | lra]. }
        destruct (Rlt_dec (k * sin r) 0) as [Y'|Y']; [|exfalso; apply Y'; pose proof (Rmult_lt_compat_l k (sin r) 0 Hk S); lra].
        assert (r < 0). { destruct (Rlt_dec r 0); auto. exfalso. pose proof (sin_ge_0 r ltac:(lra) ltac:(lra)). lra. }
        enough (PI / 2 = - r) by lra. apply cos_inj; try lra. rewrite cos_PI2, cos_neg. lra.
Qed.

(** ** matrices from roll, pitch, yaw *)
Lemma Rot_rpy_is (r p y : R) : Rot_rpy r p y =
  mkM (cos y * cos p) (cos y * sin p * sin r - sin y * cos r) (cos y * sin p * cos r + sin y * sin r)
      (sin y * cos p) (sin y * sin p * sin r + cos y * cos r) (sin y * sin p * cos r - cos y * sin r)
      (- sin p) (cos p * sin r) (cos p * cos r).
Proof. unfold Rot_rpy, Rot_x, Rot_y, Rot_z, mmul. cbn [m11 m12 m13 m21 m22 m23 m31 m32 m33]. f_equal; ring. Qed.

(** entries of the matrix of a unit quaternion *)
Lemma quat_mat_row (q : quat) : unit_q q ->
  m31 (quat_mat q) = - (2 * (qw q * qy q - qx q * qz q)) /\
  m32 (quat_mat q) = 2 * (qy q * qz q + qw q * qx q) /\
  m33 (quat_mat q) = qw q * qw q - qx q * qx q - qy q * qy q + qz q * qz q /\
  m21 (quat_mat q) = 2 * (qx q * qy q + qw q * qz q) /\
  m11 (quat_mat q) = qw q * qw q + qx q * qx q - qy q * qy q - qz q * qz q.
Proof. unfold unit_q, qn, quat_mat. destruct q as [x y z w]. cbn [qx qy qz qw m11 m12 m13 m21 m22 m23 m31 m32 m33]. rnum. intros H. repeat split; lra. Qed.

(** cofactor identities: such a matrix has determinant one and orthonormal rows *)
Definition is_rotation (m : M33) : Prop := mmul m (mtr m) = mid /\ mmul (mtr m) m = mid /\ mdet m = 1.
Definition cof_ok (m : M33) : Prop :=
  m12 m = m23 m * m31 m - m21 m * m33 m /\ m13 m = m21 m * m32 m - m22 m * m31 m /\
  m22 m = m11 m * m33 m - m13 m * m31 m /\ m23 m = m12 m * m31 m - m11 m * m32 m /\
  m32 m * m32 m + m33 m * m33 m = 1 - m31 m * m31 m /\ m11 m * m11 m + m21 m * m21 m = 1 - m31 m * m31 m.
Lemma quat_cof q : unit_q q -> cof_ok (quat_mat q).
Proof.
  unfold unit_q, qn, quat_mat, cof_ok. destruct q as [x y z w]. cbn [qx qy qz qw m11 m12 m13 m21 m22 m23 m31 m32 m33]. rnum. intros H.
  assert (W : w * w = 1 - x * x - y * y - z * z) by lra.
  repeat split; ring_simplify; repeat match goal with |- context [w ^ 2] => replace (w ^ 2) with (1 - x ^ 2 - y ^ 2 - z ^ 2) by lra end; ring.
Qed.
Lemma quat_m11 q : unit_q q -> m11 (quat_mat q) = m22 (quat_mat q) * m33 (quat_mat q) - m23 (quat_mat q) * m32 (quat_mat q).
Proof.
  unfold unit_q, qn, quat_mat. destruct q as [x y z w]. cbn [qx qy qz qw m11 m12 m13 m21 m22 m23 m31 m32 m33]. rnum. intros H.
  ring_simplify; repeat match goal with |- context [w ^ 2] => replace (w ^ 2) with (1 - x ^ 2 - y ^ 2 - z ^ 2) by lra end; ring.
Qed.
Lemma quat_rotation q : unit_q q -> is_rotation (quat_mat q).
Proof.
  intros H. assert (Hc : unit_q (qconj q)) by (unfold unit_q, qn, qconj in *; cbn [qx qy qz qw]; rnum; rnumin H; lra).
  assert (T : mtr (quat_mat q) = quat_mat (qconj q)).
  { unfold mtr, quat_mat, qconj. destruct q as [x y z w]. cbn [qx qy qz qw m11 m12 m13 m21 m22 m23 m31 m32 m33]. rnum. f_equal; ring. }
  assert (I : q_mul q (qconj q) = q_clear /\ q_mul (qconj q) q = q_clear).
  { unfold unit_q, qn in H. rnumin H. unfold qconj, q_mul, q_clear. split; apply q_eq; cbn [qx qy qz qw]; rnum; try ring; rewrite <- H; ring. }
  destruct I as [I1 I2]. assert (M1 : mmul (quat_mat q) (mtr (quat_mat q)) = mid) by (rewrite T, <- quat_mat_mul, I1 by auto; apply quat_mat_clear).
  split; [|split].
  - exact M1.
  - rewrite T, <- quat_mat_mul, I2 by auto. apply quat_mat_clear.
  - destruct (quat_cof q H) as (C1 & C2 & C3 & C4 & C5 & C6). pose proof (quat_m11 q H) as C0.
    apply (f_equal m11) in M1. unfold mmul, mtr, mid in M1. cbn [m11 m12 m13 m21 m22 m23 m31 m32 m33] in M1. unfold mdet.
    rewrite <- M1, <- C0, <- C2. replace (m21 (quat_mat q) * m33 (quat_mat q) - m23 (quat_mat q) * m31 (quat_mat q)) with (- m12 (quat_mat q)) by lra. ring.
Qed.
Lemma five_entries (a b : M33) : cof_ok a -> cof_ok b -> m11 a = m11 b -> m21 a = m21 b -> m31 a = m31 b -> m32 a = m32 b -> m33 a = m33 b ->
  m31 a * m31 a <> 1 -> a = b.
Proof.
  intros (A1 & A2 & A3 & A4 & _) (B1 & B2 & B3 & B4 & _) E1 E2 E3 E4 E5 N. destruct a as [a11 a12 a13 a21 a22 a23 a31 a32 a33], b as [b11 b12 b13 b21 b22 b23 b31 b32 b33].
  cbn [m11 m12 m13 m21 m22 m23 m31 m32 m33] in *. subst b11 b21 b31 b32 b33.
  assert (X : forall u v : R, (1 - a31 * a31) * u = (1 - a31 * a31) * v -> u = v) by (intros u v H; apply (Rmult_eq_reg_l (1 - a31 * a31)); auto; lra).
  assert (F12 : a12 = b12) by (apply X; rewrite A4 in A1; rewrite B4 in B1; lra).
  assert (F13 : a13 = b13) by (apply X; rewrite A3 in A2; rewrite B3 in B2; lra). subst.
  f_equal; lra.
Qed.

(** the threshold of the code, 99999/100000 *)
Definition away (q : quat) : Prop := Rabs (2 * (qw q * qy q - qx q * qz q)) < 99999 / 100000.

Lemma Q2R_99 : Q2R (99999 # 100000) = 99999 / 100000. Proof. unfold Q2R; simpl; lra. Qed.
Lemma Q2R_m99 : Q2R (-99999 # 100000) = - (99999 / 100000). Proof. unfold Q2R; simpl; lra. Qed.

Lemma getRPY_away q : away q -> getRPY q =
  @V3 RA (ratan2 (2 * (qy q * qz q + qw q * qx q)) (qw q * qw q - qx q * qx q - qy q * qy q + qz q * qz q))
         (asin (2 * (qw q * qy q - qx q * qz q)))
         (ratan2 (2 * (qx q * qy q + qw q * qz q)) (qw q * qw q + qx q * qx q - qy q * qy q - qz q * qz q)).
Proof.
  intros H. unfold away in H. apply Rabs_def2 in H. unfold getRPY. rnum. rewrite Q2R_99, Q2R_m99.
  replace (-2 * (qx q * qz q - qw q * qy q)) with (2 * (qw q * qy q - qx q * qz q)) by ring. unfold Rleb.
  destruct (Rle_dec (2 * (qw q * qy q - qx q * qz q)) (- (99999 / 100000))); [lra|].
  destruct (Rle_dec (99999 / 100000) (2 * (qw q * qy q - qx q * qz q))); [lra|]. reflexivity.
Qed.

Lemma rpy_of_away q : unit_q q -> away q -> let v := getRPY q in quat_mat (setFromRPY (vx v) (vy v) (vz v)) = quat_mat q.
Proof.
  intros Hu Ha v. pose proof (quat_cof q Hu) as C. destruct (quat_mat_row q Hu) as (E31 & E32 & E33 & E21 & E11).
  rewrite rpy_mat. unfold v. rewrite getRPY_away by auto. cbn [vx vy vz].
  rewrite <- E32, <- E33, <- E21, <- E11. set (s := 2 * (qw q * qy q - qx q * qz q)) in *. set (m := quat_mat q) in *.
  unfold away in Ha. fold s in Ha. apply Rabs_def2 in Ha. destruct C as (C1 & C2 & C3 & C4 & C5 & C6). rewrite E31 in C5, C6.
  assert (P : 0 < 1 - s * s) by nra.
  assert (N1 : m33 m <> 0 \/ m32 m <> 0). { destruct (Req_dec (m33 m) 0) as [Z|]; auto. right. intros Z'. rewrite Z, Z' in C5. lra. }
  assert (N2 : m11 m <> 0 \/ m21 m <> 0). { destruct (Req_dec (m11 m) 0) as [Z|]; auto. right. intros Z'. rewrite Z, Z' in C6. lra. }
  assert (S1 : sqrt (m33 m * m33 m + m32 m * m32 m) = sqrt (1 - s * s)) by (f_equal; lra).
  assert (S2 : sqrt (m11 m * m11 m + m21 m * m21 m) = sqrt (1 - s * s)) by (f_equal; lra).
  assert (SP : 0 < sqrt (1 - s * s)) by now apply sqrt_lt_R0.
  apply five_entries.
  - rewrite <- rpy_mat. apply quat_cof, rpy_unit.
  - repeat split; auto; rewrite E31; auto.
  - rewrite Rot_rpy_is. cbn [m11]. rewrite cos_atan2, S2, cos_asin by (auto; lra). unfold Rsqr. field. lra.
  - rewrite Rot_rpy_is. cbn [m21]. rewrite sin_atan2, S2, cos_asin by (auto; lra). unfold Rsqr. field. lra.
  - rewrite Rot_rpy_is. cbn [m31]. rewrite sin_asin by lra. lra.
  - rewrite Rot_rpy_is. cbn [m32]. rewrite sin_atan2, S1, cos_asin by (auto; lra). unfold Rsqr. field. lra.
  - rewrite Rot_rpy_is. cbn [m33]. rewrite cos_atan2, S1, cos_asin by (auto; lra). unfold Rsqr. field. lra.
  - rewrite Rot_rpy_is. cbn [m31]. rewrite sin_asin by lra. lra.
Qed.

(** round trip from angles *)
Lemma rpy_round (r p y : R) : - PI < r <= PI -> - PI < y <= PI -> - (PI / 2) < p < PI / 2 -> Rabs (sin p) < 99999 / 100000 ->
  getRPY (@setFromRPY RA r p y) = @V3 RA r p y.
Proof.
  intros Hr Hy Hp Hs. pose proof (rpy_unit r p y) as U. pose proof (rpy_mat r p y) as E. rewrite Rot_rpy_is in E. set (q := @setFromRPY RA r p y) in *.
  destruct (quat_mat_row _ U) as (E31 & E32 & E33 & E21 & E11). rewrite E in E31, E32, E33, E21, E11. cbn [m11 m21 m31 m32 m33] in *.
  rewrite getRPY_away.
  - rewrite <- E32, <- E33, <- E21, <- E11. assert (C : 0 < cos p) by (apply cos_gt_0; lra).
    replace (2 * (qw q * qy q - qx q * qz q)) with (sin p) by lra.
    rewrite (Rmult_comm (sin y)), (Rmult_comm (cos y)), !atan2_angle, asin_sin by (auto; lra). reflexivity.
  - unfold away. replace (2 * (qw q * qy q - qx q * qz q)) with (sin p) by lra. exact Hs.
Qed.
