(** Roll, pitch, yaw near gimbal lock: how far the rotation they describe is from the
    original one. *)
From Coq Require Import QArith List Lia Bool Reals Lra.
From Verif Require Import Base Num Pose Spec_Rot RealArith Pf_Base Pf_Real Pf_Rot Pf_Unit Pf_Rpy Pf_BaseD.
Local Open Scope R_scope.

Lemma sq_small (a k : R) : 0 <= k -> a * a <= k * k -> - k <= a <= k.
Proof. intros H Q. split; nra. Qed.
Lemma prod_small (a b h k : R) : - h <= a <= h -> - k <= b <= k -> - (h * k) <= a * b <= h * k.
Proof. intros A B. split; nra. Qed.

(** the algebra: [w = s y + a], [z = b - s x] with [a], [b] small *)
Lemma lock_algebra (x y a b s C S cL sL : R) : s = 1 \/ s = -1 ->
  x * x + y * y + (b - s * x) * (b - s * x) + (s * y + a) * (s * y + a) = 1 -> a * a + b * b <= 1 / 100000 ->
  C * (x * x + y * y) = y * y - x * x -> S * (x * x + y * y) = -2 * x * y -> -1 <= C <= 1 -> -1 <= S <= 1 ->
  - (1 / 1000) <= cL <= 1 / 1000 -> 999999 / 1000000 <= sL <= 1 ->
  within (1 / 50)
    (mkM (C * cL) (- S) (C * (s * sL)) (S * cL) C (S * (s * sL)) (- (s * sL)) 0 cL)
    (quat_mat (@Q4 RA x y (b - s * x)%R (s * y + a)%R)).
Proof.
  intros Hs N Hab HC HS C1' S1' Hc Hsl. assert (C1 : - (1) <= C <= 1) by lra. assert (S1 : - (1) <= S <= 1) by lra. clear C1' S1'.
  assert (Q : 0 <= a * a /\ 0 <= b * b /\ 0 <= x * x /\ 0 <= y * y) by (repeat split; apply Rle_0_sqr).
  assert (Ba : - (317 / 100000) <= a <= 317 / 100000) by (apply sq_small; lra). assert (Bb : - (317 / 100000) <= b <= 317 / 100000) by (apply sq_small; lra).
  assert (Z : 0 <= (b - s * x) * (b - s * x) /\ 0 <= (s * y + a) * (s * y + a)) by (split; apply Rle_0_sqr).
  assert (Bx : - (1) <= x <= 1) by (apply sq_small; lra). assert (By : - (1) <= y <= 1) by (apply sq_small; lra).
  assert (SS : s * s = 1) by (destruct Hs as [-> | ->]; lra).
  assert (SX : forall t k, - k <= t <= k -> - k <= s * t <= k) by (intros t k Ht; destruct Hs as [-> | ->]; lra).
  assert (E0 : 2 * (x * x + y * y) = 1 - (a * a + b * b) + 2 * (s * (b * x)) - 2 * (s * (a * y))).
  { replace ((b - s * x) * (b - s * x)) with (b * b - 2 * (s * (b * x)) + s * s * (x * x)) in N by ring.
    replace ((s * y + a) * (s * y + a)) with (a * a + 2 * (s * (a * y)) + s * s * (y * y)) in N by ring. rewrite SS in N. lra. }
  pose proof (SX _ _ (prod_small _ _ _ _ Bb Bx)) as T1. pose proof (SX _ _ (prod_small _ _ _ _ Ba By)) as T2.
  assert (Bx' : - (72 / 100) <= x <= 72 / 100) by (apply sq_small; lra). assert (By' : - (72 / 100) <= y <= 72 / 100) by (apply sq_small; lra).
  clear T1 T2 Bx By Z.
  pose proof (prod_small _ _ _ _ Ba Bx') as Pax. pose proof (prod_small _ _ _ _ Ba By') as Pay. pose proof (prod_small _ _ _ _ Bb Bx') as Pbx. pose proof (prod_small _ _ _ _ Bb By') as Pby.
  pose proof (SX _ _ Pax) as Sax. pose proof (SX _ _ Pay) as Say. pose proof (SX _ _ Pbx) as Sbx. pose proof (SX _ _ Pby) as Sby.
  set (e := 2 * (x * x + y * y) - 1). assert (Be : - (92 / 10000) <= e <= 92 / 10000) by (unfold e; lra).
  assert (BCe : - (92 / 10000) <= C * e <= 92 / 10000) by (pose proof (prod_small _ _ _ _ C1 Be); lra).
  assert (BSe : - (92 / 10000) <= S * e <= 92 / 10000) by (pose proof (prod_small _ _ _ _ S1 Be); lra).
  assert (EC : C * e = 2 * (y * y) - 2 * (x * x) - C) by (unfold e; rewrite Rmult_minus_distr_l; replace (C * (2 * (x * x + y * y))) with (2 * (C * (x * x + y * y))) by ring; rewrite HC; ring).
  assert (ES : S * e = - 4 * (x * y) - S) by (unfold e; rewrite Rmult_minus_distr_l; replace (S * (2 * (x * x + y * y))) with (2 * (S * (x * x + y * y))) by ring; rewrite HS; ring).
  assert (Hsl' : - (1 / 1000000) <= 1 - sL <= 1 / 1000000) by lra.
  pose proof (prod_small _ _ _ _ C1 Hc) as PCc. pose proof (prod_small _ _ _ _ S1 Hc) as PSc.
  pose proof (SX _ _ (prod_small _ _ _ _ C1 Hsl')) as PCs. pose proof (SX _ _ (prod_small _ _ _ _ S1 Hsl')) as PSs. pose proof (SX _ _ Hsl') as Ps.
  pose proof (SX _ _ BCe) as SCe. pose proof (SX _ _ BSe) as SSe. pose proof (prod_small _ _ _ _ Ba Bb) as Pab.
  unfold within, quat_mat. cbn [m11 m12 m13 m21 m22 m23 m31 m32 m33 qx qy qz qw]. rnum.
  assert (D : forall u v, - (1 / 50) <= u - v <= 1 / 50 -> Rabs (u - v) <= 1 / 50) by (intros; now apply Rabs_le).
  repeat split; apply D; clear D; destruct Hs as [-> | ->]; unfold e in *; lra.
Qed.

Lemma lock_const : let L := Q2R (157079632679489661923 # 100000000000000000000) in
  - (1 / 1000) <= cos L <= 1 / 1000 /\ 999999 / 1000000 <= sin L <= 1.
Proof.
  cbv zeta. set (L := Q2R _). assert (HL : 157079 / 100000 <= L <= 157080 / 100000) by (unfold L, Q2R; simpl; lra).
  assert (Hc : - (1 / 1000) <= cos L <= 1 / 1000).
  { destruct (cos_poly L ltac:(lra)) as [H1 H2]. 
    assert (P2 : 24673 / 10000 <= L * L <= 24675 / 10000) by nra. set (p := L * L) in *.
    assert (P4 : 60875 / 10000 <= p * p <= 60886 / 10000) by nra.
    assert (P6 : 150190 / 10000 <= p * p * p <= 150240 / 10000) by nra. assert (P8 : 370570 / 10000 <= p * p * (p * p) <= 370712 / 10000) by nra.
    replace (p * L * L) with (p * p) in * by (unfold p; ring). replace (p * p * L * L) with (p * p * p) in * by (unfold p; ring). replace (p * p * p * L * L) with (p * p * (p * p)) in * by (unfold p; ring). lra. }
  split; [exact Hc|]. pose proof (sin2_cos2 L) as Q. unfold Rsqr in Q. assert (0 <= sin L) by (apply sin_ge_0; pose proof PI2_1; pose proof PI2_3_2; lra).
  split; [nra|apply SIN_bound].
Qed.

Lemma double_angle (y x : R) : 0 < x * x + y * y -> let t := 2 * ratan2 y x in
  cos t * (x * x + y * y) = x * x - y * y /\ sin t * (x * x + y * y) = 2 * x * y.
Proof.
  intros H t. assert (N : x <> 0 \/ y <> 0) by (destruct (Req_dec x 0) as [->|]; [right; intros ->; lra|now left]).
  unfold t. rewrite cos_2a, sin_2a, (cos_atan2 y x N), (sin_atan2 y x N). pose proof (sqrt_sqrt (x * x + y * y) ltac:(lra)) as Q.
  assert (P : 0 < sqrt (x * x + y * y)) by (apply sqrt_lt_R0; exact H). set (r := sqrt (x * x + y * y)) in *. rewrite <- Q. split; field; lra.
Qed.

Lemma lock_near q : unit_q q -> 99999 / 100000 <= Rabs (2 * (qw q * qy q - qx q * qz q)) ->
  let v := getRPY q in within (1 / 50) (Rot_rpy (vx v) (vy v) (vz v)) (quat_mat q).
Proof.
  intros U H v. destruct q as [x y z w]. change (@num RA) with R in x, y, z, w. unfold unit_q, qn in U. cbn [qx qy qz qw] in *. rnumin U.
  set (sg := 2 * (w * y - x * z)) in *.
  assert (X : exists s, (s = 1 \/ s = -1) /\ 99999 / 100000 <= s * sg /\
    v = @V3 RA 0 (s * Q2R (157079632679489661923 # 100000000000000000000))%R (2 * ratan2 (- (s * x)) (s * y))%R).
  { unfold v, getRPY. cbn [qx qy qz qw]. rnum. rewrite Q2R_99, Q2R_m99. replace (-2 * (x * z - w * y)) with sg by (unfold sg; ring). unfold Rleb.
    destruct (Rle_dec sg (- (99999 / 100000))) as [L|L].
    - exists (-1). split; [now right|]. split; [lra|]. apply v_eq; cbn [vx vy vz]; change (@num RA) with R; [reflexivity|lra|f_equal; f_equal; lra].
    - exists 1. split; [now left|]. assert (99999 / 100000 <= sg) by (unfold Rabs in H; destruct (Rcase_abs sg); lra). split; [lra|].
      destruct (Rle_dec (99999 / 100000) sg) as [L2|L2]; [|lra]. apply v_eq; cbn [vx vy vz]; change (@num RA) with R; [reflexivity|lra|f_equal; f_equal; lra]. }
  destruct X as (s & Hs & Hg & ->). cbn [vx vy vz]. rewrite Rot_rpy_is. rewrite cos_0, sin_0. clear H.
  destruct lock_const as [Hc Hl]. set (L := Q2R (157079632679489661923 # 100000000000000000000)) in *.
  assert (Ec : cos (s * L) = cos L) by (destruct Hs as [-> | ->]; [now rewrite Rmult_1_l|rewrite <- (cos_neg L); f_equal; ring]).
  assert (Es : sin (s * L) = s * sin L) by (destruct Hs as [-> | ->]; [now rewrite !Rmult_1_l|replace (-1 * L) with (- L) by ring; rewrite sin_neg; ring]).
  rewrite Ec, Es. set (a := w - s * y). set (b := z + s * x). assert (SS : s * s = 1) by (destruct Hs as [-> | ->]; lra).
  assert (Ew : w = s * y + a) by (unfold a; ring). assert (Ez : z = b - s * x) by (unfold b; ring).
  assert (AB : a * a + b * b = 1 - s * sg).
  { unfold a, b, sg. replace ((w - s * y) * (w - s * y) + (z + s * x) * (z + s * x)) with (w * w + z * z + s * s * (x * x + y * y) - s * (2 * (w * y - x * z))) by ring. rewrite SS. lra. }
  assert (P : 0 < x * x + y * y).
  { pose proof (Rle_0_sqr x) as X2. pose proof (Rle_0_sqr y) as Y2. unfold Rsqr in *. destruct (Rlt_dec 0 (x * x + y * y)); [assumption|exfalso].
    assert (x = 0) by nra. assert (y = 0) by nra. subst x y. unfold sg in Hg. replace (s * (2 * (w * 0 - 0 * z))) with 0 in Hg by ring. lra. }
  assert (P' : 0 < s * y * (s * y) + - (s * x) * - (s * x)) by (replace (s * y * (s * y) + - (s * x) * - (s * x)) with (s * s * (x * x + y * y)) by ring; rewrite SS; lra).
  destruct (double_angle (- (s * x)) (s * y) P') as [D1 D2]. set (t := 2 * ratan2 (- (s * x)) (s * y)) in *.
  replace (s * y * (s * y) + - (s * x) * - (s * x)) with (s * s * (x * x + y * y)) in * by ring. rewrite SS, Rmult_1_l in *.
  replace (s * y * (s * y) - - (s * x) * - (s * x)) with (s * s * (y * y - x * x)) in D1 by ring. replace (2 * (s * y) * - (s * x)) with (s * s * (-2 * x * y)) in D2 by ring. rewrite SS, Rmult_1_l in *.
  clearbody sg. clearbody a b. subst w z.
  pose proof (lock_algebra x y a b s (cos t) (sin t) (cos L) (sin L) Hs ltac:(lra) ltac:(lra) D1 D2 (COS_bound t) (SIN_bound t) Hc Hl) as K.
  unfold within in *. cbn [m11 m12 m13 m21 m22 m23 m31 m32 m33] in *.
  replace (cos t * (s * sin L) * 0 - sin t * 1) with (- sin t) by ring. replace (cos t * (s * sin L) * 1 + sin t * 0) with (cos t * (s * sin L)) by ring.
  replace (sin t * (s * sin L) * 0 + cos t * 1) with (cos t) by ring. replace (sin t * (s * sin L) * 1 - cos t * 0) with (sin t * (s * sin L)) by ring.
  replace (cos L * 0) with 0 by ring. replace (cos L * 1) with (cos L) by ring. exact K.
Qed.
