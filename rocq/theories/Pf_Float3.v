(** Rounding errors of rotations given by roll, pitch and yaw, and of reading documents. *)
From Coq Require Import QArith Qreals Reals Lra Lia String List Psatz.
From Verif Require Import Base Num Pose Urdf Decimal RealArith FloatArith Spec_Robot Spec_Float Pf_Real Pf_Rot Pf_BaseD Pf_Float1 Pf_Float2.
Import ListNotations.
Local Open Scope R_scope.

(** the exact quaternion *)
Definition rpy_q (r p y : R) : quat :=
  @Q4 RA (sin (r / 2) * cos (p / 2) * cos (y / 2) - cos (r / 2) * sin (p / 2) * sin (y / 2))%R
         (cos (r / 2) * sin (p / 2) * cos (y / 2) + sin (r / 2) * cos (p / 2) * sin (y / 2))%R
         (cos (r / 2) * cos (p / 2) * sin (y / 2) - sin (r / 2) * sin (p / 2) * cos (y / 2))%R
         (cos (r / 2) * cos (p / 2) * cos (y / 2) + sin (r / 2) * sin (p / 2) * sin (y / 2))%R.
Lemma rpy_quat r p y : @setFromRPY RA r p y = rpy_q r p y.
Proof. rewrite setFromRPY_q. unfold rpy_q, zq, yq, xq, axis_q, q_mul. apply q_eq; proj; rnum; ring. Qed.
Lemma rpy_quat_unit r p y : unit_q (rpy_q r p y).
Proof. rewrite <- rpy_quat. apply rpy_unit. Qed.

Section Rpy.
Variable o : Ops.
Variable u : R.
Hypothesis Hacc : accurate o u.
Hypothesis Hu : 0 <= u <= / 1000.
Variable A : R.
Hypothesis HA : 0 <= A.
Definition unit_err : R := u * (1 + A).
Hypothesis Hw : unit_err <= / 10000.

Lemma w_u : u <= unit_err. Proof. unfold unit_err. nra. Qed.
Lemma w_nn : 0 <= unit_err. Proof. pose proof w_u. lra. Qed.

Lemma half_angle r' r : Rabs r <= A -> Rabs (r' - r) <= unit_err ->
  Rabs (o_div o r' (@n2 (FA o)) - r / 2) <= 5 / 2 * unit_err.
Proof.
  intros Hr D. change (@n2 (FA o)) with (o_lit o 2%Q).
  pose proof (acc_lit _ _ Hacc 2%Q) as H. unfold rounds in H. rewrite Q2R_2, (Rabs_pos_eq 2) in H by lra. set (t := o_lit o 2%Q) in *.
  apply Rabs_le_inv in H. assert (T : 19 / 10 <= t) by lra.
  pose proof (acc_div _ _ Hacc r' t ltac:(lra)) as M. unfold rounds in M. pose proof w_u. pose proof w_nn. pose proof (Rabs_pos r).
  assert (I : 0 < / t <= 10 / 19). { split; [apply Rinv_0_lt_compat; lra|]. replace (10 / 19) with (/ (19 / 10)) by field. apply Rinv_le_contravar; lra. }
  assert (D1 : Rabs (r' / t - r / 2) <= 14 / 10 * unit_err).
  { replace (r' / t - r / 2) with ((r' - r) * / t + r * (2 - t) * (/ 2 * / t)) by (field; lra).
    eapply Rle_trans; [apply Rabs_triang|]. rewrite !Rabs_mult, (Rabs_pos_eq (/ t)), (Rabs_pos_eq (/ 2)) by lra.
    assert (E1 : Rabs (r' - r) * / t <= unit_err * (10 / 19)) by (apply Rmult_le_compat; auto using Rabs_pos; lra).
    assert (E2 : Rabs (2 - t) <= 3 * u) by (apply Rabs_le; lra).
    assert (E3 : Rabs r * Rabs (2 - t) <= A * (3 * u)) by (apply Rmult_le_compat; auto using Rabs_pos).
    assert (E4 : Rabs r * Rabs (2 - t) * (/ 2 * / t) <= A * (3 * u) * (/ 2 * (10 / 19))).
    { apply Rmult_le_compat; try lra. apply Rmult_le_pos; auto using Rabs_pos. }
    assert (A * (3 * u) <= 3 * unit_err) by (unfold unit_err; lra). lra. }
  assert (B : Rabs (r' / t) <= A + / 1000).
  { replace (r' / t) with (r / 2 + (r' / t - r / 2)) by ring. eapply Rle_trans; [apply Rabs_triang|].
    unfold Rdiv at 1. rewrite Rabs_mult, (Rabs_pos_eq (/ 2)) by lra. lra. }
  assert (C : u * (1 + Rabs (r' / t)) <= unit_err + u * / 1000).
  { replace (unit_err + u * / 1000) with (u * (1 + (A + / 1000))) by (unfold unit_err; ring). apply Rmult_le_compat_l; lra. }
  replace (o_div o r' t - r / 2) with ((o_div o r' t - r' / t) + (r' / t - r / 2)) by ring.
  eapply Rle_trans; [apply Rabs_triang|]. lra.
Qed.
Lemma half_sin r' r : Rabs r <= A -> Rabs (r' - r) <= unit_err ->
  Rabs (o_sin o (o_div o r' (@n2 (FA o))) - sin (r / 2)) <= 5 * unit_err.
Proof.
  intros Hr D. pose proof (half_angle r' r Hr D) as H. set (h := o_div o r' (@n2 (FA o))) in *. pose proof w_u.
  pose proof (acc_sin _ _ Hacc h) as S. unfold rounds in S. pose proof (sin_lip h (r / 2)) as L.
  assert (B : Rabs (sin h) <= 1) by (apply Rabs_le, SIN_bound).
  assert (u * (1 + Rabs (sin h)) <= u * 2) by (apply Rmult_le_compat_l; lra).
  replace (o_sin o h - sin (r / 2)) with ((o_sin o h - sin h) + (sin h - sin (r / 2))) by ring.
  eapply Rle_trans; [apply Rabs_triang|]. lra.
Qed.
Lemma half_cos r' r : Rabs r <= A -> Rabs (r' - r) <= unit_err ->
  Rabs (o_cos o (o_div o r' (@n2 (FA o))) - cos (r / 2)) <= 5 * unit_err.
Proof.
  intros Hr D. pose proof (half_angle r' r Hr D) as H. set (h := o_div o r' (@n2 (FA o))) in *. pose proof w_u.
  pose proof (acc_cos _ _ Hacc h) as S. unfold rounds in S. pose proof (cos_lip h (r / 2)) as L.
  assert (B : Rabs (cos h) <= 1) by (apply Rabs_le, COS_bound).
  assert (u * (1 + Rabs (cos h)) <= u * 2) by (apply Rmult_le_compat_l; lra).
  replace (o_cos o h - cos (r / 2)) with ((o_cos o h - cos h) + (cos h - cos (r / 2))) by ring.
  eapply Rle_trans; [apply Rabs_triang|]. lra.
Qed.

(** factors at most 1 and their approximations *)
Definition fac (a' a : R) : Prop := Rabs a <= 1 /\ Rabs (a' - a) <= 5 * unit_err.
Lemma fac_bound a' a : fac a' a -> Rabs a' <= 11 / 10.
Proof. intros [H D]. pose proof w_nn. replace a' with (a + (a' - a)) by ring. eapply Rle_trans; [apply Rabs_triang|]. lra. Qed.
Lemma three a' a b' b c' c : fac a' a -> fac b' b -> fac c' c ->
  Rabs (a * b * c) <= 1 /\ Rabs (o_mul o (o_mul o a' b') c' - a * b * c) <= 22 * unit_err.
Proof.
  intros Fa Fb Fc. pose proof (fac_bound _ _ Fb) as Bb. pose proof (fac_bound _ _ Fc) as Bc.
  destruct Fa as [Ha Da], Fb as [Hb Db], Fc as [Hc Dc]. pose proof w_nn. pose proof w_u.
  assert (U1 : u * (1 + (1 + 5 * unit_err) * (11 / 10)) <= u * (5 / 2)) by (apply Rmult_le_compat_l; lra).
  pose proof (prod_near o u Hacc Hu _ _ _ _ _ _ _ _ Ha Bb Da Db) as P1.
  assert (AB : Rabs (a * b) <= 1) by (rewrite Rabs_mult; pose proof (Rabs_pos a); pose proof (Rabs_pos b); nra).
  split; [rewrite Rabs_mult; pose proof (Rabs_pos (a * b)); pose proof (Rabs_pos c); nra|].
  assert (P1' : Rabs (o_mul o a' b' - a * b) <= 13 * unit_err) by lra.
  pose proof (prod_near o u Hacc Hu _ _ _ _ _ _ _ _ AB Bc P1' Dc) as P2.
  assert (U2 : u * (1 + (1 + 13 * unit_err) * (11 / 10)) <= u * (5 / 2)) by (apply Rmult_le_compat_l; lra). lra.
Qed.
Lemma two_sum x' x y' y : Rabs x <= 1 -> Rabs y <= 1 -> Rabs (x' - x) <= 22 * unit_err -> Rabs (y' - y) <= 22 * unit_err ->
  Rabs (o_add o x' y' - (x + y)) <= 50 * unit_err /\ Rabs (o_sub o x' y' - (x - y)) <= 50 * unit_err.
Proof.
  intros Hx Hy Dx Dy. pose proof w_nn. pose proof w_u.
  apply Rabs_le_inv in Hx. apply Rabs_le_inv in Hy. apply Rabs_le_inv in Dx. apply Rabs_le_inv in Dy.
  assert (B : forall z, Rabs z <= 3 -> u * (1 + Rabs z) <= u * 4) by (intros z Hz; apply Rmult_le_compat_l; lra).
  pose proof (acc_add _ _ Hacc x' y') as Sa. pose proof (acc_sub _ _ Hacc x' y') as Sb. unfold rounds in Sa, Sb.
  pose proof (B (x' + y') ltac:(apply Rabs_le; lra)). pose proof (B (x' - y') ltac:(apply Rabs_le; lra)).
  assert (Sa' : Rabs (o_add o x' y' - (x' + y')) <= 4 * u) by lra. assert (Sb' : Rabs (o_sub o x' y' - (x' - y')) <= 4 * u) by lra.
  apply Rabs_le_inv in Sa'. apply Rabs_le_inv in Sb'. split; apply Rabs_le; lra.
Qed.

(** a quaternion of length almost 1, normalised *)
Lemma round_normalize (q' : @Rotation (FA o)) (q : quat) : unit_q q -> dist (qR o q') q <= 100 * unit_err ->
  dist (qR o (q_normalize q')) q <= 1000 * unit_err.
Proof.
  intros U D. pose proof w_nn. pose proof w_u. set (B := qn (qR o q')).
  assert (NB : Rabs (N (qR o q') - 1) <= 100 * unit_err). { pose proof (N_dist_abs (qR o q') q) as X. rewrite (N_unit _ U) in X. lra. }
  pose proof (qn_near (qR o q') (100 * unit_err) ltac:(lra) NB) as QB. fold B in QB. apply Rabs_le_inv in QB.
  assert (S : Rabs (qx q' * qx q') + Rabs (qy q' * qy q') + Rabs (qz q' * qz q') + Rabs (qw q' * qw q') <= B).
  { rewrite !Rabs_pos_eq by apply Rle_0_sqr. unfold B, qn, qR. cbn [qx qy qz qw]. rnum. lra. }
  pose proof (Rabs_pos (qx q' * qx q')). pose proof (Rabs_pos (qy q' * qy q')). pose proof (Rabs_pos (qz q' * qz q')). pose proof (Rabs_pos (qw q' * qw q')).
  pose proof (four_terms o u Hacc Hu B (qx q' * qx q') (qy q' * qy q') (qz q' * qz q') (qw q' * qw q') _ _ _ _ true true true S
    (near_prod o u Hacc Hu B (qx q') (qx q') ltac:(lra)) (near_prod o u Hacc Hu B (qy q') (qy q') ltac:(lra))
    (near_prod o u Hacc Hu B (qz q') (qz q') ltac:(lra)) (near_prod o u Hacc Hu B (qw q') (qw q') ltac:(lra))) as F.
  cbv iota in F. unfold near in F.
  replace (qx q' * qx q' + qy q' * qy q' + qz q' * qz q' + qw q' * qw q') with B in F by (unfold B, qn, qR; cbn [qx qy qz qw]; rnum; ring).
  unfold q_normalize.
  change (@nsqrt (FA o)) with (o_sqrt o). change (@add (FA o)) with (o_add o). change (@mul (FA o)) with (o_mul o). change (@div (FA o)) with (o_div o).
  set (n := o_add o _ _) in *.
  assert (U10 : 10 * u * (1 + B) <= 10 * u * (21 / 10)) by (apply Rmult_le_compat_l; lra).
  assert (Fn : Rabs (n - B) <= 21 * u) by lra. apply Rabs_le_inv in Fn.
  assert (Hn : 9 / 10 <= n <= 11 / 10) by lra.
  pose proof (acc_sqrt _ _ Hacc n ltac:(lra)) as Sq. unfold rounds in Sq.
  assert (S1 : Rabs (sqrt n - 1) <= 321 * unit_err).
  { pose proof (sqrt_pos n) as sp. assert (ss : sqrt n * sqrt n = n) by (apply sqrt_sqrt; lra).
    assert (X : (sqrt n - 1) * (sqrt n + 1) = n - 1) by (rewrite <- ss at 3; ring).
    apply Rabs_le. split; nra. }
  assert (S1' := S1). apply Rabs_le_inv in S1'. rewrite (Rabs_pos_eq (sqrt n)) in Sq by apply sqrt_pos.
  assert (U2 : u * (1 + sqrt n) <= u * 3) by (apply Rmult_le_compat_l; lra).
  set (s := o_sqrt o n) in *. assert (Ds : Rabs (s - sqrt n) <= 3 * u) by lra. apply Rabs_le_inv in Ds.
  assert (S2 : Rabs (s - 1) <= 324 * unit_err) by (apply Rabs_le; lra). assert (S2' := S2). apply Rabs_le_inv in S2'.
  change (@neq (FA o) s n0) with (Reqb s (@n0 (FA o))). unfold Reqb.
  pose proof (zero_near o u Hacc) as Z. apply Rabs_le_inv in Z.
  destruct (Req_EM_T s (@n0 (FA o))) as [E|_]; [exfalso; rewrite E in S2'; lra|].
  assert (I : 0 < / s <= 21 / 20). { split; [apply Rinv_0_lt_compat; lra|]. replace (21 / 20) with (/ (20 / 21)) by field. apply Rinv_le_contravar; lra. }
  assert (K : forall x' x, Rabs x <= 1 -> Rabs (x' - x) <= 100 * unit_err -> Rabs (o_div o x' s - x) <= 500 * unit_err).
  { intros x' x Hx Dx. pose proof (acc_div _ _ Hacc x' s ltac:(lra)) as Q. unfold rounds in Q.
    assert (D1 : Rabs (x' / s - x) <= 446 * unit_err).
    { replace (x' / s - x) with ((x' - x) * / s + x * (1 - s) * / s) by (field; lra). eapply Rle_trans; [apply Rabs_triang|].
      rewrite !Rabs_mult, (Rabs_pos_eq (/ s)) by lra.
      assert (Rabs (x' - x) * / s <= 100 * unit_err * (21 / 20)) by (apply Rmult_le_compat; auto using Rabs_pos; lra).
      assert (E2 : Rabs (1 - s) <= 324 * unit_err) by (apply Rabs_le; lra).
      assert (E3 : Rabs x * Rabs (1 - s) <= 1 * (324 * unit_err)) by (apply Rmult_le_compat; auto using Rabs_pos).
      assert (Rabs x * Rabs (1 - s) * / s <= 1 * (324 * unit_err) * (21 / 20)).
      { apply Rmult_le_compat; try lra. apply Rmult_le_pos; auto using Rabs_pos. } lra. }
    assert (B1 : Rabs (x' / s) <= 2).
    { replace (x' / s) with (x + (x' / s - x)) by ring. eapply Rle_trans; [apply Rabs_triang|]. lra. }
    assert (u * (1 + Rabs (x' / s)) <= u * 3) by (apply Rmult_le_compat_l; lra).
    replace (o_div o x' s - x) with ((o_div o x' s - x' / s) + (x' / s - x)) by ring.
    eapply Rle_trans; [apply Rabs_triang|]. lra. }
  destruct (comp_N q) as (X1 & X2 & X3 & X4). rewrite (N_unit _ U) in *.
  destruct (comp_N (q_minus (qR o q') q)) as (D1 & D2 & D3 & D4). fold (dist (qR o q') q) in D1, D2, D3, D4.
  unfold q_minus, qR in D1, D2, D3, D4. cbn [qx qy qz qw] in D1, D2, D3, D4.
  replace (1000 * unit_err) with (2 * (500 * unit_err)) by ring. unfold dist.
  apply N_comp; unfold q_minus, qR; cbn [qx qy qz qw]; rnum; apply K; auto; eapply Rle_trans; eauto.
Qed.

Lemma round_rpy r' p' y' r p y : Rabs r <= A -> Rabs p <= A -> Rabs y <= A ->
  Rabs (r' - r) <= unit_err -> Rabs (p' - p) <= unit_err -> Rabs (y' - y) <= unit_err ->
  dist (qR o (@setFromRPY (FA o) r' p' y')) (@setFromRPY RA r p y) <= 1000 * unit_err.
Proof.
  intros Hr Hp Hy Dr Dp Dy.
  assert (Sr : fac (o_sin o (o_div o r' (@n2 (FA o)))) (sin (r / 2))) by (split; [apply Rabs_le, SIN_bound | now apply half_sin]).
  assert (Sp : fac (o_sin o (o_div o p' (@n2 (FA o)))) (sin (p / 2))) by (split; [apply Rabs_le, SIN_bound | now apply half_sin]).
  assert (Sy : fac (o_sin o (o_div o y' (@n2 (FA o)))) (sin (y / 2))) by (split; [apply Rabs_le, SIN_bound | now apply half_sin]).
  assert (Cr : fac (o_cos o (o_div o r' (@n2 (FA o)))) (cos (r / 2))) by (split; [apply Rabs_le, COS_bound | now apply half_cos]).
  assert (Cp : fac (o_cos o (o_div o p' (@n2 (FA o)))) (cos (p / 2))) by (split; [apply Rabs_le, COS_bound | now apply half_cos]).
  assert (Cy : fac (o_cos o (o_div o y' (@n2 (FA o)))) (cos (y / 2))) by (split; [apply Rabs_le, COS_bound | now apply half_cos]).
  rewrite rpy_quat. unfold setFromRPY. apply round_normalize; [apply rpy_quat_unit|].
  assert (T : forall a' a b' b c' c d' d e' e f' f, fac a' a -> fac b' b -> fac c' c -> fac d' d -> fac e' e -> fac f' f ->
    Rabs (o_add o (o_mul o (o_mul o a' b') c') (o_mul o (o_mul o d' e') f') - (a * b * c + d * e * f)) <= 50 * unit_err /\
    Rabs (o_sub o (o_mul o (o_mul o a' b') c') (o_mul o (o_mul o d' e') f') - (a * b * c - d * e * f)) <= 50 * unit_err).
  { intros a' a b' b c' c d' d e' e f' f Fa Fb Fc Fd Fe Ff.
    destruct (three _ _ _ _ _ _ Fa Fb Fc) as [B1 D1]. destruct (three _ _ _ _ _ _ Fd Fe Ff) as [B2 D2]. now apply two_sum. }
  replace (100 * unit_err) with (2 * (50 * unit_err)) by ring. unfold dist.
  apply N_comp; unfold q_minus, qR, rpy_q; cbn [qx qy qz qw]; rnum.
  - exact (proj2 (T _ _ _ _ _ _ _ _ _ _ _ _ Sr Cp Cy Cr Sp Sy)).
  - exact (proj1 (T _ _ _ _ _ _ _ _ _ _ _ _ Cr Sp Cy Sr Cp Sy)).
  - exact (proj2 (T _ _ _ _ _ _ _ _ _ _ _ _ Cr Cp Sy Sr Sp Cy)).
  - exact (proj1 (T _ _ _ _ _ _ _ _ _ _ _ _ Cr Cp Cy Sr Sp Sy)).
Qed.
End Rpy.
