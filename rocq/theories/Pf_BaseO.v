(** Orientation rows of the base rotation columns: the error of the finite difference. *)
From Coq Require Import QArith String List Arith Lia Bool Reals Lra.
From Coquelicot Require Import Coquelicot.
From Verif Require Import Base Num Pose DataStructure Urdf Kin Wrapper Spec_Robot Spec_Hist Spec_Load Spec_Jac Spec_Rot Spec_Deriv RealArith
  Pf_Base Pf_Real Pf_Rot Pf_Unit Pf_Rpy Pf_Deriv Pf_BaseD Pf_Lock.
Import ListNotations.
Local Open Scope R_scope.

(** ** sinusoids that stay within [-1, 1] *)
Definition wave (f : R -> R) : Prop := exists a w c, forall t, f t = a * cos t + w * sin t + c.
Lemma wave_facts f : wave f -> (forall t, -1 <= f t <= 1) ->
  exists f1 f2, (forall t, derivable_pt_lim f t (f1 t)) /\ (forall t, derivable_pt_lim f1 t (f2 t)) /\ forall t, (-1 <= f1 t <= 1) /\ (-1 <= f2 t <= 1).
Proof.
  intros (a & w & c & E) H. exists (fun t => w * cos t - a * sin t), (fun t => - (a * cos t + w * sin t)). split; [|split].
  - intros t. apply (dext (fun t => a * cos t + w * sin t + c)); [intros x; symmetry; apply E|]. apply wave_derive.
  - intros t. apply is_deriv. auto_derive; auto. ring.
  - intros t. pose proof (H (t + PI / 2)) as H1. pose proof (H (t - PI / 2)) as H2. pose proof (H (t + PI)) as H3. pose proof (H t) as H4. rewrite E in H1, H2, H3, H4.
    rewrite cos_plus, sin_plus, cos_PI2, sin_PI2 in H1. rewrite cos_minus, sin_minus, cos_PI2, sin_PI2 in H2. rewrite cos_plus, sin_plus, cos_PI, sin_PI in H3. lra.
Qed.

Lemma lipschitz (f f1 : R -> R) (k x h z : R) : (forall t, derivable_pt_lim f t (f1 t)) -> (forall t, - k <= f1 t <= k) -> x <= z <= x + h -> - (k * h) <= f z - f x <= k * h.
Proof.
  intros D B H. destruct (Req_dec z x) as [->|N]. { pose proof (B x). assert (0 <= k) by lra. assert (0 <= k * h) by (apply Rmult_le_pos; lra). lra. }
  destruct (MVT_cor2 f f1 x z ltac:(lra)) as (y & E & _); [intros; apply D|]. rewrite E. pose proof (B y) as By. assert (0 <= k) by lra.
  assert (X : - (k * (z - x)) <= f1 y * (z - x) <= k * (z - x)) by (split; [replace (- (k * (z - x))) with (- k * (z - x)) by ring|]; apply Rmult_le_compat_r; lra).
  assert (k * (z - x) <= k * h) by (apply Rmult_le_compat_l; lra). lra.
Qed.
Lemma quotient_error (f f1 : R -> R) (K x h : R) : 0 < h -> (forall z, x <= z <= x + h -> derivable_pt_lim f z (f1 z)) ->
  (forall z, x <= z <= x + h -> Rabs (f1 z - f1 x) <= K) -> Rabs ((f (x + h) - f x) / h - f1 x) <= K.
Proof.
  intros H D B. destruct (MVT_cor2 f f1 x (x + h) ltac:(lra)) as (z & E & Hz); [intros; apply D; lra|]. rewrite E.
  replace (f1 z * (x + h - x) / h) with (f1 z) by (field; lra). apply B. lra.
Qed.

Lemma prod1 (a b : R) : -1 <= a <= 1 -> -1 <= b <= 1 -> -1 <= a * b <= 1.
Proof. intros A B. split; nra. Qed.
(** a quotient [n / d] of perturbed numbers *)
Lemma ratio_error (n n' d d' a b : R) : 0 < d -> d / 2 <= d' -> Rabs (n' - n) <= a -> Rabs (d' - d) <= b -> Rabs n <= 2 ->
  Rabs (n' / d' - n / d) <= 2 * a / d + 4 * b / (d * d).
Proof.
  intros D D' A B N. assert (0 < d') by lra.
  replace (n' / d' - n / d) with ((n' - n) * / d' + n * (d - d') * (/ d' * / d)) by (field; lra).
  assert (I : / d' <= 2 * / d) by (replace (2 * / d) with (/ (d / 2)) by (field; lra); apply Rinv_le_contravar; lra).
  assert (P : 0 < / d) by now apply Rinv_0_lt_compat. assert (P' : 0 < / d') by now apply Rinv_0_lt_compat.
  eapply Rle_trans; [apply Rabs_triang|]. rewrite !Rabs_mult, (Rabs_pos_eq (/ d')), (Rabs_pos_eq (/ d)) by lra. rewrite (Rabs_minus_sym d d').
  replace (2 * a / d) with (a * (2 * / d)) by (field; lra). replace (4 * b / (d * d)) with (2 * b * (2 * / d * / d)) by (field; lra).
  apply Rplus_le_compat; [apply Rmult_le_compat; try lra; apply Rabs_pos|].
  pose proof (Rabs_pos n). pose proof (Rabs_pos (d' - d)).
  apply Rmult_le_compat; [apply Rmult_le_pos; lra|apply Rmult_le_pos; lra| |apply Rmult_le_compat_r; lra]. apply Rmult_le_compat; lra.
Qed.

Lemma atan2_error (f g : R -> R) (x h : R) : wave f -> wave g -> (forall t, -1 <= f t <= 1) -> (forall t, -1 <= g t <= 1) -> 0 < h <= 1 / 1000000 ->
  let D := g x * g x + f x * f x in 1 / 10000 <= D <= 1 -> h < g x \/ h < Rabs (f x) ->
  exists d, derivable_pt_lim (fun t => ratan2 (f t) (g t)) x d /\ Rabs ((ratan2 (f (x + h)) (g (x + h)) - ratan2 (f x) (g x)) / h - d) <= 20 * h / (D * D).
Proof.
  intros Wf Wg Bf Bg Hh D HD Cut. destruct (wave_facts f Wf Bf) as (f1 & f2 & Df & Df1 & Bf'). destruct (wave_facts g Wg Bg) as (g1 & g2 & Dg & Dg1 & Bg').
  set (N := fun z => g z * f1 z - f z * g1 z). set (Q := fun z => g z * g z + f z * f z).
  assert (Lf : forall z, x <= z <= x + h -> - h <= f z - f x <= h) by (intros z Hz; pose proof (lipschitz f f1 1 x h z Df ltac:(intros t; destruct (Bf' t); lra) Hz); lra).
  assert (Lg : forall z, x <= z <= x + h -> - h <= g z - g x <= h) by (intros z Hz; pose proof (lipschitz g g1 1 x h z Dg ltac:(intros t; destruct (Bg' t); lra) Hz); lra).
  assert (DN : forall t, derivable_pt_lim N t (g t * f2 t - f t * g2 t)).
  { intros t. pose proof (derivable_pt_lim_minus _ _ _ _ _ (derivable_pt_lim_mult _ _ _ _ _ (Dg t) (Df1 t)) (derivable_pt_lim_mult _ _ _ _ _ (Df t) (Dg1 t))) as H.
    replace (g t * f2 t - f t * g2 t) with (g1 t * f1 t + g t * f2 t - (f1 t * g1 t + f t * g2 t)) by ring. exact H. }
  assert (DQ : forall t, derivable_pt_lim Q t (2 * (g t * g1 t) + 2 * (f t * f1 t))).
  { intros t. pose proof (derivable_pt_lim_plus _ _ _ _ _ (derivable_pt_lim_mult _ _ _ _ _ (Dg t) (Dg t)) (derivable_pt_lim_mult _ _ _ _ _ (Df t) (Df t))) as H.
    replace (2 * (g t * g1 t) + 2 * (f t * f1 t)) with (g1 t * g t + g t * g1 t + (f1 t * f t + f t * f1 t)) by ring. exact H. }
  assert (LN : forall z, x <= z <= x + h -> - (2 * h) <= N z - N x <= 2 * h).
  { intros z Hz. apply (lipschitz N _ 2 x h z DN); [|exact Hz]. intros t. destruct (Bf' t), (Bg' t). pose proof (prod1 (g t) (f2 t) (Bg t) ltac:(lra)). pose proof (prod1 (f t) (g2 t) (Bf t) ltac:(lra)). lra. }
  assert (LQ : forall z, x <= z <= x + h -> - (4 * h) <= Q z - Q x <= 4 * h).
  { intros z Hz. apply (lipschitz Q _ 4 x h z DQ); [|exact Hz]. intros t. destruct (Bf' t), (Bg' t). pose proof (prod1 (g t) (g1 t) (Bg t) ltac:(lra)). pose proof (prod1 (f t) (f1 t) (Bf t) ltac:(lra)). lra. }
  assert (BN : Rabs (N x) <= 2).
  { apply Rabs_le. unfold N. destruct (Bf' x), (Bg' x). pose proof (prod1 (g x) (f1 x) (Bg x) ltac:(lra)). pose proof (prod1 (f x) (g1 x) (Bf x) ltac:(lra)). lra. }
  assert (EQ : Q x = D) by reflexivity.
  exists (N x / Q x).
  assert (Der : forall z, x <= z <= x + h -> derivable_pt_lim (fun t => ratan2 (f t) (g t)) z (N z / Q z)).
  { intros z Hz. apply ratan2_derive; [apply Df|apply Dg|]. pose proof (Lf z Hz). pose proof (Lg z Hz). destruct Cut as [C|C]; [left; lra|].
    right. intros Z. unfold Rabs in C. destruct (Rcase_abs (f x)); lra. }
  split; [apply Der; lra|]. apply (quotient_error (fun t => ratan2 (f t) (g t)) (fun z => N z / Q z)); [lra|exact Der|].
  intros z Hz. pose proof (LN z Hz). pose proof (LQ z Hz).
  eapply Rle_trans; [apply (ratio_error (N x) (N z) (Q x) (Q z) (2 * h) (4 * h)); try (apply Rabs_le; lra); try exact BN; lra|].
  rewrite EQ. assert (I : 1 <= / D) by (rewrite <- Rinv_1; apply Rinv_le_contravar; lra).
  replace (2 * (2 * h) / D + 4 * (4 * h) / (D * D)) with (4 * h * / D + 16 * h * (/ D * / D)) by (field; lra).
  replace (20 * h / (D * D)) with (4 * h * (/ D * / D) + 16 * h * (/ D * / D)) by (field; lra).
  apply Rplus_le_compat_r, Rmult_le_compat_l; [lra|]. nra.
Qed.

Lemma asin_error (f : R -> R) (x h : R) : wave f -> (forall t, -1 <= f t <= 1) -> 0 < h <= 1 / 1000000 ->
  let D := 1 - f x * f x in 1 / 10000 <= D ->
  exists d, derivable_pt_lim (fun t => asin (f t)) x d /\ Rabs ((asin (f (x + h)) - asin (f x)) / h - d) <= 20 * h / (D * D).
Proof.
  intros Wf Bf Hh D HD. destruct (wave_facts f Wf Bf) as (f1 & f2 & Df & Df1 & Bf').
  assert (Lf : forall z, x <= z <= x + h -> - h <= f z - f x <= h) by (intros z Hz; pose proof (lipschitz f f1 1 x h z Df ltac:(intros t; destruct (Bf' t); lra) Hz); lra).
  assert (Lf1 : forall z, x <= z <= x + h -> - h <= f1 z - f1 x <= h) by (intros z Hz; pose proof (lipschitz f1 f2 1 x h z Df1 ltac:(intros t; destruct (Bf' t); lra) Hz); lra).
  set (Q := fun z => 1 - f z * f z).
  assert (LQ : forall z, x <= z <= x + h -> - (2 * h) <= Q z - Q x <= 2 * h).
  { intros z Hz. pose proof (Lf z Hz). pose proof (Bf z). pose proof (Bf x). unfold Q. replace (1 - f z * f z - (1 - f x * f x)) with (- ((f z - f x) * (f z + f x))) by ring.
    assert (A : Rabs ((f z - f x) * (f z + f x)) <= h * 2) by (rewrite Rabs_mult; apply Rmult_le_compat; try apply Rabs_pos; apply Rabs_le; lra).
    apply Rabs_def2b in A || (assert (A' := Rabs_le_between ((f z - f x) * (f z + f x)) (h * 2)); apply A' in A). lra. }
  assert (EQ : Q x = D) by reflexivity. assert (D1 : D <= 1) by (unfold D; pose proof (Rle_0_sqr (f x)) as S; unfold Rsqr in S; lra).
  assert (Der : forall z, x <= z <= x + h -> derivable_pt_lim (fun t => asin (f t)) z (f1 z / sqrt (Q z))).
  { intros z Hz. apply asin_derive; [apply Df|]. pose proof (LQ z Hz) as L. rewrite EQ in L. assert (0 < Q z) by lra. unfold Q in *. split; nra. }
  exists (f1 x / sqrt (Q x)). split; [apply Der; lra|]. apply (quotient_error (fun t => asin (f t)) (fun z => f1 z / sqrt (Q z))); [lra|exact Der|].
  intros z Hz. pose proof (LQ z Hz) as L. pose proof (Lf1 z Hz) as L1. rewrite EQ in L. rewrite EQ. set (k := sqrt D). set (k' := sqrt (Q z)).
  assert (K : k * k = D) by (apply sqrt_sqrt; lra). assert (K' : k' * k' = Q z) by (apply sqrt_sqrt; lra). assert (0 < k) by (apply sqrt_lt_R0; lra). assert (0 < k') by (apply sqrt_lt_R0; lra).
  assert (Hk' : k / 2 <= k') by nra. assert (k <= 1) by nra.
  assert (HK : Rabs (k' - k) <= 2 * h / k).
  { assert (E : k' - k = (Q z - D) / (k' + k)) by (rewrite <- K, <- K'; field; lra). rewrite E. unfold Rdiv. rewrite Rabs_mult, (Rabs_pos_eq (/ (k' + k))) by (apply Rlt_le, Rinv_0_lt_compat; lra).
    apply Rmult_le_compat; [apply Rabs_pos|apply Rlt_le, Rinv_0_lt_compat; lra|apply Rabs_le; lra|apply Rinv_le_contravar; lra]. }
  eapply Rle_trans; [apply (ratio_error (f1 x) (f1 z) k k' h (2 * h / k)); [lra|lra|apply Rabs_le; lra|exact HK|apply Rabs_le; destruct (Bf' x); lra]|].
  assert (I : 1 <= / k) by (rewrite <- Rinv_1; apply Rinv_le_contravar; lra). rewrite <- K.
  replace (2 * h / k + 4 * (2 * h / k) / (k * k)) with (h * (2 * / k + 8 * (/ k * / k * / k))) by (field; lra).
  replace (20 * h / (k * k * (k * k))) with (h * (20 * (/ k * / k * / k * / k))) by (field; lra).
  apply Rmult_le_compat_l; [lra|]. set (i := / k) in *. assert (A1 : 1 <= i * i) by nra. assert (A2 : i <= i * i * (i * i)) by nra. assert (A3 : i * i * i <= i * i * i * i) by nra. nra.
Qed.

(** ** the link's rotation matrix while the base turns *)
Lemma quat_entry q i k : unit_q q -> -1 <= vcomp i (mcol k (quat_mat q)) <= 1.
Proof.
  intros U. destruct (quat_rotation q U) as (_ & E & _). destruct (quat_mat q) as [a11 a12 a13 a21 a22 a23 a31 a32 a33].
  unfold mmul, mtr, mid in E. cbn [m11 m12 m13 m21 m22 m23 m31 m32 m33] in E. injection E as E1 E2 E3 E4 E5 E6 E7 E8 E9.
  assert (X : forall x y z : R, x * x + y * y + z * z = 1 -> -1 <= x <= 1 /\ -1 <= y <= 1 /\ -1 <= z <= 1).
  { intros x y z H. pose proof (Rle_0_sqr x). pose proof (Rle_0_sqr y). pose proof (Rle_0_sqr z). unfold Rsqr in *.
    repeat split; try (pose proof (sq_small x 1 ltac:(lra) ltac:(lra)); lra); try (pose proof (sq_small y 1 ltac:(lra) ltac:(lra)); lra); pose proof (sq_small z 1 ltac:(lra) ltac:(lra)); lra. }
  destruct (X _ _ _ E1) as (? & ? & ?), (X _ _ _ E5) as (? & ? & ?), (X _ _ _ E9) as (? & ? & ?).
  destruct k as [|[|k]], i as [|[|i]]; cbn [mcol vcomp vx vy vz m11 m12 m13 m21 m22 m23 m31 m32 m33]; assumption.
Qed.

Lemma rpy_not_locked q : unit_q q -> Rabs (sin (vy (getRPY q))) <= 9999 / 10000 ->
  away q /\ Rabs (m31 (quat_mat q)) <= 9999 / 10000 /\ sin (vy (getRPY q)) = - m31 (quat_mat q) /\
  getRPY q = @V3 RA (ratan2 (m32 (quat_mat q)) (m33 (quat_mat q))) (asin (- m31 (quat_mat q))) (ratan2 (m21 (quat_mat q)) (m11 (quat_mat q))).
Proof.
  intros U H. destruct (quat_mat_row q U) as (E31 & E32 & E33 & E21 & E11).
  assert (A : away q).
  { unfold away. destruct (Rlt_dec (Rabs (2 * (qw q * qy q - qx q * qz q))) (99999 / 100000)) as [L|N]; [exact L|exfalso].
    assert (X : vy (getRPY q) = Q2R (157079632679489661923 # 100000000000000000000) \/ vy (getRPY q) = - Q2R (157079632679489661923 # 100000000000000000000)).
    { unfold getRPY. rnum. rewrite Q2R_99, Q2R_m99. replace (-2 * (qx q * qz q - qw q * qy q)) with (2 * (qw q * qy q - qx q * qz q)) by ring. unfold Rleb.
      destruct (Rle_dec (2 * (qw q * qy q - qx q * qz q)) (- (99999 / 100000))) as [L|L]; [right; cbn [vy]; unfold Q2R; simpl; lra|].
      destruct (Rle_dec (99999 / 100000) (2 * (qw q * qy q - qx q * qz q))) as [L2|L2]; [left; cbn [vy]; reflexivity|].
      exfalso. apply N, Rabs_def1; lra. }
    destruct lock_const as [_ Hl]. set (L := Q2R (157079632679489661923 # 100000000000000000000)) in *. clearbody L.
    change (@num RA) with R in X. destruct X as [X|X]; rewrite X in H; [|rewrite sin_neg, Rabs_Ropp in H]; rewrite Rabs_pos_eq in H by lra; lra. }
  assert (G : getRPY q = @V3 RA (ratan2 (m32 (quat_mat q)) (m33 (quat_mat q))) (asin (- m31 (quat_mat q))) (ratan2 (m21 (quat_mat q)) (m11 (quat_mat q)))).
  { rewrite getRPY_away by auto. rewrite E31, E32, E33, E21, E11, Ropp_involutive. reflexivity. }
  assert (S : sin (vy (getRPY q)) = - m31 (quat_mat q)).
  { rewrite G. cbn [vy]. unfold away in A. apply Rabs_def2 in A. apply sin_asin. rewrite E31. lra. }
  rewrite S, Rabs_Ropp in H. auto.
Qed.

(** staying off the cut of the arctangent *)
Lemma off_cut_margin (a : R) : - (PI - 1 / 10) <= a <= PI - 1 / 10 -> 1 / 2 <= cos a \/ 9 / 100 <= Rabs (sin a).
Proof.
  intros H. destruct (Rle_dec (1 / 2) (cos a)) as [L|N]; [now left|right].
  assert (C : sin (1 / 20) <= cos (a / 2)).
  { rewrite <- (cos_shift (1 / 20)). assert (X : cos (PI / 2 - 1 / 20) <= cos (Rabs (a / 2))).
    { apply cos_decr_1; pose proof PI_RGT_0; pose proof (Rabs_pos (a / 2)); pose proof PI2_3_2; try lra; unfold Rabs; destruct (Rcase_abs (a / 2)); lra. }
    unfold Rabs in X. destruct (Rcase_abs (a / 2)); [rewrite cos_neg in X|]; exact X. }
  assert (S : 49 / 1000 <= sin (1 / 20)).
  { assert (P : 0 <= sin (1 / 20)) by (pose proof PI2_3_2; apply sin_ge_0; lra). pose proof (sc2 (1 / 20)) as Q. destruct (cos_poly (1 / 20) ltac:(lra)) as [_ K].
    assert (K' : cos (1 / 20) <= 9988 / 10000) by lra. assert (0 <= cos (1 / 20)) by (pose proof PI2_3_2; apply cos_ge_0; lra). nra. }
  assert (D : cos a = 2 * (cos (a / 2) * cos (a / 2)) - 1) by (replace a with (2 * (a / 2)) at 1 by field; rewrite cos_2a_cos; ring).
  assert (G0 : 49 / 1000 * (49 / 1000) <= cos (a / 2) * cos (a / 2)) by (apply Rmult_le_compat; lra). assert (G : - (9952 / 10000) <= cos a) by lra. pose proof (sc2 a) as Q.
  assert (G2 : 81 / 10000 <= sin a * sin a) by nra.
  destruct (Rle_dec (9 / 100) (Rabs (sin a))) as [|X]; [assumption|exfalso]. assert (Y : - (9 / 100) <= sin a <= 9 / 100) by (apply Rabs_le_between; lra).
  assert (Rabs (sin a) * Rabs (sin a) < 9 / 100 * (9 / 100)) by (apply Rmult_le_0_lt_compat; try apply Rabs_pos; lra).
  rewrite <- Rabs_mult, Rabs_pos_eq in H0 by lra. lra.
Qed.

Section Turn.
Context (pos v : vec) (D : pose) (b : nat).
Context (Lb : (b < 3)%nat) (UD : unit_q (rotation D)) (Hp : - (PI / 2) < vy v < PI / 2) (Hs : Rabs (sin (vy v)) < 99999 / 100000).
Let link (t : R) : pose := pose_transform (mkPose pos (from_rpy (with_coord b t v))) D.
Let MM (t : R) : M33 := quat_mat (rotation (link t)).
Let x0 := coord b v.
Let h : R := 1 / 10000000.

Lemma link_unit t : unit_q (rotation (link t)).
Proof. unfold link. cbn [pose_transform rotation]. apply unit_mul; [|exact UD]. unfold from_rpy. apply rpy_unit. Qed.
Lemma MM_wave i k : wave (fun t => vcomp i (mcol k (MM t))).
Proof.
  destruct (rpy_wave b v (mcol k (quat_mat (rotation D))) i Lb) as (a & w & c & E & _). exists a, w, c. intros t. rewrite <- E. unfold MM, link. cbn [pose_transform rotation].
  rewrite quat_mat_mul by (try exact UD; unfold from_rpy; apply rpy_unit). unfold from_rpy. rewrite rpy_mat, mcol_mul. reflexivity.
Qed.
Lemma turned_mat : let B := mkPose pos (from_rpy v) in let E := pose_transform B D in
  pose_transform (pose_inverse B) E = D -> unit_q (rotation (base_turned b B E)) /\ quat_mat (rotation (base_turned b B E)) = MM (x0 + h).
Proof.
  intros B E HD. destruct (read_back v Hp Hs) as (R1 & R2 & R3 & R4 & R5).
  assert (T : rotation (base_turned b B E) = q_mul (from_rpy (v_add_at b fd_eps (getRPY (from_rpy v)))) (rotation D)) by (unfold base_turned; rewrite HD; reflexivity).
  rewrite T. split; [apply unit_mul; [unfold from_rpy; apply rpy_unit|exact UD]|].
  unfold MM, link. cbn [pose_transform rotation]. rewrite !quat_mat_mul by (try exact UD; unfold from_rpy; apply rpy_unit). f_equal.
  pose proof (Rot3_turn (getRPY (from_rpy v)) v b (@fd_eps RA) Lb R1 R2 R3 R4 R5) as X. rewrite fd_eps_R in *. unfold Rot3 in X. unfold from_rpy at 1 3. rewrite !rpy_mat. exact X.
Qed.

Let e0 := link x0.
Context (Hl : Rabs (sin (vy (getRPY (rotation e0)))) <= 9999 / 10000).
Context (Hr : - (PI - 1 / 10) <= vx (getRPY (rotation e0)) <= PI - 1 / 10) (Hy : - (PI - 1 / 10) <= vz (getRPY (rotation e0)) <= PI - 1 / 10).

Lemma m31_is : exists s, s = sin (vy (getRPY (rotation e0))) /\ m31 (MM x0) = - s /\ 0 < 1 - s * s /\ 1 / 10000 <= 1 - s * s <= 1 /\ cos (vy (getRPY (rotation e0))) * cos (vy (getRPY (rotation e0))) = 1 - s * s.
Proof.
  destruct (rpy_not_locked _ (link_unit x0) Hl) as (_ & A & S & _). fold (MM x0) in S. change (link x0) with e0 in S. exists (sin (vy (getRPY (rotation e0)))). split; [reflexivity|].
  pose proof (sc2 (vy (getRPY (rotation e0)))) as Q. apply Rabs_le_between in Hl. pose proof Hl as K. set (s := sin (vy (getRPY (rotation e0)))) in *.
  split; [lra|]. clear S A. pose proof (Rle_0_sqr s) as Z. unfold Rsqr in Z. clearbody s. repeat split; nra.
Qed.
Lemma mm_entry i k t : -1 <= vcomp i (mcol k (MM t)) <= 1.
Proof. apply quat_entry, link_unit. Qed.

(** near the current angle the link stays away from gimbal lock *)
Lemma near_away t : x0 - 1 / 100000 <= t <= x0 + 1 / 100000 -> away (rotation (link t)).
Proof.
  intros Ht. destruct m31_is as (s & Es & E31 & _). apply Rabs_le_between in Hl as K. rewrite <- Es in K.
  destruct (wave_facts _ (MM_wave 2 0) (mm_entry 2 0)) as (f1 & f2 & Df & _ & Bf).
  assert (L : - (1 / 100000) <= m31 (MM t) - m31 (MM x0) <= 1 / 100000).
  { destruct (Rle_dec x0 t) as [G|G].
    - pose proof (lipschitz _ f1 1 x0 (1 / 100000) t Df ltac:(intros y; destruct (Bf y); lra) ltac:(lra)) as X. cbn [mcol vcomp vx vy vz] in X. lra.
    - pose proof (lipschitz _ f1 1 t (1 / 100000) x0 Df ltac:(intros y; destruct (Bf y); lra) ltac:(lra)) as X. cbn [mcol vcomp vx vy vz] in X. lra. }
  unfold away. destruct (quat_mat_row _ (link_unit t)) as (E & _). fold (MM t) in E.
  replace (2 * (qw (rotation (link t)) * qy (rotation (link t)) - qx (rotation (link t)) * qz (rotation (link t)))) with (- m31 (MM t)) by lra.
  apply Rabs_def1; lra.
Qed.
Lemma near_rpy q t : unit_q q -> quat_mat q = MM t -> x0 - 1 / 100000 <= t <= x0 + 1 / 100000 ->
  getRPY q = @V3 RA (ratan2 (m32 (MM t)) (m33 (MM t))) (asin (- m31 (MM t))) (ratan2 (m21 (MM t)) (m11 (MM t))).
Proof.
  intros U EM Ht. destruct (quat_mat_row _ (link_unit t)) as (E1 & _). destruct (quat_mat_row q U) as (E31 & E32 & E33 & E21 & E11). rewrite EM in *.
  assert (A : away q) by (pose proof (near_away t Ht) as A; unfold away in *; fold (MM t) in E1; apply Rabs_def2 in A; apply Rabs_def1; lra).
  rewrite getRPY_away by auto. rewrite E31, E32, E33, E21, E11, Ropp_involutive. reflexivity.
Qed.

Definition angle_fun (i : nat) (t : R) : R :=
  match i with 0%nat => ratan2 (m32 (MM t)) (m33 (MM t)) | 1%nat => asin (- m31 (MM t)) | _ => ratan2 (m21 (MM t)) (m11 (MM t)) end.
Lemma angle_fun_is q i t : unit_q q -> quat_mat q = MM t -> x0 - 1 / 100000 <= t <= x0 + 1 / 100000 -> vcomp i (getRPY q) = angle_fun i t.
Proof. intros U E Ht. rewrite (near_rpy q t U E Ht). destruct i as [|[|i]]; reflexivity. Qed.

Lemma angle_error i : (i < 3)%nat ->
  exists d, derivable_pt_lim (angle_fun i) x0 d /\ Rabs ((angle_fun i (x0 + h) - angle_fun i x0) / h - d) <= 2 / 1000000 / (cos (vy (getRPY (rotation e0)))) ^ 4.
Proof.
  intros Li. destruct m31_is as (s & Es & E31 & P & P2 & Ec). set (c := cos (vy (getRPY (rotation e0)))) in *.
  replace (2 / 1000000 / c ^ 4) with (20 * h / ((1 - s * s) * (1 - s * s))) by (rewrite <- Ec; unfold h; simpl; field; intros Z; rewrite Z in Ec; lra).
  destruct (quat_cof _ (link_unit x0)) as (_ & _ & _ & _ & C5 & C6). fold (MM x0) in C5, C6. rewrite E31 in C5, C6.
  pose proof (near_rpy (rotation e0) x0 (link_unit x0) eq_refl ltac:(lra)) as G. rewrite G in Hr, Hy. cbn [vx vz] in Hr, Hy.
  assert (Cut : forall f g : R, g * g + f * f = 1 - s * s -> - (PI - 1 / 10) <= ratan2 f g <= PI - 1 / 10 -> h < g \/ h < Rabs f).
  { intros f g Q H. assert (N : g <> 0 \/ f <> 0) by (destruct (Req_dec g 0) as [->|]; [right; intros ->; lra|now left]).
    pose proof (cos_atan2 f g N) as X. pose proof (sin_atan2 f g N) as Y. rewrite Q in X, Y. set (k := sqrt (1 - s * s)) in *.
    assert (K : 1 / 100 <= k) by (apply le_sqrt_sq; lra). assert (Xg : g = k * cos (ratan2 f g)) by (rewrite X; field; lra). assert (Yf : f = k * sin (ratan2 f g)) by (rewrite Y; field; lra).
    destruct (off_cut_margin _ H) as [M|M]; [left; rewrite Xg; unfold h; nra|right]. rewrite Yf, Rabs_mult, (Rabs_pos_eq k) by lra. unfold h. nra. }
  assert (Hh : 0 < h <= 1 / 1000000) by (unfold h; lra).
  destruct i as [|[|[|i]]]; [| | |lia].
  - assert (Q : m33 (MM x0) * m33 (MM x0) + m32 (MM x0) * m32 (MM x0) = 1 - s * s) by lra.
    destruct (atan2_error (fun t => m32 (MM t)) (fun t => m33 (MM t)) x0 h (MM_wave 2 1) (MM_wave 2 2) (mm_entry 2 1) (mm_entry 2 2) Hh ltac:(lra) (Cut _ _ Q Hr)) as (d & H1 & H2).
    exists d. split; [exact H1|]. rewrite <- Q. exact H2.
  - assert (W : wave (fun t => - m31 (MM t))) by (destruct (MM_wave 2 0) as (a & w & k & E); exists (- a), (- w), (- k); intros t; cbn [mcol vcomp vz] in E; rewrite E; ring).
    destruct (asin_error (fun t => - m31 (MM t)) x0 h W ltac:(intros t; pose proof (mm_entry 2 0 t) as X; cbn [mcol vcomp vz] in X; lra) Hh ltac:(cbv beta zeta; rewrite E31; lra)) as (d & H1 & H2).
    exists d. split; [exact H1|]. assert (Q : 1 - - m31 (MM x0) * - m31 (MM x0) = 1 - s * s) by (rewrite E31; ring). rewrite <- Q. exact H2.
  - assert (Q : m11 (MM x0) * m11 (MM x0) + m21 (MM x0) * m21 (MM x0) = 1 - s * s) by lra.
    destruct (atan2_error (fun t => m21 (MM t)) (fun t => m11 (MM t)) x0 h (MM_wave 1 0) (MM_wave 0 0) (mm_entry 1 0) (mm_entry 0 0) Hh ltac:(lra) (Cut _ _ Q Hy)) as (d & H1 & H2).
    exists d. split; [exact H1|]. rewrite <- Q. exact H2.
Qed.

Lemma base_turn_rpy_error i : (i < 3)%nat -> let B := mkPose pos (from_rpy v) in let E := pose_transform B D in
  pose_transform (pose_inverse B) E = D ->
  exists d, derivable_pt_lim (fun t => reported RPY (3 + i) (link t)) x0 d /\
    Rabs (nth (3 + i) (base_quotient RPY b B E) 0 - d) <= 2 / 1000000 / (cos (vy (getRPY (rotation e0)))) ^ 4.
Proof.
  intros Li B E HD. destruct (angle_error i Li) as (d & H1 & H2). exists d.
  assert (RP : forall P : pose, reported RPY (3 + i) P = vcomp i (getRPY (rotation P))) by (intros P; unfold reported, link_row; destruct i as [|[|[|i']]]; [reflexivity..|lia]).
  split.
  - apply (dext_loc (angle_fun i)); [|exact H1]. exists (mkposreal (1 / 100000) ltac:(lra)). intros t Ht. unfold ball in Ht. cbn in Ht. unfold AbsRing_ball, abs, minus, plus, opp in Ht. cbn in Ht.
    apply Rabs_def2 in Ht. rewrite RP. symmetry. apply (angle_fun_is (rotation (link t)) i t (link_unit t) eq_refl). lra.
  - destruct (turned_mat HD) as (U & EM).
    assert (N : nth (3 + i) (base_quotient RPY b B E) 0 = (vcomp i (getRPY (rotation (base_turned b B E))) - vcomp i (getRPY (rotation E))) / h).
    { unfold base_quotient, link_row. set (X := base_turned b B E). destruct i as [|[|[|i']]]; try lia; cbn [app combine map nth fst snd vcomp Nat.add]; rnum; rewrite fd_eps_R; reflexivity. }
    rewrite N. change (mkPose pos (from_rpy v)) with B in U, EM. change (pose_transform B D) with E in U, EM. rewrite (angle_fun_is _ i (x0 + h) U EM) by (unfold h; lra).
    rewrite (angle_fun_is (rotation E) i x0); [exact H2| | |lra].
    + unfold E, B. pose proof (link_unit x0) as Y. unfold link, x0 in Y. rewrite with_coord_same in Y. exact Y.
    + unfold MM, link, x0. now rewrite with_coord_same.
Qed.
End Turn.

(** ** quaternion rows *)
Definition qcomb (c : R) (a : quat) (s : R) (b : quat) : quat := @Q4 RA (c * qx a + s * qx b)%R (c * qy a + s * qy b)%R (c * qz a + s * qz b)%R (c * qw a + s * qw b)%R.
Lemma qcomb_l c a s b d : q_mul (qcomb c a s b) d = qcomb c (q_mul a d) s (q_mul b d).
Proof. unfold qcomb, q_mul. apply q_eq; cbn [qx qy qz qw]; rnum; ring. Qed.
Lemma qcomb_r c a s b d : q_mul d (qcomb c a s b) = qcomb c (q_mul d a) s (q_mul d b).
Proof. unfold qcomb, q_mul. apply q_eq; cbn [qx qy qz qw]; rnum; ring. Qed.
Lemma qcomp_comb k c a s b : qcomp k (qcomb c a s b) = c * qcomp k a + s * qcomp k b.
Proof. destruct k as [|[|[|k]]]; reflexivity. Qed.
Lemma axis_comb u t : axis_q u t = qcomb (cos (t / 2)) (axis_q u 0) (sin (t / 2)) (axis_q u PI).
Proof.
  unfold axis_q, qcomb. replace (0 / 2) with 0 by field. rewrite sin_0, cos_0, sin_PI2, cos_PI2. apply q_eq; cbn [qx qy qz qw]; rnum; ring.
Qed.
Lemma quat_wave b v d k : (b < 3)%nat -> exists a w, (forall t, qcomp k (q_mul (from_rpy (with_coord b t v)) d) = a * cos (t / 2) + w * sin (t / 2) + 0).
Proof.
  intros Lb. destruct v as [r p y].
  assert (X : exists A W, forall t, from_rpy (with_coord b t (V3 r p y)) = qcomb (cos (t / 2)) A (sin (t / 2)) W).
  { destruct b as [|[|[|b]]]; [| | |lia]; eexists; eexists; intros t; unfold from_rpy; rewrite setFromRPY_q; cbn [with_coord vx vy vz]; unfold zq, yq, xq.
    - rewrite (axis_comb _ t), !qcomb_r. reflexivity.
    - rewrite (axis_comb _ t), qcomb_l, qcomb_r. reflexivity.
    - rewrite (axis_comb _ t), qcomb_l. reflexivity. }
  destruct X as (A & W & X). exists (qcomp k (q_mul A d)), (qcomp k (q_mul W d)). intros t. rewrite X, qcomb_l, qcomp_comb. ring.
Qed.
Lemma qcomp_unit k q : unit_q q -> -1 <= qcomp k q <= 1.
Proof.
  unfold unit_q, qn. rnum. intros H. pose proof (Rle_0_sqr (qx q)). pose proof (Rle_0_sqr (qy q)). pose proof (Rle_0_sqr (qz q)). pose proof (Rle_0_sqr (qw q)). unfold Rsqr in *.
  destruct k as [|[|[|k]]]; cbn [qcomp]; match goal with |- _ <= ?x <= _ => pose proof (sq_small x 1 ltac:(lra) ltac:(lra)); lra end.
Qed.

Lemma base_turn_quat_error (pos v : vec) (D : pose) b k : (b < 3)%nat -> (k < 4)%nat -> unit_q (rotation D) ->
  - PI < vx v <= PI -> - PI < vz v <= PI -> - (PI / 2) < vy v < PI / 2 -> Rabs (sin (vy v)) < 99999 / 100000 ->
  let B := mkPose pos (from_rpy v) in let E := pose_transform B D in
  pose_transform (pose_inverse B) E = D ->
  exists d, derivable_pt_lim (fun t => reported XYZW (3 + k) (pose_transform (mkPose pos (from_rpy (with_coord b t v))) D)) (coord b v) d /\
    Rabs (nth (3 + k) (base_quotient XYZW b B E) 0 - d) <= 1 / 10000000.
Proof.
  intros Lb Lk UD Hr Hy Hp Hs B E HD. set (f := fun t => qcomp k (q_mul (from_rpy (with_coord b t v)) (rotation D))).
  destruct (quat_wave b v (rotation D) k Lb) as (a & w & W). fold f in W.
  assert (RP : forall P : pose, reported XYZW (3 + k) P = qcomp k (rotation P)) by (intros P; unfold reported, link_row; destruct k as [|[|[|[|k']]]]; [reflexivity..|lia]).
  assert (G : getRPY (from_rpy v) = v) by (destruct v as [r p y]; cbn [vx vy vz] in *; unfold from_rpy; cbn [vx vy vz]; now apply rpy_round).
  assert (FU : forall t, -1 <= f t <= 1) by (intros t; unfold f; apply qcomp_unit, unit_mul; [unfold from_rpy; apply rpy_unit|exact UD]).
  set (f1 := fun t => w * cos (t / 2) / 2 - a * sin (t / 2) / 2).
  assert (D1 : forall t, derivable_pt_lim f t (f1 t)) by (intros t; apply (dext (fun t => a * cos (t / 2) + w * sin (t / 2) + 0)); [intros; symmetry; apply W|]; apply is_deriv; auto_derive; auto; unfold f1, Rdiv; field).
  assert (D2 : forall t, derivable_pt_lim f1 t (- f t / 4)) by (intros t; apply is_deriv; unfold f1; auto_derive; auto; change (f t) with (qcomp k (q_mul (from_rpy (with_coord b t v)) (rotation D))); rewrite W; unfold Rdiv; field).
  exists (f1 (coord b v)). split.
  - apply (dext f); [|apply D1]. intros t. rewrite RP. reflexivity.
  - assert (T : rotation (base_turned b B E) = q_mul (from_rpy (with_coord b (coord b v + 1 / 10000000) v)) (rotation D)).
    { unfold base_turned. rewrite HD. unfold B. cbn [rotation pose_transform position]. rewrite G. f_equal. unfold from_rpy. rewrite fd_eps_R.
      destruct v as [r p y]. destruct b as [|[|[|b']]]; [reflexivity..|lia]. }
    assert (N : nth (3 + k) (base_quotient XYZW b B E) 0 = (f (coord b v + 1 / 10000000) - f (coord b v)) / (1 / 10000000)).
    { unfold f. rewrite with_coord_same, <- T. unfold base_quotient, link_row. set (X := base_turned b B E). destruct k as [|[|[|[|k']]]]; try lia; cbn [app combine map nth fst snd qcomp Nat.add]; rnum; rewrite fd_eps_R; reflexivity. }
    rewrite N. apply (quotient_error f f1); [lra|intros; apply D1|]. intros z Hz. apply Rabs_le.
    pose proof (lipschitz f1 (fun t => - f t / 4) 1 (coord b v) (1 / 10000000) z D2 ltac:(intros t; pose proof (FU t); lra) Hz). lra.
Qed.
