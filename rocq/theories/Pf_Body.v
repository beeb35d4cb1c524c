(** The sums of Spec_Mass, in real arithmetic. *)
From Coq Require Import QArith String List Arith Lia Bool Permutation Reals Lra.
From Verif Require Import Base Num Pose Urdf Kin RealArith Spec_Robot Spec_Hist Spec_Load Spec_Mass Spec_Rot Spec_Body Pf_Base Pf_Real Pf_Rot Pf_Mass Pf_Jac.
Import ListNotations.
Local Open Scope R_scope.

Ltac rr := rnum; match goal with |- @eq _ ?a ?b => change (@eq R a b) end.

Ltac entries := repeat match goal with |- _ :: _ = _ :: _ => apply f_equal2 | |- @nil _ = _ => reflexivity end; rr.

Lemma rsum_perm {B} (f : B -> R) l l' : Permutation l l' -> rsum f l = rsum f l'.
Proof. induction 1; simpl; auto; lra. Qed.
Lemma rsum_app {B} (f : B -> R) l l' : rsum f (l ++ l') = rsum f l + rsum f l'.
Proof. induction l as [|b l IH]; simpl; lra. Qed.
Lemma rsum_map {B C} (f : C -> R) (h : B -> C) l : rsum f (map h l) = rsum (fun b => f (h b)) l.
Proof. induction l as [|b l IH]; simpl; auto; f_equal; auto. Qed.
Lemma rsum_ext {B} (f g : B -> R) l : (forall b, f b = g b) -> rsum f l = rsum g l.
Proof. intros H. induction l as [|b l IH]; simpl; auto. now rewrite H, IH. Qed.
Lemma rsum_div {B} (f : B -> R) k l : rsum (fun b => f b / k) l = rsum f l / k.
Proof. induction l as [|b l IH]; simpl; [unfold Rdiv; lra|]. rewrite IH. unfold Rdiv; lra. Qed.
Lemma rsum_scal {B} (f : B -> R) k l : rsum (fun b => k * f b) l = k * rsum f l.
Proof. induction l as [|b l IH]; simpl; [lra|]. rewrite IH. lra. Qed.
Lemma rsum_plus {B} (f g : B -> R) l : rsum (fun b => f b + g b) l = rsum f l + rsum g l.
Proof. induction l as [|b l IH]; simpl; [lra|]. rewrite IH. lra. Qed.
Lemma fold_rsum {B} (f : B -> R) l : forall acc, fold_left (fun a b => a + f b) l acc = acc + rsum f l.
Proof. induction l as [|b l IH]; intros acc; simpl; [lra|]. rewrite IH. lra. Qed.

Lemma madd_comm a b : madd a b = madd b a.
Proof. unfold madd. f_equal; ring. Qed.
Lemma madd_assoc a b c : madd (madd a b) c = madd a (madd b c).
Proof. unfold madd. cbn [m11 m12 m13 m21 m22 m23 m31 m32 m33]. f_equal; ring. Qed.
Lemma madd_0r a : madd a mzero = a.
Proof. apply m_eq; cbn; ring. Qed.
Lemma msum_perm {B} (f : B -> M33) l l' : Permutation l l' -> msum f l = msum f l'.
Proof.
  intros H. induction H as [|x l l' H IH|x y l|l l' l'' H1 IH1 H2 IH2].
  - reflexivity.
  - simpl. now rewrite IH.
  - simpl. now rewrite <- !madd_assoc, (madd_comm (f y)).
  - congruence.
Qed.

Lemma massive_perm l l' : Permutation l l' -> Permutation (@massive RA l) (massive l').
Proof. intros H. unfold massive. now apply Permutation_flat_map. Qed.

(** the poses of the massive links, as bodies in the order of the document *)
Definition pair_up (x : (string * @Inertial RA) * @Pose RA) : Body := (snd (fst x), snd x).
Lemma poses_bodies R root jsorted s l Ps : Permutation l (r_links R) ->
  Forall2 (fun ni P => pose_at R root jsorted s (fst ni) P) (massive l) Ps ->
  exists W, bodies R root jsorted s W /\ Permutation (map pair_up (combine (massive l) Ps)) W.
Proof.
  intros H F.
  assert (F1 : Forall2 (fun ni w => fst w = snd ni /\ pose_at R root jsorted s (fst ni) (snd w)) (massive l) (map pair_up (combine (massive l) Ps))).
  { clear H. induction F as [|ni P ms Ps HP F IH]; simpl; constructor; auto. }
  destruct (Permutation_Forall2 (massive_perm _ _ H) F1) as (W & HW & F2). exists W. split; auto.
Qed.

Lemma bodies_mass R root jsorted s W : bodies R root jsorted s W -> mass_of W = rsum (fun ni => in_mass (snd ni)) (massive (r_links R)).
Proof.
  unfold bodies, mass_of. intros F. induction F as [|ni w ms W [H _] F IH]; simpl; auto. f_equal; auto. unfold bmass. now rewrite H.
Qed.

Lemma mass_sum_rsum (ms : list (string * @Inertial RA)) : mass_sum ms = rsum (fun ni => in_mass (snd ni)) ms.
Proof.
  unfold mass_sum. change (@n0 RA) with (Q2R 0). rewrite Q2R_0.
  rewrite (fold_left_ext _ (fun (a : R) (ni : string * @Inertial RA) => a + in_mass (snd ni))) by (intros; reflexivity). rewrite fold_rsum. lra.
Qed.

Lemma weighted_sum_rsum (l : list (R * @Vector3 RA)) : forall acc, weighted_sum l acc =
  @V3 RA (vx acc + rsum (fun mp => fst mp * vx (snd mp)) l) (vy acc + rsum (fun mp => fst mp * vy (snd mp)) l) (vz acc + rsum (fun mp => fst mp * vz (snd mp)) l).
Proof.
  unfold weighted_sum. induction l as [|mp l IH]; intros acc; simpl fold_left; simpl rsum.
  - apply v_eq; cbn [vx vy vz]; symmetry; apply Rplus_0_r.
  - rewrite IH. cbn [vx vy vz]. rnum. apply v_eq; cbn [vx vy vz]; rnum; apply Rplus_assoc.
Qed.

Lemma com_of_centre (ms : list (string * @Inertial RA)) Ps W : length Ps = length ms -> Permutation (map pair_up (combine ms Ps)) W -> com_of ms Ps = centre_of W.
Proof.
  intros L H. unfold com_of, scaled_down. rewrite weighted_sum_rsum. rewrite mass_sum_rsum. unfold centre_of, vdiv, first_moment, mass_of.
  rewrite <- !(rsum_perm _ _ _ H), !rsum_map. unfold pair_up, bmass, bpoint. cbn [fst snd vx vy vz v_clear].
  assert (E : rsum (fun ni : string * Inertial => in_mass (snd ni)) ms = rsum (fun b : string * Inertial * Pose => in_mass (snd (fst b))) (combine ms Ps)).
  { clear H. revert Ps L. induction ms as [|ni ms IH]; intros [|P Ps] L; simpl in *; try lia; auto. f_equal. apply IH. lia. }
  rewrite E. rnum. apply v_eq; cbn [vx vy vz]; rewrite Rplus_0_l; reflexivity.
Qed.

Lemma is_com_centre R root sorted jsorted s c : Permutation sorted (r_links R) -> is_com R root jsorted (massive sorted) s c ->
  exists W, bodies R root jsorted s W /\ c = centre_of W.
Proof.
  intros H (Ps & F & ->). destruct (poses_bodies R root jsorted s sorted Ps H F) as (W & HW & HP). exists W. split; auto.
  apply com_of_centre; auto. symmetry. eapply Forall2_len; eauto.
Qed.

(** ** inertia *)
Lemma mrows_is a b c d e f g h k : mrows (mkM a b c d e f g h k) = [[a; b; c]; [d; e; f]; [g; h; k]].
Proof. reflexivity. Qed.
Lemma rot_mat_rows q : rot_mat q = mrows (quat_mat q).
Proof.
  unfold rot_mat, quat_mat. cbv zeta. rewrite mrows_is.
  generalize (qx q) (qy q) (qz q) (qw q). intros x y z w. rnum. entries; ring.
Qed.
Lemma trans_rows (m : R) d : trans_term m d = mrows (parallel_axis m d).
Proof.
  unfold parallel_axis, mscale, madd, mid, outer, trans_term, vdot. cbn [m11 m12 m13 m21 m22 m23 m31 m32 m33]. cbv zeta. rewrite mrows_is.
  destruct d as [x y z]. cbn [vx vy vz]. rnum. rewrite sqrt_sqrt by nra. entries; ring.
Qed.
Lemma mul_rows a b : mat3_mul (mrows a) (mrows b) = mrows (mmul a b).
Proof. reflexivity. Qed.
Lemma add_rows a b : mat_zip add (mrows a) (mrows b) = mrows (madd a b).
Proof. reflexivity. Qed.
Lemma inertia_about_rows c P i : inertia_about c P i = mrows (inertia_of c (i, P)).
Proof.
  unfold inertia_about. rewrite q_mul_1r. unfold inertia_of, rotated, bmass, bpoint. cbn [fst snd]. cbv zeta.
  rewrite trans_rows, rot_mat_rows.
  change [[ixx i; ixy i; ixz i]; [ixy i; iyy i; iyz i]; [ixz i; iyz i; izz i]] with (mrows (tensor i)).
  change (transpose3 (mrows (quat_mat (rotation P)))) with (mrows (mtr (quat_mat (rotation P)))).
  now rewrite !mul_rows, add_rows.
Qed.
Lemma fold_msum (f : Body -> M33) (g : (string * @Inertial RA) * @Pose RA -> mat) l : (forall x, g x = mrows (f (pair_up x))) -> forall acc,
  fold_left (fun a x => mat_zip add a (g x)) l (mrows acc) = mrows (madd acc (msum f (map pair_up l))).
Proof.
  intros H. induction l as [|x l IH]; intros acc; cbn [fold_left map msum fold_right].
  - now rewrite madd_0r.
  - rewrite H, add_rows, IH, madd_assoc. reflexivity.
Qed.

Lemma is_inertia_bodies R root sorted jsorted s I : Permutation sorted (r_links R) ->
  is_inertia R root jsorted (massive sorted) s I ->
  exists W, bodies R root jsorted s W /\ I = mrows (msum (inertia_of (centre_of W)) W).
Proof.
  intros H (Ps & F & ->). destruct (poses_bodies R root jsorted s sorted Ps H F) as (W & HW & HP). exists W. split; auto.
  rewrite (com_of_centre _ Ps W) by (auto; symmetry; eapply Forall2_len; eauto).
  assert (E : mat_zero 3 3 = mrows mzero) by (unfold mat_zero, mrows, mzero; cbn [repeat m11 m12 m13 m21 m22 m23 m31 m32 m33]; rnum; reflexivity).
  rewrite E, (fold_msum (inertia_of (centre_of W))).
  - rewrite madd_comm, madd_0r. f_equal. now apply msum_perm.
  - intros [ni P]. unfold pair_up. cbn [fst snd]. apply inertia_about_rows.
Qed.

(** symmetric and positive semidefinite *)
Lemma rotated_sym R I : symmetric I -> symmetric (rotated R I).
Proof.
  intros H. unfold symmetric, rotated in *. destruct R as [a1 a2 a3 a4 a5 a6 a7 a8 a9], I as [i1 i2 i3 i4 i5 i6 i7 i8 i9].
  unfold mtr in H. cbn [m11 m12 m13 m21 m22 m23 m31 m32 m33] in H. inversion H; subst. unfold mtr, mmul. cbn [m11 m12 m13 m21 m22 m23 m31 m32 m33]. f_equal; ring.
Qed.
Lemma parallel_sym m d : symmetric (parallel_axis m d).
Proof. unfold symmetric, parallel_axis, mtr, mscale, madd, mid, outer. cbn [m11 m12 m13 m21 m22 m23 m31 m32 m33]. f_equal; ring. Qed.
Lemma madd_sym a b : symmetric a -> symmetric b -> symmetric (madd a b).
Proof.
  unfold symmetric. intros Ha Hb. rewrite <- Ha at 2. rewrite <- Hb at 2. reflexivity.
Qed.
Lemma msum_sym {B} (f : B -> M33) l : (forall b, symmetric (f b)) -> symmetric (msum f l).
Proof. intros H. induction l as [|b l IH]; simpl; [reflexivity|]. now apply madd_sym. Qed.
Lemma inertia_sym c w : symmetric (inertia_of c w).
Proof. apply madd_sym; [apply rotated_sym; reflexivity | apply parallel_sym]. Qed.

Lemma vdot_madd v a b : vdot v (mvec (madd a b) v) = vdot v (mvec a v) + vdot v (mvec b v).
Proof. unfold vdot, mvec, madd. cbn [m11 m12 m13 m21 m22 m23 m31 m32 m33 vx vy vz]. rnum. ring. Qed.
Lemma rotated_psd R I : pos_semidef I -> pos_semidef (rotated R I).
Proof.
  intros H v. specialize (H (mvec (mtr R) v)). unfold rotated. rewrite !mvec_mmul.
  assert (E : forall u, vdot v (mvec R u) = vdot (mvec (mtr R) v) u).
  { intros u. unfold vdot, mvec, mtr. cbn [m11 m12 m13 m21 m22 m23 m31 m32 m33 vx vy vz]. rnum. ring. }
  now rewrite E.
Qed.
Lemma parallel_axis_is m a b c : parallel_axis m (@V3 RA a b c) =
  mkM (m * (b * b + c * c)) (- m * (a * b)) (- m * (a * c)) (- m * (b * a)) (m * (a * a + c * c)) (- m * (b * c)) (- m * (c * a)) (- m * (c * b)) (m * (a * a + b * b)).
Proof. unfold parallel_axis, mscale, madd, mid, outer, vdot. cbn [m11 m12 m13 m21 m22 m23 m31 m32 m33 vx vy vz]. rnum. f_equal; ring. Qed.
Lemma parallel_psd m d : 0 <= m -> pos_semidef (parallel_axis m d).
Proof.
  intros H v. destruct d as [a b c], v as [x y z].
  assert (E : vdot (@V3 RA x y z) (mvec (parallel_axis m (@V3 RA a b c)) (@V3 RA x y z)) =
    m * ((b * z - c * y) * (b * z - c * y) + (c * x - a * z) * (c * x - a * z) + (a * y - b * x) * (a * y - b * x))).
  { rewrite parallel_axis_is. unfold vdot, mvec. cbn [m11 m12 m13 m21 m22 m23 m31 m32 m33 vx vy vz]. rnum. ring. }
  rewrite E. apply Rmult_le_pos; auto.
  pose proof (Rle_0_sqr (b * z - c * y)). pose proof (Rle_0_sqr (c * x - a * z)). pose proof (Rle_0_sqr (a * y - b * x)). unfold Rsqr in *. lra.
Qed.
Lemma msum_psd {B} (f : B -> M33) l : (forall b, In b l -> pos_semidef (f b)) -> pos_semidef (msum f l).
Proof.
  intros H. induction l as [|b l IH]; intros v; simpl.
  - unfold vdot, mvec, mzero. cbn [m11 m12 m13 m21 m22 m23 m31 m32 m33 vx vy vz]. rnum. lra.
  - rewrite vdot_madd. pose proof (H b (or_introl eq_refl) v). pose proof (IH (fun b' I => H b' (or_intror I)) v). lra.
Qed.
Lemma inertia_psd c w : 0 <= bmass w -> pos_semidef (tensor (fst w)) -> pos_semidef (inertia_of c w).
Proof. intros Hm Ht v. unfold inertia_of. rewrite vdot_madd. pose proof (rotated_psd (quat_mat (rotation (snd w))) _ Ht v). pose proof (parallel_psd (bmass w) (v_sub (bpoint w) c) Hm v). lra. Qed.

(** ** forces *)
Lemma forced_point_real (M : R) com (fps : list (R * @Vector3 RA)) : M <> 0 -> M + rsum fst fps <> 0 -> forced_point M com fps =
  @V3 RA ((M * vx com + rsum (fun fp => fst fp * vx (snd fp)) fps) / (M + rsum fst fps))
         ((M * vy com + rsum (fun fp => fst fp * vy (snd fp)) fps) / (M + rsum fst fps))
         ((M * vz com + rsum (fun fp => fst fp * vz (snd fp)) fps) / (M + rsum fst fps)).
Proof.
  intros HM HS. unfold forced_point. destruct fps as [|fp fps].
  - assert (F : forall x : R, x = (M * x + 0) / (M + 0)) by (intros; field; lra).
    cbn [rsum fold_right]. apply v_eq; cbn [vx vy vz]; apply F.
  - set (l := fp :: fps) in *. clearbody l. clear fp fps. unfold scaled_down. rewrite weighted_sum_rsum. cbn [vx vy vz].
    rewrite !rsum_map. cbn [fst snd].
    assert (E : fold_left (fun a fp => add a (div (fst fp) M)) l n1 = 1 + rsum fst l / M).
    { change (@n1 RA) with (Q2R 1). rewrite Q2R_1. rewrite (fold_left_ext _ (fun (a : R) (fp : R * @Vector3 RA) => a + fst fp / M)) by (intros; reflexivity).
      rewrite fold_rsum. f_equal. apply (rsum_div fst). }
    rewrite E. rnum.
    assert (D : forall g : @Vector3 RA -> R, rsum (fun b : R * @Vector3 RA => fst b / M * g (snd b)) l = rsum (fun b => fst b * g (snd b)) l / M).
    { intros g. rewrite <- rsum_div. apply rsum_ext. intros b. unfold Rdiv. ring. }
    rewrite !D. assert (N : 1 + rsum fst l / M <> 0) by (intros Z; apply HS; apply (Rmult_eq_compat_l M) in Z; field_simplify in Z; auto; lra).
    assert (F : forall x y : R, (x + y / M) / (1 + rsum fst l / M) = (M * x + y) / (M + rsum fst l)).
    { intros x y. field. auto. }
    apply v_eq; cbn [vx vy vz]; apply F.
Qed.
