(** Derivatives of poses with respect to one joint angle. *)
From Coq Require Import String List Arith Lia Bool Reals Lra.
From Coquelicot Require Import Coquelicot.
From Verif Require Import Base Num Pose DataStructure Urdf Kin Wrapper Spec_Robot Spec_Hist Spec_Load Spec_Jac Spec_Rot Spec_Deriv RealArith
  Pf_Base Pf_Data Inv Pf_FK Pf_Frame Pf_Rp Rep Pf_Ops Pf_Name Pf_Reach Pf_Jac Pf_Safe Pf_Pose Pf_Local Pf_Hist Pf_Real Pf_Rot Pf_Unit Pf_Rpy Pf_Chain.
Import ListNotations.
Local Open Scope R_scope.

Lemma is_deriv f x l : is_derive f x l -> derivable_pt_lim f x l.
Proof. apply is_derive_Reals. Qed.

Lemma dext (f g : R -> R) (x l : R) : (forall t, f t = g t) -> derivable_pt_lim f x l -> derivable_pt_lim g x l.
Proof. intros E H. apply is_derive_Reals. apply is_derive_Reals in H. now apply (is_derive_ext f). Qed.

Definition lin (a1 a2 a3 : R) (v : vec) : R := a1 * vx v + a2 * vy v + a3 * vz v.

Definition rodv (u : vec) (a : R) (d : vec) : vec :=
  @V3 RA (vx d + sin a * (vy u * vz d - vz u * vy d) + (1 - cos a) * (vx u * (vx u * vx d + vy u * vy d + vz u * vz d) - (vx u * vx u + vy u * vy u + vz u * vz u) * vx d))
         (vy d + sin a * (vz u * vx d - vx u * vz d) + (1 - cos a) * (vy u * (vx u * vx d + vy u * vy d + vz u * vz d) - (vx u * vx u + vy u * vy u + vz u * vz u) * vy d))
         (vz d + sin a * (vx u * vy d - vy u * vx d) + (1 - cos a) * (vz u * (vx u * vx d + vy u * vy d + vz u * vz d) - (vx u * vx u + vy u * vy u + vz u * vz u) * vz d)).
Lemma Rod_vec u a d : mvec (Rodrigues u a) d = rodv u a d.
Proof. rewrite Rodrigues_is. unfold mvec, rodv. destruct u as [x y z], d as [p q r]. cbn [vx vy vz m11 m12 m13 m21 m22 m23 m31 m32 m33]. apply v_eq; cbn [vx vy vz]; rnum; ring. Qed.

(** d/dt R(t) d = u x R(t) d, seen through any linear form *)
Lemma Rod_derive u d a1 a2 a3 (c t : R) : unit_vector u ->
  derivable_pt_lim (fun t => lin a1 a2 a3 (mvec (Rodrigues u t) d) + c) t (lin a1 a2 a3 (cross_product u (mvec (Rodrigues u t) d))).
Proof.
  unfold unit_vector. intros H. apply (dext (fun t => lin a1 a2 a3 (rodv u t d) + c)).
  { intros x. now rewrite Rod_vec. }
  rewrite Rod_vec. unfold lin, cross_product, rodv. destruct u as [x y z], d as [p q r]. cbn [vx vy vz] in *. rnumin H. rnum. rewrite !H.
  change (@num RA) with R in *. apply is_deriv. auto_derive; auto. 
  assert (Z : z * z = 1 - x * x - y * y) by lra. ring_simplify.
  repeat match goal with |- context [z ^ 3] => replace (z ^ 3) with (z * (1 - x ^ 2 - y ^ 2)) by (rewrite <- Rmult_1_r; replace (1 - x^2 - y^2) with (z * z) by (rewrite Z; ring); ring) end.
  repeat match goal with |- context [z ^ 2] => replace (z ^ 2) with (1 - x ^ 2 - y ^ 2) by lra end. ring.
Qed.

Lemma quat_cof9 q : unit_q q -> let m := quat_mat q in
  (m11 m = m22 m * m33 m - m23 m * m32 m /\ m12 m = m23 m * m31 m - m21 m * m33 m /\ m13 m = m21 m * m32 m - m22 m * m31 m) /\
  (m21 m = m13 m * m32 m - m12 m * m33 m /\ m22 m = m11 m * m33 m - m13 m * m31 m /\ m23 m = m12 m * m31 m - m11 m * m32 m) /\
  (m31 m = m12 m * m23 m - m13 m * m22 m /\ m32 m = m13 m * m21 m - m11 m * m23 m /\ m33 m = m11 m * m22 m - m12 m * m21 m).
Proof.
  unfold unit_q, qn, quat_mat. destruct q as [x y z w]. cbn [qx qy qz qw m11 m12 m13 m21 m22 m23 m31 m32 m33]. rnum. intros H. cbv zeta.
  assert (W : w * w = 1 - x * x - y * y - z * z) by lra.
  repeat split; ring_simplify; repeat match goal with |- context [w ^ 2] => replace (w ^ 2) with (1 - x ^ 2 - y ^ 2 - z ^ 2) by lra end; ring.
Qed.
Lemma quat_cross q a b : unit_q q -> cross_product (mvec (quat_mat q) a) (mvec (quat_mat q) b) = mvec (quat_mat q) (cross_product a b).
Proof.
  intros H. destruct (quat_cof9 q H) as ((C11 & C12 & C13) & (C21 & C22 & C23) & (C31 & C32 & C33)). cbv zeta in *.
  destruct (quat_mat q) as [a11 a12 a13 a21 a22 a23 a31 a32 a33]. cbn [m11 m12 m13 m21 m22 m23 m31 m32 m33] in *.
  destruct a as [x y z], b as [x' y' z']. unfold mvec, cross_product. cbn [vx vy vz m11 m12 m13 m21 m22 m23 m31 m32 m33].
  apply v_eq; cbn [vx vy vz]; rnum.
  - rewrite C11, C12, C13. ring.
  - rewrite C21, C22, C23. ring.
  - rewrite C31, C32, C33. ring.
Qed.

Lemma mvec_add m a b : mvec m (v_add a b) = v_add (mvec m a) (mvec m b).
Proof. destruct m as [a11 a12 a13 a21 a22 a23 a31 a32 a33], a as [x y z], b as [p q r]. unfold mvec, v_add. apply v_eq; cbn [vx vy vz m11 m12 m13 m21 m22 m23 m31 m32 m33]; rnum; ring. Qed.
Lemma mvec_clear m : mvec m v_clear = v_clear.
Proof. destruct m as [a11 a12 a13 a21 a22 a23 a31 a32 a33]. unfold mvec, v_clear. apply v_eq; cbn [vx vy vz m11 m12 m13 m21 m22 m23 m31 m32 m33]; rnum; ring. Qed.

(** the axis is fixed by the rotation about it *)
Lemma Rod_axis u a : mvec (Rodrigues u a) u = u.
Proof. rewrite Rod_vec. unfold rodv. destruct u as [x y z]. cbn [vx vy vz]. apply v_eq; cbn [vx vy vz]; rnum; ring. Qed.

Definition turned (B : pose) (u : vec) (t : R) : pose := pose_transform B (mkPose v_clear (axis_q u t)).
Definition slid (B : pose) (u : vec) (t : R) : pose := pose_transform B (mkPose (@V3 RA (vx u * t) (vy u * t) (vz u * t)) q_clear).

Lemma turned_unit B u t : unit_q (rotation B) -> unit_vector u -> unit_q (rotation (turned B u t)).
Proof. intros H U. cbn [turned pose_transform rotation]. apply unit_mul; auto. now apply axis_q_unit. Qed.
Lemma turned_pos B u t : position (turned B u t) = position B.
Proof. unfold turned. cbn [pose_transform position]. now rewrite q_rot_0, v_add_0l. Qed.
Lemma turned_axis B u t : unit_q (rotation B) -> unit_vector u -> q_rot (rotation (turned B u t)) u = mvec (quat_mat (rotation B)) u.
Proof.
  intros H U. rewrite quat_mat_rot by now apply turned_unit. cbn [turned pose_transform rotation]. rewrite quat_mat_mul, axis_q_mat, mvec_mmul, Rod_axis by auto using axis_q_unit. reflexivity.
Qed.
Lemma turned_point B u t D : unit_q (rotation B) -> unit_vector u ->
  position (pose_transform (turned B u t) D) = v_add (mvec (quat_mat (rotation B)) (mvec (Rodrigues u t) (position D))) (position B).
Proof.
  intros H U. cbn [pose_transform position]. rewrite turned_pos. f_equal. rewrite quat_mat_rot by now apply turned_unit.
  cbn [turned pose_transform rotation]. rewrite quat_mat_mul, axis_q_mat, mvec_mmul by auto using axis_q_unit. reflexivity.
Qed.
(** lever arm from the joint to the link, in the world *)
Lemma v_add_sub (a b : vec) : v_sub (v_add a b) b = a.
Proof. destruct a as [x y z], b as [p q r]. unfold v_sub, v_add. apply v_eq; cbn [vx vy vz]; rnum; ring. Qed.

Lemma turned_derive B u D t : unit_q (rotation B) -> unit_vector u ->
  let w := q_rot (rotation (turned B u t)) u in
  let d := cross_product w (v_sub (position (pose_transform (turned B u t) D)) (position (turned B u t))) in
  derivable_pt_lim (fun t => vx (position (pose_transform (turned B u t) D)) : R) t (vx d) /\
  derivable_pt_lim (fun t => vy (position (pose_transform (turned B u t) D)) : R) t (vy d) /\
  derivable_pt_lim (fun t => vz (position (pose_transform (turned B u t) D)) : R) t (vz d).
Proof.
  intros H U w d. unfold d, w. rewrite turned_axis, turned_point, turned_pos, v_add_sub, quat_cross by auto.
  set (M := quat_mat (rotation B)). set (p := position B).
  assert (E : forall t, position (pose_transform (turned B u t) D) = v_add (mvec M (mvec (Rodrigues u t) (position D))) p) by (intros x; now apply turned_point).
  repeat split.
  - apply (dext (fun t => lin (m11 M) (m12 M) (m13 M) (mvec (Rodrigues u t) (position D)) + vx p)); [intros x; now rewrite E|].
    now apply Rod_derive.
  - apply (dext (fun t => lin (m21 M) (m22 M) (m23 M) (mvec (Rodrigues u t) (position D)) + vy p)); [intros x; now rewrite E|].
    now apply Rod_derive.
  - apply (dext (fun t => lin (m31 M) (m32 M) (m33 M) (mvec (Rodrigues u t) (position D)) + vz p)); [intros x; now rewrite E|].
    now apply Rod_derive.
Qed.

(** ** quaternions *)
Definition axis_q' (u : vec) (t : R) : quat := @Q4 RA (vx u * (cos (t / 2) / 2)) (vy u * (cos (t / 2) / 2)) (vz u * (cos (t / 2) / 2)) (- sin (t / 2) / 2).
Definition qcomp (k : nat) (q : quat) : R := match k with 0 => qx q | 1 => qy q | 2 => qz q | _ => qw q end%nat.
Lemma axis_q_derive (b : quat) (u : vec) (d : quat) (t : R) (k : nat) :
  derivable_pt_lim (fun t => qcomp k (q_mul (q_mul b (axis_q u t)) d)) t (qcomp k (q_mul (q_mul b (axis_q' u t)) d)).
Proof.
  apply is_deriv. unfold axis_q, axis_q', q_mul. destruct b as [b1 b2 b3 b4], u as [u1 u2 u3], d as [d1 d2 d3 d4].
  destruct k as [|[|[|k]]]; cbn [qcomp qx qy qz qw vx vy vz]; rnum; change (@num RA) with R in *; auto_derive; auto; unfold Rdiv; field.
Qed.

Lemma axis_q'_mul u t : unit_vector u -> axis_q' u t = qscale (1 / 2) (q_mul (qv u) (axis_q u t)).
Proof.
  unfold unit_vector. intros H. unfold axis_q', axis_q, qscale, q_mul, qv. destruct u as [x y z]. cbn [vx vy vz qx qy qz qw] in *. rnumin H. rnum.
  apply q_eq; cbn [qx qy qz qw]; rnum; try field. transitivity (- (x * x + y * y + z * z) * (sin (t / 2) / 2)); [rewrite H; field | field].
Qed.

Lemma q_derivative_mul (e : quat) (w : vec) : unit_q e -> q_derivative (q_inverse e) w = qscale (1 / 2) (q_mul (qv w) e).
Proof.
  intros H. unfold q_inverse. change (@q_norm2 RA e) with (qn e). unfold unit_q in H. rewrite H.
  unfold q_derivative, qscale, q_mul, qv. destruct e as [x y z k], w as [a b c]. cbn [vx vy vz qx qy qz qw]. apply q_eq; cbn [qx qy qz qw]; rnum; field.
Qed.

(** w b = b u for the world axis w of u *)
Lemma world_axis_mul b u : unit_q b -> q_mul (qv (mvec (quat_mat b) u)) b = q_mul b (qv u).
Proof.
  intros H. rewrite <- quat_mat_rot, q_rot_rotn by auto using unit_pos. rewrite qv_rotn by now apply unit_pos. unfold unit_q in H. rewrite H.
  rewrite q_mul_scale_l. unfold unit_q, qn in H. rnumin H. unfold qscale, q_mul, qv, qconj. destruct b as [x y z w], u as [p q r]. cbn [vx vy vz qx qy qz qw] in *.
  assert (W : w * w = 1 - x * x - y * y - z * z) by lra.
  apply q_eq; cbn [qx qy qz qw]; rnum; ring_simplify;
  repeat match goal with |- context [w ^ 3] => replace (w ^ 3) with (w * (1 - x ^ 2 - y ^ 2 - z ^ 2)) by (replace (1 - x^2 - y^2 - z^2) with (w * w) by (rewrite W; ring); ring) end;
  repeat match goal with |- context [w ^ 2] => replace (w ^ 2) with (1 - x ^ 2 - y ^ 2 - z ^ 2) by lra end; field.
Qed.

Lemma turned_quat_derive B u D t k : unit_q (rotation B) -> unit_vector u -> unit_q (rotation D) ->
  let C := turned B u t in let E := pose_transform C D in
  derivable_pt_lim (fun t => qcomp k (rotation (pose_transform (turned B u t) D))) t
    (qcomp k (q_derivative (q_inverse (rotation E)) (q_rot (rotation C) u))).
Proof.
  intros H U HD C E. unfold E, C. rewrite turned_axis by auto. rewrite q_derivative_mul by (cbn [pose_transform rotation turned]; auto using unit_mul, axis_q_unit).
  cbn [pose_transform rotation turned]. set (b := rotation B) in *. set (d := rotation D) in *.
  rewrite <- !q_mul_assoc, world_axis_mul by auto. rewrite <- q_mul_scale_l, (q_mul_assoc b), <- q_mul_scale_r, <- axis_q'_mul by auto. apply axis_q_derive.
Qed.

(** ** roll, pitch, yaw *)
Lemma derive_continuous (f : R -> R) (x l : R) : derivable_pt_lim f x l -> continuous f x.
Proof. intros H. apply (@ex_derive_continuous R_AbsRing R_NormedModule f x). exists l. now apply is_derive_Reals. Qed.
Lemma locally_gt f x l c : derivable_pt_lim f x l -> c < f x -> locally x (fun t => c < f t).
Proof. intros H G. exact (derive_continuous _ _ _ H _ (open_gt c (f x) G)). Qed.
Lemma locally_lt f x l c : derivable_pt_lim f x l -> f x < c -> locally x (fun t => f t < c).
Proof. intros H G. exact (derive_continuous _ _ _ H _ (open_lt c (f x) G)). Qed.
Lemma dext_loc (f g : R -> R) (x l : R) : locally x (fun t => f t = g t) -> derivable_pt_lim f x l -> derivable_pt_lim g x l.
Proof. intros E H. apply is_derive_Reals. apply is_derive_Reals in H. now apply (is_derive_ext_loc f). Qed.

Lemma atan_quot f g x f' g' : derivable_pt_lim f x f' -> derivable_pt_lim g x g' -> g x <> 0 ->
  derivable_pt_lim (fun t => atan (f t / g t)) x ((g x * f' - f x * g') / (g x * g x + f x * f x)).
Proof.
  intros Hf Hg N. pose proof (derivable_pt_lim_div f g x f' g' Hf Hg N) as Hd.
  pose proof (derivable_pt_lim_comp _ atan x _ _ Hd (derivable_pt_lim_atan _)) as Hc.
  replace ((g x * f' - f x * g') / (g x * g x + f x * f x)) with (/ (1 + ((f / g)%F x) ^ 2) * ((f' * g x - g' * f x) / (g x)²)); [exact Hc|].
  unfold div_fct, Rsqr. assert (0 < g x * g x + f x * f x). { pose proof (Rle_0_sqr (f x)). pose proof (Rsqr_pos_lt _ N). unfold Rsqr in *. lra. }
  field. repeat split; auto; try lra.
Qed.

Lemma atan_neg_inv x : x < 0 -> atan (/ x) = - (PI / 2) - atan x.
Proof. intros H. replace (/ x) with (- / (- x)) by (field; lra). rewrite atan_opp, atan_inv by lra. rewrite <- (Ropp_involutive x) at 2. rewrite (atan_opp (- x)). lra. Qed.
Lemma ratan2_up y x : 0 < y -> ratan2 y x = PI / 2 - atan (x / y).
Proof.
  intros H. unfold ratan2. destruct (Rlt_dec 0 x) as [X|X].
  - replace (y / x) with (/ (x / y)) by (field; lra). rewrite atan_inv by (apply Rdiv_lt_0_compat; lra). lra.
  - destruct (Rlt_dec x 0) as [X'|X'].
    + destruct (Rle_dec 0 y); [|lra]. replace (y / x) with (/ (x / y)) by (field; lra). rewrite atan_neg_inv; [lra|].
      replace (x / y) with (- (- x / y)) by (field; lra). assert (0 < - x / y) by (apply Rdiv_lt_0_compat; lra). lra.
    + destruct (Rlt_dec 0 y); [|lra]. assert (x = 0) by lra. subst. unfold Rdiv. rewrite Rmult_0_l, atan_0. lra.
Qed.
Lemma ratan2_down y x : y < 0 -> ratan2 y x = - (PI / 2) - atan (x / y).
Proof.
  intros H. unfold ratan2. destruct (Rlt_dec 0 x) as [X|X].
  - replace (y / x) with (/ (x / y)) by (field; lra). rewrite atan_neg_inv; [lra|].
    replace (x / y) with (- (x / - y)) by (field; lra). assert (0 < x / - y) by (apply Rdiv_lt_0_compat; lra). lra.
  - destruct (Rlt_dec x 0) as [X'|X'].
    + destruct (Rle_dec 0 y); [lra|]. replace (y / x) with (/ (x / y)) by (field; lra). rewrite atan_inv; [lra|].
      replace (x / y) with (- x / - y) by (field; lra). apply Rdiv_lt_0_compat; lra.
    + destruct (Rlt_dec 0 y); [lra|]. destruct (Rlt_dec y 0); [|lra]. assert (x = 0) by lra. subst. unfold Rdiv. rewrite Rmult_0_l, atan_0. lra.
Qed.
Lemma ratan2_right y x : 0 < x -> ratan2 y x = atan (y / x).
Proof. intros H. unfold ratan2. destruct (Rlt_dec 0 x); [reflexivity | lra]. Qed.

(** off the cut, the negative x axis *)
Lemma ratan2_derive f g x f' g' : derivable_pt_lim f x f' -> derivable_pt_lim g x g' -> 0 < g x \/ f x <> 0 ->
  derivable_pt_lim (fun t => ratan2 (f t) (g t)) x ((g x * f' - f x * g') / (g x * g x + f x * f x)).
Proof.
  intros Hf Hg [H|H].
  - apply (dext_loc (fun t => atan (f t / g t))); [|apply atan_quot; auto; lra].
    eapply filter_imp; [|exact (locally_gt _ _ _ _ Hg H)]. intros t Ht. cbn beta in Ht. symmetry. now apply ratan2_right.
  - assert (X : forall c, derivable_pt_lim (fun t => c - atan (g t / f t)) x ((g x * f' - f x * g') / (g x * g x + f x * f x))).
    { intros c. pose proof (derivable_pt_lim_minus _ _ _ _ _ (derivable_pt_lim_const c x) (atan_quot g f x g' f' Hg Hf H)) as Z.
      replace ((g x * f' - f x * g') / (g x * g x + f x * f x)) with (0 - (f x * g' - g x * f') / (f x * f x + g x * g x)); [exact Z|].
      assert (0 < g x * g x + f x * f x). { pose proof (Rle_0_sqr (g x)). pose proof (Rsqr_pos_lt _ H). unfold Rsqr in *. lra. } field. lra. }
    destruct (Rdichotomy _ _ H) as [Lt|Gt].
    + apply (dext_loc (fun t => - (PI / 2) - atan (g t / f t))); [|apply X].
      eapply filter_imp; [|exact (locally_lt _ _ _ _ Hf Lt)]. intros t Ht. cbn beta in Ht. symmetry. now apply ratan2_down.
    + apply (dext_loc (fun t => PI / 2 - atan (g t / f t))); [|apply X].
      eapply filter_imp; [|exact (locally_gt _ _ _ _ Hf Gt)]. intros t Ht. cbn beta in Ht. symmetry. now apply ratan2_up.
Qed.

Lemma asin_derive f x f' : derivable_pt_lim f x f' -> -1 < f x < 1 -> derivable_pt_lim (fun t => asin (f t)) x (f' / sqrt (1 - f x * f x)).
Proof.
  intros Hf H. assert (Ha : derivable_pt_lim asin (f x) (1 / sqrt (1 - (f x)²))).
  { apply (derive_pt_eq_1 asin (f x) _ (derivable_pt_asin (f x) H)). apply derive_pt_asin. }
  pose proof (derivable_pt_lim_comp _ asin x _ _ Hf Ha) as Hc.
  replace (f' / sqrt (1 - f x * f x)) with (1 / sqrt (1 - (f x)²) * f'); [exact Hc|]. unfold Rsqr.
  assert (0 < sqrt (1 - f x * f x)) by (apply sqrt_lt_R0; nra). field. lra.
Qed.

Lemma off_cut y x : x <> 0 \/ y <> 0 -> ratan2 y x <> PI -> 0 < x \/ y <> 0.
Proof.
  intros N C. destruct (Req_dec y 0) as [E|]; auto. left. destruct (Rlt_dec 0 x) as [|X]; auto. exfalso. apply C. subst y. unfold ratan2.
  destruct (Rlt_dec 0 x); [lra|]. destruct (Rlt_dec x 0) as [X'|]; [|exfalso; destruct N; lra]. destruct (Rle_dec 0 0); [|lra].
  unfold Rdiv. rewrite Rmult_0_l, atan_0. lra.
Qed.

Section Turning.
Context (B D : pose) (u : vec).
Context (HB : unit_q (rotation B)) (HD : unit_q (rotation D)) (HU : unit_vector u).
Let E (t : R) : pose := pose_transform (turned B u t) D.
Let M (t : R) : M33 := quat_mat (rotation (E t)).
Let Mb := quat_mat (rotation B).
Let w : vec := mvec Mb u.

Lemma E_unit t : unit_q (rotation (E t)).
Proof. unfold E. cbn [pose_transform rotation turned]. auto using unit_mul, axis_q_unit. Qed.
Lemma M_is t : M t = mmul Mb (mmul (Rodrigues u t) (quat_mat (rotation D))).
Proof.
  unfold M, E, Mb. cbn [pose_transform rotation turned]. rewrite !quat_mat_mul, axis_q_mat by auto using unit_mul, axis_q_unit. apply mmul_assoc.
Qed.

Definition mcol (k : nat) (m : M33) : vec :=
  match k with 0 => @V3 RA (m11 m) (m21 m) (m31 m) | 1 => @V3 RA (m12 m) (m22 m) (m32 m) | _ => @V3 RA (m13 m) (m23 m) (m33 m) end%nat.
Lemma mcol_mul k a b : mcol k (mmul a b) = mvec a (mcol k b).
Proof. destruct k as [|[|k]]; reflexivity. Qed.
Definition vcomp (i : nat) (v : vec) : R := match i with 0 => vx v | 1 => vy v | _ => vz v end%nat.

Lemma mcol_derive i k t : derivable_pt_lim (fun t => vcomp i (mcol k (M t))) t (vcomp i (cross_product w (mcol k (M t)))).
Proof.
  rewrite M_is, !mcol_mul. unfold w, Mb. rewrite quat_cross by auto. fold Mb. set (d := mcol k (quat_mat (rotation D))).
  destruct i as [|[|i]]; cbn [vcomp].
  - apply (dext (fun t => lin (m11 Mb) (m12 Mb) (m13 Mb) (mvec (Rodrigues u t) d) + 0)); [|now apply Rod_derive].
    intros x. rewrite M_is, !mcol_mul, Rplus_0_r. reflexivity.
  - apply (dext (fun t => lin (m21 Mb) (m22 Mb) (m23 Mb) (mvec (Rodrigues u t) d) + 0)); [|now apply Rod_derive].
    intros x. rewrite M_is, !mcol_mul, Rplus_0_r. reflexivity.
  - apply (dext (fun t => lin (m31 Mb) (m32 Mb) (m33 Mb) (mvec (Rodrigues u t) d) + 0)); [|now apply Rod_derive].
    intros x. rewrite M_is, !mcol_mul, Rplus_0_r. reflexivity.
Qed.

Lemma m11_derive t : derivable_pt_lim (fun t => m11 (M t)) t (vy w * m31 (M t) - vz w * m21 (M t)). Proof. exact (mcol_derive 0 0 t). Qed.
Lemma m21_derive t : derivable_pt_lim (fun t => m21 (M t)) t (vz w * m11 (M t) - vx w * m31 (M t)). Proof. exact (mcol_derive 1 0 t). Qed.
Lemma m31_derive t : derivable_pt_lim (fun t => m31 (M t)) t (vx w * m21 (M t) - vy w * m11 (M t)). Proof. exact (mcol_derive 2 0 t). Qed.
Lemma m32_derive t : derivable_pt_lim (fun t => m32 (M t)) t (vx w * m22 (M t) - vy w * m12 (M t)). Proof. exact (mcol_derive 2 1 t). Qed.
Lemma m33_derive t : derivable_pt_lim (fun t => m33 (M t)) t (vx w * m23 (M t) - vy w * m13 (M t)). Proof. exact (mcol_derive 2 2 t). Qed.

Lemma away_m31 t : away (rotation (E t)) <-> Rabs (- m31 (M t)) < 99999 / 100000.
Proof. unfold away, M. destruct (quat_mat_row _ (E_unit t)) as (-> & _). now rewrite Ropp_involutive. Qed.

Lemma getRPY_mat t : away (rotation (E t)) -> getRPY (rotation (E t)) =
  @V3 RA (ratan2 (m32 (M t)) (m33 (M t))) (asin (- m31 (M t))) (ratan2 (m21 (M t)) (m11 (M t))).
Proof.
  intros H. rewrite getRPY_away by auto. unfold M. destruct (quat_mat_row _ (E_unit t)) as (-> & -> & -> & -> & ->). now rewrite Ropp_involutive.
Qed.

Lemma locally_away t : away (rotation (E t)) -> locally t (fun t => away (rotation (E t))).
Proof.
  intros H. apply away_m31, Rabs_def2 in H. pose proof (derivable_pt_lim_opp _ _ _ (m31_derive t)) as Hd.
  destruct H as [H1 H2]. pose proof (locally_lt _ _ _ _ Hd H1) as L1. pose proof (locally_gt _ _ _ _ Hd H2) as L2.
  generalize (filter_and _ _ L1 L2). apply filter_imp. intros x [X1 X2]. apply away_m31. unfold opp_fct in *. now apply Rabs_def1.
Qed.

Lemma turned_rpy_derive i t : away (rotation (E t)) -> vx (getRPY (rotation (E t))) <> PI -> vz (getRPY (rotation (E t))) <> PI ->
  derivable_pt_lim (fun t => vcomp i (getRPY (rotation (E t)))) t
    (vcomp i (rpy_derivative (getRPY (rotation (E t))) (q_rot (rotation (turned B u t)) u))).
Proof.
  intros Ha Cr Cy. rewrite turned_axis by auto. fold Mb w. pose proof (getRPY_mat t Ha) as ER. rewrite ER in *. cbn [vx vz] in Cr, Cy.
  destruct (quat_cof _ (E_unit t)) as (C1 & C2 & C3 & C4 & C5 & C6). pose proof (quat_m11 _ (E_unit t)) as C0. 
  destruct (quat_cof9 _ (E_unit t)) as (_ & (C21 & _ & _) & _). cbv zeta in C21. fold (M t) in C0, C1, C2, C3, C4, C5, C6, C21.
  apply away_m31 in Ha as Ha'. apply Rabs_def2 in Ha'. set (s := - m31 (M t)) in *. assert (P : 0 < 1 - s * s) by nra.
  assert (Es : m31 (M t) = - s) by (unfold s; ring). rewrite Es in C5, C6.
  assert (N1 : m33 (M t) <> 0 \/ m32 (M t) <> 0). { destruct (Req_dec (m33 (M t)) 0) as [Z|]; auto. right. intros Z'. rewrite Z, Z' in C5. lra. }
  assert (N2 : m11 (M t) <> 0 \/ m21 (M t) <> 0). { destruct (Req_dec (m11 (M t)) 0) as [Z|]; auto. right. intros Z'. rewrite Z, Z' in C6. lra. }
  assert (SP : 0 < sqrt (1 - s * s)) by now apply sqrt_lt_R0. set (k := sqrt (1 - s * s)) in *.
  assert (K2 : k * k = 1 - s * s) by (apply sqrt_sqrt; lra).
  assert (S2 : sqrt (m11 (M t) * m11 (M t) + m21 (M t) * m21 (M t)) = k) by (unfold k; f_equal; lra).
  assert (CA : cos (asin s) = k) by (rewrite cos_asin by lra; reflexivity). assert (SA : sin (asin s) = s) by (apply sin_asin; lra).
  pose proof (cos_atan2 _ _ N2) as CY. pose proof (sin_atan2 _ _ N2) as SY. rewrite S2 in CY, SY.
  pose proof (off_cut _ _ N1 Cr) as O1. pose proof (off_cut _ _ N2 Cy) as O2.
  assert (L : forall i, locally t (fun t => vcomp i (@V3 RA (ratan2 (m32 (M t)) (m33 (M t))) (asin (- m31 (M t))) (ratan2 (m21 (M t)) (m11 (M t)))) = vcomp i (getRPY (rotation (E t))))).
  { intros i0. generalize (locally_away t Ha). apply filter_imp. intros x Hx. cbn beta in Hx. now rewrite getRPY_mat. }
  apply (dext_loc _ _ _ _ (L i)). clear L. unfold rpy_derivative. cbn [vx vy vz]. rnum. rewrite !cos_neg, !sin_neg, CA, SA, CY, SY.
  assert (F : forall a b : R, k * k * a = k * k * b -> a = b) by (intros a b H; apply (Rmult_eq_reg_l (k * k)); auto; nra).
  destruct i as [|[|i]]; cbn [vcomp vx vy vz].
  - pose proof (ratan2_derive _ _ _ _ _ (m32_derive t) (m33_derive t) O1) as Hd.
    match type of Hd with derivable_pt_lim _ _ ?a => match goal with |- derivable_pt_lim _ _ ?b => replace b with a; [exact Hd|] end end.
    replace (m33 (M t) * m33 (M t) + m32 (M t) * m32 (M t)) with (k * k) by lra.
    transitivity ((vx w * m11 (M t) + vy w * m21 (M t)) / (k * k)); [f_equal; rewrite C0, C21; ring | field; lra].
  - pose proof (asin_derive _ _ _ (derivable_pt_lim_opp _ _ _ (m31_derive t)) ltac:(unfold opp_fct; fold s; lra)) as Hd.
    match type of Hd with derivable_pt_lim _ _ ?a => match goal with |- derivable_pt_lim _ _ ?b => replace b with a; [exact Hd|] end end.
    unfold opp_fct. fold s k. field. lra.
  - pose proof (ratan2_derive _ _ _ _ _ (m21_derive t) (m11_derive t) O2) as Hd.
    match type of Hd with derivable_pt_lim _ _ ?a => match goal with |- derivable_pt_lim _ _ ?b => replace b with a; [exact Hd|] end end.
    replace (m11 (M t) * m11 (M t) + m21 (M t) * m21 (M t)) with (k * k) by lra. rewrite Es.
    transitivity ((vz w * (m11 (M t) * m11 (M t) + m21 (M t) * m21 (M t)) + s * (vx w * m11 (M t) + vy w * m21 (M t))) / (k * k)); [f_equal; ring|].
    replace (m11 (M t) * m11 (M t) + m21 (M t) * m21 (M t)) with (k * k) by lra. field. lra.
Qed.
End Turning.

(** ** sliding *)
Lemma slid_unit B u t : unit_q (rotation B) -> unit_q (rotation (slid B u t)).
Proof. intros H. cbn [slid pose_transform rotation]. rewrite q_mul_1r. exact H. Qed.
Lemma slid_derive B u D t i : unit_q (rotation B) ->
  derivable_pt_lim (fun t => vcomp i (position (pose_transform (slid B u t) D))) t (vcomp i (q_rot (rotation (slid B u t)) u)).
Proof.
  intros H. set (M := quat_mat (rotation B)). set (p := position B). set (d := position D).
  assert (E : forall t, position (pose_transform (slid B u t) D) = v_add (mvec M d) (v_add (mvec M (@V3 RA (vx u * t) (vy u * t) (vz u * t))) p)).
  { intros x. unfold slid. cbn [pose_transform position rotation]. rewrite q_mul_1r, !quat_mat_rot by auto. reflexivity. }
  cbn [slid pose_transform rotation]. rewrite q_mul_1r, quat_mat_rot by auto. fold M.
  apply (dext (fun t => vcomp i (v_add (mvec M d) (v_add (mvec M (@V3 RA (vx u * t) (vy u * t) (vz u * t))) p)))); [intros x; now rewrite E|].
  clear E. apply is_deriv. unfold v_add, mvec. destruct M as [a11 a12 a13 a21 a22 a23 a31 a32 a33], d as [d1 d2 d3], p as [p1 p2 p3], u as [u1 u2 u3].
  destruct i as [|[|i]]; cbn [vcomp vx vy vz m11 m12 m13 m21 m22 m23 m31 m32 m33]; rnum; change (@num RA) with R in *; auto_derive; auto; ring.
Qed.
Lemma slid_rot B u D t t' : rotation (pose_transform (slid B u t) D) = rotation (pose_transform (slid B u t') D).
Proof. reflexivity. Qed.

(** ** how a link's pose depends on one joint angle *)
Section Path.
Context (R : @Robot RA) (root : string) (sorted : list (string * option Inertial)) (jsorted : list UJoint).
Context (ms : list (string * Inertial)) (mass : @num RA) (s : AState) (m : KM).
Context (HR : Rep R root sorted jsorted ms mass s m).
Context (ND : NoDup (map uj_name (r_joints R))) (AX : axes_ok (r_joints R)) (AD : added_ok (as_added s)) (UB : unit_q (rotation (as_base s))).
Notation with_angle k t := (mkAS (as_added s) (list_set (as_angles s) k t) (as_base s)).

Lemma rep_angles_length : length (as_angles s) = length (jnames jsorted).
Proof.
  rewrite <- (rep_angles _ _ _ _ _ _ _ _ HR), (wf_angles m (rep_wf _ _ _ _ _ _ _ _ HR)). unfold jnames. rewrite map_length.
  symmetry. apply (Forall2_len _ _ _ (rep_joints _ _ _ _ _ _ _ _ HR)).
Qed.
Lemma jn_nodup : NoDup (jnames jsorted).
Proof. apply (jnames_nodup _ _ _ _ _ _ _ _ HR). Qed.

Inductive path (j : UJoint) (q0 : Rdefinitions.R) (n : string) (P : Rdefinitions.R -> pose) : Prop :=
| path_still : ~ carries (r_joints R) (as_added s) j n -> (forall t, P t = P q0) -> path j q0 n P
| path_turned B D : carries (r_joints R) (as_added s) j n -> uj_type j = REVOLUTE \/ uj_type j = CONTINUOUS -> unit_vector (uj_axis j) -> unit_q (rotation B) -> unit_q (rotation D) ->
    (forall t, P t = pose_transform (turned B (uj_axis j) t) D) -> pose_at R root jsorted s (uj_child j) (turned B (uj_axis j) q0) -> path j q0 n P
| path_slid B D : carries (r_joints R) (as_added s) j n -> uj_type j = PRISMATIC -> unit_q (rotation B) -> unit_q (rotation D) ->
    (forall t, P t = pose_transform (slid B (uj_axis j) t) D) -> pose_at R root jsorted s (uj_child j) (slid B (uj_axis j) q0) -> path j q0 n P.

Lemma path_of k j n q0 P : carries (r_joints R) (as_added s) j n \/ ~ carries (r_joints R) (as_added s) j n -> nth_error jsorted k = Some j -> nth_error (as_angles s) k = Some q0 ->
  (forall t, pose_at R root jsorted (with_angle k t) n (P t)) ->
  (forall t P1 P2, pose_at R root jsorted (with_angle k t) n P1 -> pose_at R root jsorted (with_angle k t) n P2 -> P1 = P2) ->
  path j q0 n P.
Proof.
  intros Dec Ej Eq HP DET. assert (Ij : In j (r_joints R) /\ movable (uj_type j) = true) by (apply (rep_jsorted _ _ _ _ _ _ _ _ HR); eapply nth_error_In; eauto).
  destruct Ij as [Ij Mj]. assert (En : nth_error (jnames jsorted) k = Some (uj_name j)) by (unfold jnames; rewrite nth_error_map', Ej; reflexivity).
  assert (S0 : with_angle k q0 = s). { destruct s as [ad an ba]. cbn [as_added as_angles as_base] in *. f_equal. now apply list_set_same. }
  destruct Dec as [Hc|Hc].
  2:{ apply path_still; auto. intros t. apply (DET q0); [|apply HP]. specialize (HP t). unfold pose_at in *. cbn [as_added as_angles as_base] in *.
      apply (fk_local _ _ _ _ _ _ _ _ HP). intros j' I' C'. destruct (by_name_set (jnames jsorted) (as_angles s) k (uj_name j) t jn_nodup rep_angles_length En) as [_ H1].
      destruct (by_name_set (jnames jsorted) (as_angles s) k (uj_name j) q0 jn_nodup rep_angles_length En) as [_ H2].
      assert (N : uj_name j' <> uj_name j) by (intros E; apply (same_name_same_joint R) in E; auto; subst; auto). rewrite H1, H2 by auto. reflexivity. }
  destruct (parent_pose_ex _ _ _ _ _ _ _ _ HR j Ij) as (Pp & HPp).
  assert (UP : unit_q (rotation Pp)) by (eapply fk_unit; eauto).
  destruct (AX j Ij) as [Ho Hu]. apply rpy_pose_unit in Ho.
  destruct (chain _ _ _ _ _ _ _ _ HR j n _ _ Pp ND AX AD UB Ij Hc HPp) as (D & UD & HD).
  assert (Q : forall t j', In j' (r_joints R) -> uj_name j' <> uj_name j -> by_name (jnames jsorted) (list_set (as_angles s) k t) (uj_name j') = by_name (jnames jsorted) (as_angles s) (uj_name j')).
  { intros t j' I' N. apply (by_name_set (jnames jsorted) (as_angles s) k (uj_name j) t jn_nodup rep_angles_length En); auto. }
  assert (PT : forall t, P t = pose_transform (pose_transform Pp (motion j t)) D).
  { intros t. apply (DET t); [apply HP|]. unfold pose_at. cbn [as_added as_angles as_base]. specialize (HD _ (Q t)).
    rewrite (proj1 (by_name_set (jnames jsorted) (as_angles s) k (uj_name j) t jn_nodup rep_angles_length En)) in HD. exact HD. }
  assert (CT : pose_at R root jsorted s (uj_child j) (pose_transform Pp (motion j q0))).
  { pose proof (fk_joint _ _ _ _ _ j Pp Ij HPp) as H. assert (Eb : by_name (jnames jsorted) (as_angles s) (uj_name j) = q0).
    { unfold by_name. rewrite (assoc_combine_nth _ _ k _ q0 jn_nodup En Eq). reflexivity. } rewrite Eb in H. exact H. }
  set (B := pose_transform Pp (uj_origin j)). assert (UBq : unit_q (rotation B)) by (unfold B; cbn [pose_transform rotation]; now apply unit_mul).
  destruct (uj_type j) eqn:Et; try discriminate Mj.
  - apply (path_turned j q0 n P B D); auto.
    + intros t. rewrite PT, motion_is, Et, <- pt_assoc by (apply unit_pos; auto). reflexivity.
    + rewrite motion_is, Et, <- pt_assoc in CT by (apply unit_pos; auto). exact CT.
  - apply (path_turned j q0 n P B D); auto.
    + intros t. rewrite PT, motion_is, Et, <- pt_assoc by (apply unit_pos; auto). reflexivity.
    + rewrite motion_is, Et, <- pt_assoc in CT by (apply unit_pos; auto). exact CT.
  - apply (path_slid j q0 n P B D); auto.
    + intros t. rewrite PT, motion_is, Et, <- pt_assoc by (apply unit_pos; auto). reflexivity.
    + rewrite motion_is, Et, <- pt_assoc in CT by (apply unit_pos; auto). exact CT.
Qed.
End Path.
