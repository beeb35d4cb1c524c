(** Algebra of the pose operations over the real numbers. *)
From Coq Require Import QArith Qreals Reals Lra Lia List.
From Verif Require Import Base Num Pose Urdf Decimal RealArith.
Import ListNotations.
Local Open Scope R_scope.

Lemma Q2R_0 : Q2R 0 = 0. Proof. unfold Q2R; simpl; field. Qed.
Lemma Q2R_1 : Q2R 1 = 1. Proof. unfold Q2R; simpl; field. Qed.
Lemma Q2R_2 : Q2R 2 = 2. Proof. unfold Q2R; simpl; field. Qed.
Lemma Q2R_h : Q2R (1 # 2) = 1 / 2. Proof. unfold Q2R; simpl; field. Qed.
Lemma Q2R_m1 : Q2R (-1 # 1) = - 1. Proof. unfold Q2R; simpl; field. Qed.
Lemma Q2R_m2 : Q2R (-2 # 1) = - 2. Proof. unfold Q2R; simpl; field. Qed.

(** from the abstract operations to those of R *)
Ltac lits := rewrite ?Q2R_0, ?Q2R_1, ?Q2R_2, ?Q2R_h, ?Q2R_m1, ?Q2R_m2.
Ltac litsin H := rewrite ?Q2R_0, ?Q2R_1, ?Q2R_2, ?Q2R_h, ?Q2R_m1, ?Q2R_m2 in H.
Ltac rnum :=
  change (@add RA) with Rplus; change (@sub RA) with Rminus; change (@mul RA) with Rmult; change (@div RA) with Rdiv;
  change (@opp RA) with Ropp; change (@nsqrt RA) with sqrt; change (@nsin RA) with sin; change (@ncos RA) with cos;
  change (@nasin RA) with asin; change (@natan2 RA) with ratan2; change (@nle RA) with Rleb; change (@nlt RA) with Rltb; change (@neq RA) with Reqb;
  change (@n0 RA) with (Q2R 0); change (@n1 RA) with (Q2R 1); change (@n2 RA) with (Q2R 2); change (@nhalf RA) with (Q2R (1 # 2));
  change (@lit RA) with Q2R; change (@num RA) with R; lits.
Ltac rnumin H :=
  change (@add RA) with Rplus in H; change (@sub RA) with Rminus in H; change (@mul RA) with Rmult in H; change (@div RA) with Rdiv in H;
  change (@opp RA) with Ropp in H; change (@nsqrt RA) with sqrt in H; change (@nsin RA) with sin in H; change (@ncos RA) with cos in H;
  change (@nasin RA) with asin in H; change (@natan2 RA) with ratan2 in H; change (@nle RA) with Rleb in H; change (@nlt RA) with Rltb in H; change (@neq RA) with Reqb in H;
  change (@n0 RA) with (Q2R 0) in H; change (@n1 RA) with (Q2R 1) in H; change (@n2 RA) with (Q2R 2) in H; change (@nhalf RA) with (Q2R (1 # 2)) in H;
  change (@lit RA) with Q2R in H; change (@num RA) with R in H; litsin H.
Ltac proj := cbn [qx qy qz qw vx vy vz position rotation].

Notation vec := (@Vector3 RA).
Notation quat := (@Rotation RA).
Notation pose := (@Pose RA).

Lemma v_eq (a b : vec) : vx a = vx b -> vy a = vy b -> vz a = vz b -> a = b.
Proof. destruct a, b; simpl; intros -> -> ->; reflexivity. Qed.
Lemma q_eq (a b : quat) : qx a = qx b -> qy a = qy b -> qz a = qz b -> qw a = qw b -> a = b.
Proof. destruct a, b; simpl; intros -> -> -> ->; reflexivity. Qed.
Lemma p_eq (a b : pose) : position a = position b -> rotation a = rotation b -> a = b.
Proof. destruct a, b; simpl; intros -> ->; reflexivity. Qed.

Definition qn (q : quat) : R := qw q * qw q + qx q * qx q + qy q * qy q + qz q * qz q.
Definition unit_q (q : quat) : Prop := qn q = 1.
Definition unit_v (v : vec) : Prop := vx v * vx v + vy v * vy v + vz v * vz v = 1.

Lemma qn_nonneg q : 0 <= qn q.
Proof. unfold qn. nra. Qed.
Lemma qn_norm2 q : q_norm2 q = qn q.
Proof. reflexivity. Qed.

(** conjugate *)
Definition qconj (q : quat) : quat := Q4 (- qx q) (- qy q) (- qz q) (qw q).

(** rotation of a vector by a non-zero quaternion, q v q* / |q|^2 *)
Definition rotn (q : quat) (v : vec) : vec :=
  let tmp := q_mul q (q_mul (Q4 (vx v) (vy v) (vz v) 0) (qconj q)) in
  V3 (qx tmp / qn q) (qy tmp / qn q) (qz tmp / qn q).

Lemma q_rot_rotn q v : 0 < qn q -> q_rot q v = rotn q v.
Proof.
  intros H. unfold q_rot, rotn, q_GetInverse. rewrite qn_norm2.
  rnum. unfold Rltb. destruct (Rlt_dec 0 (qn q)) as [_|N]; [|lra].
  unfold q_mul, qconj. proj. apply v_eq; proj; rnum; field; lra.
Qed.

Definition rotu (q : quat) (v : vec) : vec :=
  let tmp := q_mul q (q_mul (Q4 (vx v) (vy v) (vz v) 0) (qconj q)) in V3 (qx tmp) (qy tmp) (qz tmp).
Lemma q_rot_unit q v : unit_q q -> q_rot q v = rotu q v.
Proof.
  intros H. unfold unit_q in H. rewrite q_rot_rotn by lra. unfold rotn, rotu. rewrite H. apply v_eq; proj; rnum; field.
Qed.

Lemma qn_mul a b : qn (q_mul a b) = qn a * qn b.
Proof. unfold qn, q_mul; proj. rnum. ring. Qed.
Lemma unit_mul a b : unit_q a -> unit_q b -> unit_q (q_mul a b).
Proof. unfold unit_q. intros Ha Hb. rewrite qn_mul, Ha, Hb. ring. Qed.
Lemma unit_clear : unit_q q_clear.
Proof. unfold unit_q, qn, q_clear. proj. rnum. ring. Qed.
Lemma unit_pos q : unit_q q -> 0 < qn q.
Proof. unfold unit_q. lra. Qed.
Lemma qn_clear_pos : 0 < qn q_clear.
Proof. apply unit_pos, unit_clear. Qed.

Lemma q_mul_assoc a b c : q_mul (q_mul a b) c = q_mul a (q_mul b c).
Proof. unfold q_mul. proj. apply q_eq; proj; rnum; ring. Qed.
Lemma q_mul_1l q : q_mul q_clear q = q.
Proof. unfold q_mul, q_clear. proj. apply q_eq; proj; rnum; ring. Qed.
Lemma q_mul_1r q : q_mul q q_clear = q.
Proof. unfold q_mul, q_clear. proj. apply q_eq; proj; rnum; ring. Qed.

Lemma q_rot_clear v : q_rot q_clear v = v.
Proof. rewrite q_rot_unit by apply unit_clear. unfold rotu, q_mul, qconj, q_clear. proj. apply v_eq; proj; rnum; ring. Qed.
Definition qv (v : vec) : quat := Q4 (vx v) (vy v) (vz v) 0.
Definition qscale (k : R) (q : quat) : quat := Q4 (k * qx q) (k * qy q) (k * qz q) (k * qw q).
Lemma qconj_mul a b : qconj (q_mul a b) = q_mul (qconj b) (qconj a).
Proof. unfold qconj, q_mul. apply q_eq; proj; rnum; ring. Qed.
Lemma q_mul_scale_l k a b : q_mul (qscale k a) b = qscale k (q_mul a b).
Proof. unfold qscale, q_mul. apply q_eq; proj; rnum; ring. Qed.
Lemma q_mul_scale_r k a b : q_mul a (qscale k b) = qscale k (q_mul a b).
Proof. unfold qscale, q_mul. apply q_eq; proj; rnum; ring. Qed.
Lemma qscale_scale k l a : qscale k (qscale l a) = qscale (k * l) a.
Proof. unfold qscale. apply q_eq; proj; rnum; ring. Qed.
Lemma sandwich_pure q v : qw (q_mul q (q_mul (qv v) (qconj q))) = 0.
Proof. destruct q, v. unfold qv, qconj, q_mul. proj. rnum. ring. Qed.
Lemma qv_rotn q v : 0 < qn q -> qv (rotn q v) = qscale (/ qn q) (q_mul q (q_mul (qv v) (qconj q))).
Proof.
  intros H. pose proof (sandwich_pure q v) as Z. unfold rotn. fold (qv v). set (t := q_mul q (q_mul (qv v) (qconj q))) in *.
  unfold qv, qscale. apply q_eq; proj; rnum; try (field; lra). rewrite Z. ring.
Qed.
Lemma qv_inj u v : qv u = qv v -> u = v.
Proof. unfold qv. intros H. inversion H. now apply v_eq. Qed.
Lemma q_rot_mul a b v : 0 < qn a -> 0 < qn b -> q_rot (q_mul a b) v = q_rot a (q_rot b v).
Proof.
  intros Ha Hb. assert (Hab : 0 < qn (q_mul a b)) by (rewrite qn_mul; now apply Rmult_lt_0_compat).
  rewrite !q_rot_rotn by auto. apply qv_inj. rewrite !qv_rotn by auto.
  rewrite qconj_mul, qn_mul, q_mul_scale_l, q_mul_scale_r, qscale_scale, !q_mul_assoc. f_equal.
  field. lra.
Qed.
Lemma q_rot_add q u v : q_rot q (v_add u v) = v_add (q_rot q u) (q_rot q v).
Proof. unfold q_rot. generalize (q_GetInverse q). intros r. unfold v_add, q_mul. proj. apply v_eq; proj; rnum; ring. Qed.
Lemma q_rot_sub q u v : q_rot q (v_sub u v) = v_sub (q_rot q u) (q_rot q v).
Proof. unfold q_rot. generalize (q_GetInverse q). intros r. unfold v_sub, q_mul. proj. apply v_eq; proj; rnum; ring. Qed.
Lemma v_add_assoc (u v w : vec) : v_add (v_add u v) w = v_add u (v_add v w).
Proof. unfold v_add. proj. apply v_eq; proj; rnum; ring. Qed.
Lemma v_add_0r (u : vec) : v_add u v_clear = u.
Proof. unfold v_add, v_clear. proj. apply v_eq; proj; rnum; ring. Qed.
Lemma v_add_0l (u : vec) : v_add v_clear u = u.
Proof. unfold v_add, v_clear. proj. apply v_eq; proj; rnum; ring. Qed.
Lemma q_rot_0 q : q_rot q v_clear = v_clear.
Proof. unfold q_rot. generalize (q_GetInverse q). intros r. unfold v_clear, q_mul. proj. apply v_eq; proj; rnum; ring. Qed.

(** ** poses *)
Lemma pt_assoc (a b c : pose) : 0 < qn (rotation a) -> 0 < qn (rotation b) ->
  pose_transform (pose_transform a b) c = pose_transform a (pose_transform b c).
Proof.
  intros Ha Hb. apply p_eq; simpl; [|apply q_mul_assoc]. rewrite q_rot_mul, q_rot_add, v_add_assoc by auto. reflexivity.
Qed.
Lemma pt_1l (a : pose) : pose_transform pose_clear a = a.
Proof. apply p_eq; simpl; [|apply q_mul_1l]. rewrite q_rot_clear. apply v_add_0r. Qed.
Lemma pt_1r (a : pose) : pose_transform a pose_clear = a.
Proof. apply p_eq; simpl; [|apply q_mul_1r]. rewrite q_rot_0. apply v_add_0l. Qed.

Lemma q_inverse_l q : 0 < qn q -> q_mul (q_inverse q) q = q_clear.
Proof. intros H. unfold q_inverse. rewrite qn_norm2. unfold q_mul, q_clear. proj. rnum. apply q_eq; proj; rnum; try (field; lra). unfold qn in *. field. lra. Qed.
Lemma q_inverse_r q : 0 < qn q -> q_mul q (q_inverse q) = q_clear.
Proof. intros H. unfold q_inverse. rewrite qn_norm2. unfold q_mul, q_clear. proj. rnum. apply q_eq; proj; rnum; try (field; lra). unfold qn in *. field. lra. Qed.
Lemma qn_inverse q : 0 < qn q -> qn (q_inverse q) = / qn q.
Proof.
  intros H. replace (/ qn q) with (qn q * (/ qn q * / qn q)) by (field; lra).
  unfold q_inverse. change (@q_norm2 RA q) with (qn q). remember (qn q) as n eqn:En. unfold qn in *. proj. rnum.
  rewrite En at 9. field. lra.
Qed.
Lemma qn_inverse_pos q : 0 < qn q -> 0 < qn (q_inverse q).
Proof. intros H. rewrite qn_inverse by auto. now apply Rinv_0_lt_compat. Qed.
Lemma v_inverse_sub (v : vec) : v_inverse v = v_sub v_clear v.
Proof. unfold v_inverse, v_sub, v_clear. proj. apply v_eq; proj; rnum; ring. Qed.
Lemma v_sub_add (u v : vec) : v_add (v_sub u v) v = u.
Proof. unfold v_add, v_sub. proj. apply v_eq; proj; rnum; ring. Qed.

Lemma pt_inverse_l (a : pose) : 0 < qn (rotation a) -> pose_transform (pose_inverse a) a = pose_clear.
Proof.
  intros H. apply p_eq; simpl; [|now apply q_inverse_l].
  rewrite v_inverse_sub, q_rot_sub, q_rot_0. unfold v_add, v_sub, v_clear. proj. apply v_eq; proj; rnum; ring.
Qed.
Lemma pt_inverse_r (a : pose) : 0 < qn (rotation a) -> pose_transform a (pose_inverse a) = pose_clear.
Proof.
  intros H. apply p_eq; simpl; [|now apply q_inverse_r].
  rewrite <- q_rot_mul by auto using qn_inverse_pos. rewrite q_inverse_r, q_rot_clear, v_inverse_sub by auto.
  apply v_sub_add.
Qed.
