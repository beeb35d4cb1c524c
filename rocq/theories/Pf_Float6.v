(** Rounding errors of the joint columns of a Jacobian. *)
From Coq Require Import QArith Qreals Reals Lra Lia String List Psatz Classical.
From Verif Require Import Base Num Pose DataStructure Urdf Kin Wrapper Decimal RealArith FloatArith Spec_Robot Spec_Hist Spec_Load Spec_Jac Spec_Deriv Spec_Float
  Pf_Urdf Pf_Real Pf_JacD Pf_BaseD Pf_Float1 Pf_Float2 Pf_Float3 Pf_Float4 Pf_Float5.
Import ListNotations.
Local Open Scope R_scope.

(** which links a joint carries depends on names only *)
Lemma carries_same {A1 A2 : Arith} (js1 : list (@UJoint A1)) (js2 : list (@UJoint A2)) (ad1 : @Added A1) (ad2 : @Added A2) j1 j2 n :
  uj_child j1 = uj_child j2 ->
  (forall j, In j js1 -> exists j', In j' js2 /\ uj_parent j = uj_parent j' /\ uj_child j = uj_child j') ->
  (forall n p T, In (n, p, T) ad1 -> exists T', In (n, p, T') ad2) ->
  carries js1 ad1 j1 n -> carries js2 ad2 j2 n.
Proof.
  intros Ec HJ HA C. induction C as [|j I C IH|n p T I C IH].
  - rewrite Ec. constructor.
  - destruct (HJ j I) as (j' & I' & Ep & Ek). rewrite Ek. apply carries_joint; [exact I'|]. now rewrite <- Ep.
  - destruct (HA _ _ _ I) as (T' & I'). eapply carries_added; eauto.
Qed.

Lemma Some_eq {B} (a b : B) : Some a = Some b -> a = b. Proof. now intros [= ->]. Qed.

(** the exact operations, bilinear *)
Definition vcross (a b : vec) : vec := @cross_product RA a b.
Lemma nv_sub a b : nv (v_sub a b) <= nv a + nv b.
Proof.
  unfold nv. replace (qv (v_sub a b)) with (q_plus (qv a) (qneg (qv b))).
  - replace (N (qv b)) with (N (qneg (qv b))); [apply N_triangle|]. unfold N. f_equal. unfold qn, qneg. cbn [qx qy qz qw]. rnum. ring.
  - unfold qv, q_plus, qneg, v_sub. apply q_eq; cbn [qx qy qz qw vx vy vz]; rnum; ring.
Qed.
Lemma dv_sub a b a' b' : dv (v_sub a b) (v_sub a' b') <= dv a a' + dv b b'.
Proof.
  unfold dv at 2 3. rewrite (dist_sym (qv b)). unfold dv, dist.
  replace (q_minus (qv (v_sub a b)) (qv (v_sub a' b'))) with (q_plus (q_minus (qv a) (qv a')) (q_minus (qv b') (qv b))); [apply N_triangle|].
  unfold qv, q_plus, q_minus, v_sub. apply q_eq; cbn [qx qy qz qw vx vy vz]; rnum; ring.
Qed.
(** the cross product is the vector part of the product of pure quaternions *)
Lemma nv_cross a b : nv (vcross a b) <= nv a * nv b.
Proof.
  unfold nv. rewrite <- N_mul. unfold N. apply sqrt_le_1_alt. unfold qn, q_mul, qv, vcross, cross_product. cbn [qx qy qz qw vx vy vz]. rnum.
  pose proof (Rle_0_sqr (vx a * vx b + vy a * vy b + vz a * vz b)) as S. unfold Rsqr in S. destruct a as [a1 a2 a3], b as [b1 b2 b3]. cbn [vx vy vz] in *.
  change (@num RA) with R in *. nra.
Qed.
Lemma dv_cross a b a' b' : dv (vcross a b) (vcross a' b') <= dv a a' * nv b + nv a' * dv b b'.
Proof.
  assert (D : forall x y : vec, dv x y = nv (v_sub x y)).
  { intros x y. unfold dv, dist, nv. f_equal. unfold q_minus, qv, v_sub. apply q_eq; cbn [qx qy qz qw vx vy vz]; rnum; ring. }
  rewrite !D. pose proof (nv_cross (v_sub a a') b) as H1. pose proof (nv_cross a' (v_sub b b')) as H2.
  replace (v_sub (vcross a b) (vcross a' b')) with (v_add (vcross (v_sub a a') b) (vcross a' (v_sub b b'))).
  - eapply Rle_trans; [apply nv_add|]. lra.
  - unfold vcross, cross_product, v_add, v_sub. apply v_eq; cbn [vx vy vz]; rnum; ring.
Qed.
(** q_derivative is half a product of quaternions, up to a sign *)
Definition flip (q : quat) : quat := @Q4 RA (qx q) (qy q) (qz q) (- qw q)%R.
Lemma derivative_mul (i : quat) (om : vec) : @q_derivative RA i om = qscale (/ 2) (flip (q_mul i (qv om))).
Proof. unfold q_derivative, qscale, flip, q_mul, qv. cbv zeta. apply q_eq; cbn [qx qy qz qw vx vy vz]; rnum; lra. Qed.
Lemma dist_derivative i om i' om' : dist (@q_derivative RA i om) (@q_derivative RA i' om') <= / 2 * (dist i i' * nv om + N i' * dv om om').
Proof.
  rewrite !derivative_mul. unfold nv, dv. eapply Rle_trans; [|apply Rmult_le_compat_l; [lra|apply dist_mul]].
  apply Req_le. unfold dist, N. rewrite <- (sqrt_square (/ 2)) at 3 by lra. rewrite <- sqrt_mult; [|lra|apply qn_nonneg].
  f_equal. unfold qn, q_minus, qscale, flip. cbn [qx qy qz qw]. rnum. field.
Qed.

Section Cols.
Variable o : Ops.
Variable u : R.
Hypothesis Hacc : accurate o u.
Hypothesis Hu : 0 <= u <= / 1000.

Lemma round_v_sub (a b : @Vector3 (FA o)) M : nv (v_sub (vR o a) (vR o b)) <= M ->
  dv (vR o (v_sub a b)) (v_sub (vR o a) (vR o b)) <= 2 * u * (1 + M).
Proof.
  intros HM. assert (M0 : 0 <= M) by (eapply Rle_trans; [apply N_nonneg|exact HM]).
  unfold dv, dist. replace (2 * u * (1 + M)) with (2 * (u * (1 + M))) by ring.
  destruct (comp_nv (v_sub (vR o a) (vR o b))) as (X & Y & Z). unfold v_sub, vR in X, Y, Z. cbn [vx vy vz] in X, Y, Z. rnumin X. rnumin Y. rnumin Z.
  assert (T : forall x y, Rabs (x - y) <= M -> Rabs (o_sub o x y - (x - y)) <= u * (1 + M)).
  { intros x y H. eapply Rle_trans; [apply (acc_sub _ _ Hacc)|]. apply Rmult_le_compat_l; lra. }
  unfold v_sub, vR in HM. cbn [vx vy vz] in HM.
  apply N_comp; unfold q_minus, qv, vR, v_sub; cbn [qx qy qz qw vx vy vz]; rnum.
  - apply T. eapply Rle_trans; [exact X|exact HM].
  - apply T. eapply Rle_trans; [exact Y|exact HM].
  - apply T. eapply Rle_trans; [exact Z|exact HM].
  - rewrite Rminus_0_r, Rabs_R0. apply Rmult_le_pos; lra.
Qed.

Lemma two_terms B p1 p2 p1' p2' : Rabs p1 + Rabs p2 <= B -> near u 1 B p1' p1 -> near u 1 B p2' p2 -> near u 4 B (o_sub o p1' p2') (p1 - p2).
Proof.
  intros S H1 H2. pose proof (Rabs_pos p1). pose proof (Rabs_pos p2). replace 4 with (1 + 1 + 2) by ring.
  apply near_sub; auto; try lra. unfold Rminus. eapply Rle_trans; [apply Rabs_triang|]. rewrite Rabs_Ropp. lra.
Qed.
Lemma round_cross (a b : @Vector3 (FA o)) : dv (vR o (cross_product a b)) (vcross (vR o a) (vR o b)) <= 8 * u * (1 + nv (vR o a) * nv (vR o b)).
Proof.
  set (B := nv (vR o a) * nv (vR o b)).
  assert (B0 : 0 <= B) by (apply Rmult_le_pos; apply N_nonneg).
  assert (G : forall a1 a2 b1 b2, a1 * a1 + a2 * a2 <= nv (vR o a) * nv (vR o a) -> b1 * b1 + b2 * b2 <= nv (vR o b) * nv (vR o b) ->
              Rabs (o_sub o (o_mul o a1 b2) (o_mul o a2 b1) - (a1 * b2 - a2 * b1)) <= 4 * u * (1 + B)).
  { intros a1 a2 b1 b2 Ha Hb. assert (S : Rabs (a1 * b2) + Rabs (a2 * b1) <= B).
    { rewrite !Rabs_mult. replace (Rabs a1 * Rabs b2 + Rabs a2 * Rabs b1) with (Rabs a1 * Rabs b2 + Rabs a2 * Rabs b1 + 0 * 0 + 0 * 0) by ring.
      apply dot_le; try apply N_nonneg; rewrite <- !Rabs_mult, !Rabs_pos_eq by apply Rle_0_sqr; lra. }
    pose proof (Rabs_pos (a1 * b2)). pose proof (Rabs_pos (a2 * b1)).
    apply two_terms; [exact S|apply near_prod; auto; lra..]. }
  unfold dv, dist. replace (8 * u * (1 + B)) with (2 * (4 * u * (1 + B))) by ring.
  assert (Sq : forall v : @Vector3 (FA o), nv (vR o v) * nv (vR o v) = vx v * vx v + vy v * vy v + vz v * vz v).
  { intros v. unfold nv. rewrite N_sq. unfold qn, qv, vR. cbn [qx qy qz qw vx vy vz]. rnum. ring. }
  rewrite !Sq in G. pose proof (Rle_0_sqr (vx a)). pose proof (Rle_0_sqr (vy a)). pose proof (Rle_0_sqr (vz a)).
  pose proof (Rle_0_sqr (vx b)). pose proof (Rle_0_sqr (vy b)). pose proof (Rle_0_sqr (vz b)). unfold Rsqr in *.
  apply N_comp; unfold q_minus, qv, vR, vcross, cross_product; cbn [qx qy qz qw vx vy vz]; rnum.
  - apply G; lra.
  - apply G; lra.
  - apply G; lra.
  - rewrite Rminus_0_r, Rabs_R0. apply Rmult_le_pos; lra.
Qed.

(** the unguarded inverse *)
Lemma inverse_same (q' : @Rotation (FA o)) (q : quat) E : 0 <= E <= / 8 -> unit_q q -> dist (qR o q') q <= E -> q_inverse q' = q_GetInverse q'.
Proof.
  intros HE Q D.
  assert (N1 : Rabs (N (qR o q') - 1) <= E). { rewrite <- (N_unit q Q). eapply Rle_trans; [apply N_dist_abs|exact D]. }
  pose proof (qn_near _ _ HE N1) as Q1. pose proof (round_norm2 o u Hacc Hu q') as R1.
  apply Rabs_le_inv in N1. apply Rabs_le_inv in Q1.
  assert (U : 10 * u * (1 + qn (qR o q')) <= 30 * u) by nra. apply Rabs_le_inv in R1.
  unfold q_GetInverse, q_inverse. replace (@nlt (FA o) n0 (q_norm2 q')) with true; [reflexivity|]. symmetry.
  cbn [nlt FA]. unfold Rltb. destruct (Rlt_dec _ _) as [|G]; [reflexivity|]. exfalso. apply G.
  change (@n0 (FA o)) with (o_lit o 0%Q). rewrite (acc_zero _ _ Hacc). lra.
Qed.
Lemma exact_inverse (q : quat) : unit_q q -> @q_inverse RA q = qconj q.
Proof.
  unfold unit_q. intros Q. unfold q_inverse. assert (E : q_norm2 q = 1) by (rewrite <- Q; unfold q_norm2, qn; rnum; ring).
  cbv zeta. rewrite E. unfold qconj. apply q_eq; cbn [qx qy qz qw]; rnum; field.
Qed.

Lemma half_times t' t B : 0 <= B -> Rabs t <= B -> near u 10 B t' t -> Rabs (o_mul o (@nhalf (FA o)) t' - / 2 * t) <= 9 * u * (1 + B).
Proof.
  intros B0 Ht Hn. pose proof (near_abs u 10 B t' t Hn) as A'. unfold near in Hn.
  pose proof (acc_lit _ _ Hacc (1 # 2)%Q) as Hh. unfold rounds in Hh. replace (Q2R (1 # 2)) with (/ 2) in Hh by (unfold Q2R; simpl; lra).
  change (@nhalf (FA o)) with (o_lit o (1 # 2)%Q). set (h := o_lit o (1 # 2)%Q) in *. rewrite (Rabs_pos_eq (/ 2)) in Hh by lra.
  assert (P : 0 <= u * (1 + B)) by (apply Rmult_le_pos; lra).
  assert (T1 : Rabs t' <= 102 / 100 * (1 + B)).
  { assert (u * (1 + B) <= / 1000 * (1 + B)) by (apply Rmult_le_compat_r; lra). lra. }
  assert (H1 : Rabs h <= 51 / 100). { apply Rabs_le. apply Rabs_le_inv in Hh. lra. }
  pose proof (acc_mul _ _ Hacc h t') as M. unfold rounds in M. rewrite Rabs_mult in M.
  assert (M1 : Rabs h * Rabs t' <= 51 / 100 * (102 / 100 * (1 + B))) by (apply Rmult_le_compat; auto using Rabs_pos).
  assert (M2 : u * (1 + Rabs h * Rabs t') <= u * (1 + 51 / 100 * (102 / 100 * (1 + B)))) by (apply Rmult_le_compat_l; lra).
  replace (o_mul o h t' - / 2 * t) with ((o_mul o h t' - h * t') + ((h - / 2) * t' + / 2 * (t' - t))) by ring.
  eapply Rle_trans; [apply Rabs_triang|]. pose proof (Rabs_triang ((h - / 2) * t') (/ 2 * (t' - t))) as T. rewrite !Rabs_mult, (Rabs_pos_eq (/ 2)) in T by lra.
  assert (M3 : Rabs (h - / 2) * Rabs t' <= u * (1 + / 2) * (102 / 100 * (1 + B))) by (apply Rmult_le_compat; auto using Rabs_pos).
  assert (UB : 0 <= u * B) by (apply Rmult_le_pos; lra). lra.
Qed.

Lemma opp_diff a b k : Rabs (a - b) <= k -> Rabs (- a - - b) <= k.
Proof. intros H. rewrite <- Rabs_Ropp. replace (- (- a - - b)) with (a - b) by ring. exact H. Qed.
Lemma round_derivative (i : @Rotation (FA o)) (om : @Vector3 (FA o)) :
  dist (qR o (q_derivative i om)) (@q_derivative RA (qR o i) (vR o om)) <= 18 * u * (1 + N (qR o i) * nv (vR o om)).
Proof.
  set (B := N (qR o i) * nv (vR o om)).
  assert (B0 : 0 <= B) by (apply Rmult_le_pos; apply N_nonneg).
  assert (Sq : nv (vR o om) * nv (vR o om) = vx om * vx om + vy om * vy om + vz om * vz om).
  { unfold nv. rewrite N_sq. unfold qn, qv, vR. cbn [qx qy qz qw vx vy vz]. rnum. ring. }
  assert (Sn : N (qR o i) * N (qR o i) = qx i * qx i + qy i * qy i + qz i * qz i + qw i * qw i).
  { rewrite N_sq. unfold qn, qR. cbn [qx qy qz qw]. rnum. ring. }
  assert (Z : @n0 (FA o) = 0) by (change (@n0 (FA o)) with (o_lit o 0%Q); apply (acc_zero _ _ Hacc)).
  assert (F : forall p1 p2 p3 p4, (fst p1 * fst p1 + fst p2 * fst p2 + fst p3 * fst p3 + fst p4 * fst p4 = nv (vR o om) * nv (vR o om)) ->
    (snd p1 * snd p1 + snd p2 * snd p2 + snd p3 * snd p3 + snd p4 * snd p4 = N (qR o i) * N (qR o i)) ->
    forall s1 s2 s3 : bool, Rabs (
      o_mul o (@nhalf (FA o)) ((if s3 then o_add o else o_sub o) ((if s2 then o_add o else o_sub o) ((if s1 then o_add o else o_sub o) (o_mul o (fst p1) (snd p1)) (o_mul o (fst p2) (snd p2))) (o_mul o (fst p3) (snd p3))) (o_mul o (fst p4) (snd p4)))
       - / 2 * ((if s3 then Rplus else Rminus) ((if s2 then Rplus else Rminus) ((if s1 then Rplus else Rminus) (fst p1 * snd p1) (fst p2 * snd p2)) (fst p3 * snd p3)) (fst p4 * snd p4)))
      <= 9 * u * (1 + B)).
  { intros p1 p2 p3 p4 Ha Hb s1 s2 s3.
    assert (S : Rabs (fst p1 * snd p1) + Rabs (fst p2 * snd p2) + Rabs (fst p3 * snd p3) + Rabs (fst p4 * snd p4) <= B).
    { unfold B. rewrite (Rmult_comm (N (qR o i))), !Rabs_mult. apply dot_le; try apply N_nonneg; rewrite <- !Rabs_mult, !Rabs_pos_eq by apply Rle_0_sqr; lra. }
    pose proof (Rabs_pos (fst p1 * snd p1)). pose proof (Rabs_pos (fst p2 * snd p2)). pose proof (Rabs_pos (fst p3 * snd p3)). pose proof (Rabs_pos (fst p4 * snd p4)).
    apply half_times; [exact B0| |].
    - assert (T : forall (s : bool) x y, Rabs ((if s then Rplus else Rminus) x y) <= Rabs x + Rabs y).
      { intros [] x y; [apply Rabs_triang|]. unfold Rminus. eapply Rle_trans; [apply Rabs_triang|]. rewrite Rabs_Ropp. lra. }
      eapply Rle_trans; [|exact S]. eapply Rle_trans; [apply T|]. apply Rplus_le_compat_r. eapply Rle_trans; [apply T|]. apply Rplus_le_compat_r. apply T.
    - apply four_terms; auto; apply near_prod; auto; lra. }
  unfold dist. replace (18 * u * (1 + B)) with (2 * (9 * u * (1 + B))) by ring.
  assert (G : forall p1 p2 p3 p4, (fst p1 * fst p1 + fst p2 * fst p2 + fst p3 * fst p3 + fst p4 * fst p4 = nv (vR o om) * nv (vR o om)) ->
    (snd p1 * snd p1 + snd p2 * snd p2 + snd p3 * snd p3 + snd p4 * snd p4 = N (qR o i) * N (qR o i)) ->
    forall (s1 s2 s3 : bool) y, y = / 2 * ((if s3 then Rplus else Rminus) ((if s2 then Rplus else Rminus) ((if s1 then Rplus else Rminus) (fst p1 * snd p1) (fst p2 * snd p2)) (fst p3 * snd p3)) (fst p4 * snd p4)) -> Rabs (
      o_mul o (@nhalf (FA o)) ((if s3 then o_add o else o_sub o) ((if s2 then o_add o else o_sub o) ((if s1 then o_add o else o_sub o) (o_mul o (fst p1) (snd p1)) (o_mul o (fst p2) (snd p2))) (o_mul o (fst p3) (snd p3))) (o_mul o (fst p4) (snd p4)))
       - y) <= 9 * u * (1 + B)).
  { intros p1 p2 p3 p4 Ha Hb s1 s2 s3 y ->. now apply F. }
  apply N_comp; unfold q_minus, qR, vR, q_derivative; cbn [qx qy qz qw vx vy vz]; cbv zeta.
  - apply (G (@n0 (FA o), qx i) (vz om, qy i) (vy om, qz i) (vx om, qw i)) with (s1 := true) (s2 := false) (s3 := true); cbn [fst snd]; rewrite ?Z; rnum; lra.
  - apply (G (- vz om, qx i)%R (@n0 (FA o), qy i) (vx om, qz i) (vy om, qw i)) with (s1 := true) (s2 := true) (s3 := true); cbn [fst snd]; rewrite ?Z; rnum; lra.
  - apply (G (vy om, qx i) (vx om, qy i) (@n0 (FA o), qz i) (vz om, qw i)) with (s1 := false) (s2 := true) (s3 := true); cbn [fst snd]; rewrite ?Z; rnum; lra.
  - refine (opp_diff _ _ _ _).
    apply (G (- vx om, qx i)%R (vy om, qy i) (vz om, qz i) (@n0 (FA o), qw i)) with (s1 := false) (s2 := false) (s3 := true); cbn [fst snd]; rewrite ?Z; rnum; lra.
Qed.

(** one joint column: [d] bounds the unit error times the depth, [K] the lengths *)
Lemma column_near (w d K L : R) rt (j : @UJoint (FA o)) (j' : @UJoint RA) (E C : @Pose (FA o)) (E' C' : @Pose RA) :
  u <= w -> w <= d -> 4000000 * d <= 1 -> 1 <= K -> joint_near o (1000 * w) L j j' -> is_movable (uj_type j) ->
  unit_q (rotation E') -> nv (position E') <= 2 * K -> qdist o (rotation E) (rotation E') <= 150000 * d -> vdist o (position E) (position E') <= 4000000 * d * K ->
  unit_q (rotation C') -> nv (position C') <= 2 * K -> qdist o (rotation C) (rotation C') <= 150000 * d -> vdist o (position C) (position C') <= 4000000 * d * K ->
  forall r x x', nth_error (geometric_column rt j E C) r = Some x -> nth_error (geometric_column rt j' E' C') r = Some x' ->
    ((r < 3)%nat -> Rabs (x - x') <= 40000000 * d * K) /\ ((3 <= r)%nat -> rt = XYZW -> Rabs (x - x') <= 4000000 * d).
Proof.
  intros Uw Wd D1 K1 HJ Mv UE SE QE VE UC SC QC VC.
  rewrite qdist_dist in QE, QC. rewrite vdist_dv in VE, VC.
  destruct (jn_axis _ _ _ _ _ HJ Mv) as [Ax1 Ax2]. rewrite vlen_nv in Ax1. rewrite vdist_dv in Ax2.
  assert (d0 : 0 <= d) by lra. assert (dK : 0 <= d * K) by (apply Rmult_le_pos; lra). assert (uK : u * K <= d * K) by (apply Rmult_le_compat_r; lra).
  assert (dK1 : d <= d * K) by nra. assert (dKK : 4000000 * (d * K) <= K). { rewrite <- Rmult_assoc. rewrite <- (Rmult_1_l K) at 2. apply Rmult_le_compat_r; lra. }
  (* the axis in the world *)
  set (a := q_rot (rotation C) (uj_axis j)). set (a' := q_rot (rotation C') (uj_axis j')).
  assert (Da : dv (vR o a) a' <= 4300000 * d).
  { eapply Rle_trans; [apply (round_rot o u Hacc Hu (rotation C) (rotation C') (uj_axis j) (uj_axis j') (150000 * d) (1000 * w) 2); auto; lra|]. lra. }
  assert (Na' : nv a' = 1) by (unfold a'; rewrite nv_rot; assumption).
  assert (Na : nv (vR o a) <= 21 / 10). { pose proof (nv_dv (vR o a) a'). lra. }
  pose proof (nv_nonneg (vR o a)) as Na0.
  (* the lever *)
  set (l := v_sub (position E) (position C)). set (l' := v_sub (position E') (position C')).
  assert (Dl : dv (vR o l) l' <= 8100000 * (d * K)).
  { unfold dv. eapply Rle_trans; [apply (dist_triangle (qv (v_sub (vR o (position E)) (vR o (position C)))))|].
    fold (dv (vR o l) (v_sub (vR o (position E)) (vR o (position C)))). fold (dv (v_sub (vR o (position E)) (vR o (position C))) l').
    pose proof (dv_sub (vR o (position E)) (vR o (position C)) (position E') (position C')) as S. fold l' in S.
    assert (M : nv (v_sub (vR o (position E)) (vR o (position C))) <= 6 * K).
    { eapply Rle_trans; [apply nv_sub|]. pose proof (nv_dv (vR o (position E)) (position E')). pose proof (nv_dv (vR o (position C)) (position C')). lra. }
    pose proof (round_v_sub (position E) (position C) (6 * K) M) as Q. fold l in Q. lra. }
  assert (Nl' : nv l' <= 4 * K). { eapply Rle_trans; [apply nv_sub|]. lra. }
  assert (Nl : nv (vR o l) <= 61 / 10 * K). { pose proof (nv_dv (vR o l) l'). lra. }
  pose proof (nv_nonneg (vR o l)) as Nl0.
  assert (Dc : dv (vR o (cross_product a l)) (@cross_product RA a' l') <= 35000000 * (d * K)).
  { unfold dv. eapply Rle_trans; [apply (dist_triangle (qv (vcross (vR o a) (vR o l))))|].
    fold (dv (vR o (cross_product a l)) (vcross (vR o a) (vR o l))). fold (vcross a' l'). fold (dv (vcross (vR o a) (vR o l)) (vcross a' l')).
    pose proof (round_cross a l) as R1. pose proof (dv_cross (vR o a) (vR o l) a' l') as R2. rewrite Na' in R2.
    assert (P1 : nv (vR o a) * nv (vR o l) <= 21 / 10 * (61 / 10 * K)) by (apply Rmult_le_compat; lra).
    assert (P2 : 8 * u * (1 + nv (vR o a) * nv (vR o l)) <= 8 * u * (14 * K)) by (apply Rmult_le_compat_l; lra).
    assert (P3 : dv (vR o a) a' * nv (vR o l) <= 4300000 * d * (61 / 10 * K)) by (apply Rmult_le_compat; try lra; apply dist_nonneg).
    lra. }
  (* the quaternion rows *)
  assert (Dq : dist (qR o (q_derivative (q_inverse (rotation E)) a)) (@q_derivative RA (q_inverse (rotation E')) a') <= 4000000 * d).
  { assert (HE : 0 <= 150000 * d <= / 8) by lra. rewrite (inverse_same (rotation E) (rotation E') _ HE UE QE), (exact_inverse _ UE).
    pose proof (round_inverse o u Hacc Hu (rotation E) (rotation E') _ HE UE QE) as RI. set (i := q_GetInverse (rotation E)) in *. set (i' := qconj (rotation E')) in *.
    assert (Ni' : N i' = 1) by (apply N_qconj_unit; exact UE). assert (Ni : N (qR o i) <= 14 / 10) by (pose proof (N_dist (qR o i) i'); lra).
    pose proof (N_nonneg (qR o i)) as Ni0.
    eapply Rle_trans; [apply (dist_triangle (@q_derivative RA (qR o i) (vR o a)))|].
    pose proof (round_derivative i a) as R1. pose proof (dist_derivative (qR o i) (vR o a) i' a') as R2. rewrite Ni' in R2.
    assert (P1 : N (qR o i) * nv (vR o a) <= 14 / 10 * (21 / 10)) by (apply Rmult_le_compat; lra).
    assert (P2 : 18 * u * (1 + N (qR o i) * nv (vR o a)) <= 18 * u * 4) by (apply Rmult_le_compat_l; lra).
    assert (P3 : dist (qR o i) i' * nv (vR o a) <= (8 * (150000 * d) + 76 * u) * (21 / 10)) by (apply Rmult_le_compat; try lra; apply dist_nonneg).
    lra. }
  assert (Z : @n0 (FA o) = @n0 RA).
  { change (@n0 (FA o)) with (o_lit o 0%Q). rewrite (acc_zero _ _ Hacc). change (@n0 RA) with (Q2R 0). now rewrite Q2R_0. }
  assert (V3c : forall (v : @Vector3 (FA o)) (v' : vec) b r x x', dv (vR o v) v' <= b -> nth_error (v_list v) r = Some x -> nth_error (v_list v') r = Some x' -> Rabs (x - x') <= b).
  { intros v v' b r x x' Hv. destruct (comp_dv (vR o v) v') as (X & Y & T). unfold vR in X at 1, Y at 1, T at 1. cbn [vx vy vz] in X, Y, T.
    destruct r as [|[|[|r]]]; cbn [v_list nth_error]; intros H1 H2; try (destruct r; discriminate H1); apply Some_eq in H1; apply Some_eq in H2; subst x x'; lra. }
  assert (Q4c : forall (v : @Rotation (FA o)) (v' : quat) b r x x', dist (qR o v) v' <= b -> nth_error (q_list v) r = Some x -> nth_error (q_list v') r = Some x' -> Rabs (x - x') <= b).
  { intros v v' b r x x' Hv. destruct (comp_N (q_minus (qR o v) v')) as (X & Y & T & W). fold (dist (qR o v) v') in X, Y, T, W.
    change (Rabs (qx v - qx v') <= dist (qR o v) v') in X. change (Rabs (qy v - qy v') <= dist (qR o v) v') in Y. change (Rabs (qz v - qz v') <= dist (qR o v) v') in T. change (Rabs (qw v - qw v') <= dist (qR o v) v') in W.
    destruct r as [|[|[|[|r]]]]; cbn [q_list nth_error]; intros H1 H2; try (destruct r; discriminate H1); apply Some_eq in H1; apply Some_eq in H2; subst x x'; lra. }
  assert (L3 : forall {AA : Arith} (v : @Vector3 AA) t r, (r < 3)%nat -> nth_error (v_list v ++ t) r = nth_error (v_list v) r).
  { intros AA v t r Hr. apply nth_error_app1. exact Hr. }
  assert (L4 : forall {AA : Arith} (v : @Vector3 AA) t r, (3 <= r)%nat -> nth_error (v_list v ++ t) r = nth_error t (r - 3)).
  { intros AA v t r Hr. rewrite nth_error_app2; [reflexivity|exact Hr]. }
  intros r x x' H1 H2. unfold geometric_column in H1, H2. rewrite <- (jn_type _ _ _ _ _ HJ) in H2.
  fold a in H1. fold a' in H2. fold l in H1. fold l' in H2. cbv zeta in H1, H2. split.
  - intros Hr. assert (G : dv (vR o (match uj_type j with PRISMATIC => a | _ => cross_product a l end)) (match uj_type j with PRISMATIC => a' | _ => @cross_product RA a' l' end) <= 40000000 * d * K).
    { destruct (uj_type j); lra. }
    refine (V3c _ _ _ r x x' G _ _); destruct (uj_type j); rewrite L3 in H1, H2 by exact Hr; assumption.
  - intros Hr ->. destruct (uj_type j); rewrite L4 in H1, H2 by exact Hr; try exact (Q4c _ _ _ _ _ _ Dq H1 H2).
    unfold zeros in H1, H2. rewrite Z in H1. cbn [jac_rows Nat.sub] in H1, H2.
    apply nth_error_In, repeat_spec in H1. apply nth_error_In, repeat_spec in H2. subst x x'. rewrite Rminus_diag_eq, Rabs_R0 by reflexivity. lra.
Qed.
End Cols.

Section Both.
Variable o : Ops.
Variable u : R.
Hypothesis Hacc : accurate o u.
Hypothesis Hu : 0 <= u <= / 1000.
Variables A L : R.
Hypothesis HA : 0 <= A.
Hypothesis HL : 1 <= L.
Hypothesis Hw : unit_err u A <= / 10000.
Notation w := (unit_err u A).
Notation e := (1000 * unit_err u A).

Lemma entry_FA (J : @mat (FA o)) c r : entry J r c = nth r (@column (FA o) c J) 0.
Proof.
  unfold entry. assert (Z : @n0 (FA o) = 0) by (change (@n0 (FA o)) with (o_lit o 0%Q); apply (acc_zero _ _ Hacc)).
  rewrite <- Z. apply nth_column.
Qed.

(** the joint columns of near robots in near states *)
Lemma jac_both R E root sorted jsorted sorted' jsorted' s s' D n rt jids wb J J' c k r :
  Forall2 (joint_near o e L) (r_joints R) (r_joints E) -> ordered R sorted jsorted -> ordered E sorted' jsorted' ->
  jnames jsorted = jnames jsorted' -> state_near o u A L s s' ->
  within_range A L (r_joints E) (by_name (jnames jsorted') (as_angles s')) ->
  (forall n d, levels (r_joints E) root (as_added s') n d -> (d <= D)%nat) ->
  4000000 * u * (1 + A) * (INR D + 1) <= 1 ->
  (forall n P1 P2, pose_at E root jsorted' s' n P1 -> pose_at E root jsorted' s' n P2 -> P1 = P2) ->
  is_jacobian R root jsorted s rt n jids wb J -> is_jacobian E root jsorted' s' rt n jids wb J' ->
  nth_error jids c = Some k -> (k < length jsorted')%nat -> (r < jac_rows rt)%nat ->
  ((r < 3)%nat -> Rabs (entry J r c - entry J' r c) <= 40000000 * u * (1 + A) * L * (INR D + 1) ^ 2) /\
  ((3 <= r)%nat -> rt = XYZW -> Rabs (entry J r c - entry J' r c) <= 4000000 * u * (1 + A) * (INR D + 1)).
Proof.
  intros HJ OR OE EJ S W HD B Det [Sh (P & HP & HC & _)] [Sh' (P' & HP' & HC' & _)] Ec Hk Hr.
  destruct (nth_error jsorted' k) as [j'|] eqn:Ej'; [|apply nth_error_None in Ej'; lia].
  assert (Ll : length jsorted = length jsorted') by (apply (f_equal (@length string)) in EJ; unfold jnames in EJ; now rewrite !map_length in EJ).
  destruct (nth_error jsorted k) as [j|] eqn:Ej; [|apply nth_error_None in Ej; lia].
  assert (Nj : uj_name j = uj_name j').
  { apply Some_eq. rewrite <- (map_nth_error uj_name _ _ Ej), <- (map_nth_error uj_name _ _ Ej'). f_equal. exact EJ. }
  destruct (proj1 (ord_joints _ _ _ OR j) (nth_error_In _ _ Ej)) as [Ij Mj].
  assert (NJ : joint_near o e L j j').
  { destruct (Forall2_in_l _ _ _ HJ j Ij) as (j1 & I1 & N1). replace j' with j1; [exact N1|].
    assert (I1' : In j1 jsorted'). { apply (ord_joints _ _ _ OE). split; [exact I1|]. rewrite <- (jn_type _ _ _ _ _ N1). exact Mj. }
    apply In_nth_error in I1'. destruct I1' as (k1 & E1).
    pose proof (sorted_nodup _ (ord_joints_lt _ _ _ OE)) as ND. rewrite NoDup_nth_error in ND.
    assert (k1 = k); [|congruence]. apply ND; [rewrite map_length; apply nth_error_Some; rewrite E1; discriminate|].
    rewrite (map_nth_error uj_name _ _ E1), (map_nth_error uj_name _ _ Ej'). f_equal. rewrite <- Nj. symmetry. apply (jn_name _ _ _ _ _ N1). }
  destruct (HC c k j Ec Ej) as [C1 C2]. destruct (HC' c k j' Ec Ej') as [C1' C2'].
  assert (CC : carries (r_joints R) (as_added s) j n <-> carries (r_joints E) (as_added s') j' n).
  { split; apply carries_same.
    - apply (jn_child _ _ _ _ _ NJ).
    - intros x Ix. destruct (Forall2_in_l _ _ _ HJ x Ix) as (y & Iy & N). exists y. split; [exact Iy|]. split; [apply (jn_parent _ _ _ _ _ N)|apply (jn_child _ _ _ _ _ N)].
    - intros x p T I. destruct (Forall2_in_l _ _ _ (sn_added _ _ _ _ _ _ S) _ I) as ([[n1 p1] T'] & I' & H1 & _).
      cbn [fst snd] in H1. inversion H1; subst. now exists T'.
    - symmetry. apply (jn_child _ _ _ _ _ NJ).
    - intros x Ix. destruct (Forall2_in_r _ _ _ HJ x Ix) as (y & Iy & N). exists y. split; [exact Iy|]. split; symmetry; [apply (jn_parent _ _ _ _ _ N)|apply (jn_child _ _ _ _ _ N)].
    - intros x p T I. destruct (Forall2_in_r _ _ _ (sn_added _ _ _ _ _ _ S) _ I) as ([[n1 p1] T'] & I' & H1 & _).
      cbn [fst snd] in H1. inversion H1; subst. now exists T'. }
  assert (W0 : 0 <= w) by (unfold unit_err; apply Rmult_le_pos; lra). pose proof (pos_INR D) as D0.
  set (d := w * (INR D + 1)). set (K := L * (INR D + 1)).
  assert (wD : 0 <= w * INR D) by (apply Rmult_le_pos; lra).
  assert (LD : 0 <= L * INR D) by (apply Rmult_le_pos; lra).
  assert (uA : 0 <= u * A) by (apply Rmult_le_pos; lra).
  assert (dd : 4000000 * u * (1 + A) * (INR D + 1) = 4000000 * d) by (unfold d, unit_err; ring).
  assert (dK : forall x, x * u * (1 + A) * L * (INR D + 1) ^ 2 = x * d * K) by (intros x; unfold d, K, unit_err; ring).
  rewrite (dK 40000000), dd. rewrite dd in B. rewrite entry_FA, entry_column.
  destruct (classic (carries (r_joints R) (as_added s) j n)) as [Hc|Hc].
  - destruct (C2 Hc) as (Cp & HCp & ->). destruct (C2' (proj1 CC Hc)) as (Cp' & HCp' & ->).
    assert (B' : 4000000 * u * (1 + A) * (INR D + 1) <= 1) by (rewrite dd; exact B).
    destruct (pose_both_full o u Hacc Hu A L HA HL Hw R E root jsorted jsorted' s s' D n P HJ EJ S W HD B' HP) as (P1 & H1 & H2 & H3 & H4 & H5).
    rewrite (Det _ _ _ H1 HP') in H2, H3, H4, H5.
    rewrite (jn_child _ _ _ _ _ NJ) in HCp.
    destruct (pose_both_full o u Hacc Hu A L HA HL Hw R E root jsorted jsorted' s s' D _ Cp HJ EJ S W HD B' HCp) as (P2 & G1 & G2 & G3 & G4 & G5).
    rewrite (Det _ _ _ G1 HCp') in G2, G3, G4, G5.
    rewrite dK in H5, G5.
    replace (150000 * u * (1 + A) * (INR D + 1)) with (150000 * d) in H4, G4 by (unfold d, unit_err; ring).
    assert (LC : forall (AA : Arith) (jj : @UJoint AA) X Y, length (geometric_column rt jj X Y) = jac_rows rt).
    { intros AA jj X Y. unfold geometric_column, zeros. destruct (uj_type jj); rewrite app_length; destruct rt; reflexivity. }
    destruct (nth_error (geometric_column rt j P Cp) r) as [x|] eqn:Ex; [|apply nth_error_None in Ex; rewrite LC in Ex; lia].
    destruct (nth_error (geometric_column rt j' P' Cp') r) as [x'|] eqn:Ex'; [|apply nth_error_None in Ex'; rewrite LC in Ex'; lia].
    erewrite (nth_error_nth _ _ _ Ex), (nth_error_nth _ _ _ Ex').
    apply (column_near o u Hacc Hu w d K L rt j j' P Cp P' Cp') with (r := r); auto; unfold d, K; try lra.
    unfold unit_err; lra.
  - rewrite (C1 Hc), (C1' (fun X => Hc (proj2 CC X))).
    assert (ZF : nth r (@zeros (FA o) (jac_rows rt)) 0 = 0).
    { unfold zeros. change (@n0 (FA o)) with (o_lit o 0%Q). rewrite (acc_zero _ _ Hacc). apply nth_repeat. }
    assert (ZR : nth r (@zeros RA (jac_rows rt)) 0 = 0).
    { unfold zeros. change (@n0 RA) with (Q2R 0). rewrite Q2R_0. apply nth_repeat. }
    assert (K0 : 0 <= d * K) by (unfold d, K; apply Rmult_le_pos; lra). assert (d0 : 0 <= d) by (unfold d; lra).
    rewrite ZF, ZR, Rminus_0_r, Rabs_R0. split; intros; lra.
Qed.
End Both.
