(** Rounding errors of the motion of a joint and of a chain of joints. *)
From Coq Require Import QArith Qreals Reals Lra Lia String List Psatz.
From Verif Require Import Base Num Pose Urdf Decimal RealArith FloatArith Spec_Robot Spec_Float Pf_Real Pf_BaseD Pf_Float1.
Import ListNotations.
Local Open Scope R_scope.

Lemma qlen_N q : qlen q = N q.
Proof. unfold qlen, N. f_equal. unfold qn. rnum. ring. Qed.
Lemma vlen_nv v : vlen v = nv v.
Proof. unfold vlen, nv, N. f_equal. unfold qn, qv. cbn [qx qy qz qw]. rnum. ring. Qed.
Lemma unit_N q : N q = 1 -> unit_q q.
Proof. intros H. unfold unit_q. rewrite <- N_sq, H. ring. Qed.
Lemma nv_nonneg v : 0 <= nv v.
Proof. apply N_nonneg. Qed.
Lemma nv_1 v : nv v = 1 -> vx v * vx v + vy v * vy v + vz v * vz v = 1.
Proof. intros H. pose proof (N_sq (qv v)) as X. fold (nv v) in X. rewrite H in X. unfold qn, qv in X. cbn [qx qy qz qw] in X. rnumin X. lra. Qed.

Section Chain.
Variable o : Ops.
Variable u : R.
Hypothesis Hacc : accurate o u.
Hypothesis Hu : 0 <= u <= / 1000.

Lemma qdist_dist a b : qdist o a b = dist (qR o a) b.
Proof. unfold qdist, dist, N. f_equal. unfold qn, q_minus, qR. cbn [qx qy qz qw]. rnum. ring. Qed.
Lemma vdist_dv a b : vdist o a b = dv (vR o a) b.
Proof. unfold vdist, dv, dist, N. f_equal. unfold qn, q_minus, qv, vR. cbn [qx qy qz qw vx vy vz]. rnum. ring. Qed.

Lemma pose_near_close e L p p' : pose_near o e L p p' ->
  unit_q (rotation p') /\ nv (position p') <= L /\ close o e (e * L) p p'.
Proof.
  intros [U S Q P]. rewrite qlen_N in U. rewrite vlen_nv in S. rewrite qdist_dist in Q. rewrite vdist_dv in P.
  split; [now apply unit_N|]. split; [exact S|]. now split.
Qed.
Lemma close_mono E F E' F' p p' : close o E F p p' -> E <= E' -> F <= F' -> close o E' F' p p'.
Proof. intros [A B] H1 H2. split; lra. Qed.

Lemma zero_near : Rabs (@n0 (FA o) - 0) <= u.
Proof.
  pose proof (acc_lit _ _ Hacc 0%Q) as H. unfold rounds in H. rewrite Q2R_0, Rabs_R0 in H.
  change (@n0 (FA o)) with (o_lit o 0%Q). lra.
Qed.
Lemma one_near : Rabs (@n1 (FA o) - 1) <= 2 * u.
Proof.
  pose proof (acc_lit _ _ Hacc 1%Q) as H. unfold rounds in H. rewrite Q2R_1, Rabs_R1 in H.
  change (@n1 (FA o)) with (o_lit o 1%Q). lra.
Qed.

Lemma clear_near : close o (4 * u) (2 * u) (mkPose v_clear q_clear) (mkPose v_clear q_clear).
Proof.
  pose proof zero_near as Z. pose proof one_near as O.
  split; cbn [position rotation].
  - unfold dist. replace (4 * u) with (2 * (2 * u)) by ring.
    apply N_comp; unfold q_minus, qR, q_clear; cbn [qx qy qz qw]; rnum; lra.
  - unfold dv, dist. apply N_comp; unfold q_minus, qv, vR, v_clear; cbn [qx qy qz qw vx vy vz]; rnum; try lra.
    rewrite Rminus_0_r, Rabs_R0. lra.
Qed.

(** half the angle, its sine and cosine *)
Lemma half_near a A : Rabs a <= A -> Rabs (o_mul o a (@nhalf (FA o)) - a / 2) <= 5 / 2 * u * (1 + A).
Proof.
  intros Ha. change (@nhalf (FA o)) with (o_lit o (1 # 2)%Q).
  pose proof (acc_lit _ _ Hacc (1 # 2)%Q) as H. unfold rounds in H. rewrite Q2R_h, (Rabs_pos_eq (1 / 2)) in H by lra.
  set (h := o_lit o (1 # 2)%Q) in *. pose proof (acc_mul _ _ Hacc a h) as M. unfold rounds in M.
  pose proof (Rabs_pos a) as A0. assert (uA : u * Rabs a <= u * A) by (apply Rmult_le_compat_l; lra).
  assert (B : Rabs h <= 1). { apply Rabs_le_inv in H. apply Rabs_le. lra. }
  assert (C : Rabs (a * h) <= A) by (rewrite Rabs_mult; pose proof (Rabs_pos h); nra).
  assert (D : Rabs (a * h - a / 2) <= 3 / 2 * u * A).
  { replace (a * h - a / 2) with (a * (h - 1 / 2)) by field. rewrite Rabs_mult. pose proof (Rabs_pos (h - 1 / 2)). nra. }
  replace (o_mul o a h - a / 2) with ((o_mul o a h - a * h) + (a * h - a / 2)) by ring.
  eapply Rle_trans; [apply Rabs_triang|]. assert (u * (1 + Rabs (a * h)) <= u * (1 + A)) by (apply Rmult_le_compat_l; lra). lra.
Qed.
Lemma sin_near a A : Rabs a <= A -> Rabs (o_sin o (o_mul o a (@nhalf (FA o))) - sin (a / 2)) <= 9 / 2 * u * (1 + A).
Proof.
  intros Ha. pose proof (half_near a A Ha) as H. set (h := o_mul o a (@nhalf (FA o))) in *.
  pose proof (acc_sin _ _ Hacc h) as S. unfold rounds in S. pose proof (sin_lip h (a / 2)) as L.
  assert (B : Rabs (sin h) <= 1) by (apply Rabs_le, SIN_bound). pose proof (Rabs_pos a).
  assert (u * (1 + Rabs (sin h)) <= u * 2) by (apply Rmult_le_compat_l; lra). assert (0 <= u * A) by (apply Rmult_le_pos; lra).
  replace (o_sin o h - sin (a / 2)) with ((o_sin o h - sin h) + (sin h - sin (a / 2))) by ring.
  eapply Rle_trans; [apply Rabs_triang|]. lra.
Qed.
Lemma cos_near a A : Rabs a <= A -> Rabs (o_cos o (o_mul o a (@nhalf (FA o))) - cos (a / 2)) <= 9 / 2 * u * (1 + A).
Proof.
  intros Ha. pose proof (half_near a A Ha) as H. set (h := o_mul o a (@nhalf (FA o))) in *.
  pose proof (acc_cos _ _ Hacc h) as S. unfold rounds in S. pose proof (cos_lip h (a / 2)) as L.
  assert (B : Rabs (cos h) <= 1) by (apply Rabs_le, COS_bound). pose proof (Rabs_pos a).
  assert (u * (1 + Rabs (cos h)) <= u * 2) by (apply Rmult_le_compat_l; lra). assert (0 <= u * A) by (apply Rmult_le_pos; lra).
  replace (o_cos o h - cos (a / 2)) with ((o_cos o h - cos h) + (cos h - cos (a / 2))) by ring.
  eapply Rle_trans; [apply Rabs_triang|]. lra.
Qed.

(** a rounded product of rounded factors *)
Lemma prod_near x' x s' s dx ds X S : Rabs x <= X -> Rabs s' <= S -> Rabs (x' - x) <= dx -> Rabs (s' - s) <= ds ->
  Rabs (o_mul o x' s' - x * s) <= u * (1 + (X + dx) * S) + dx * S + X * ds.
Proof.
  intros HX HS Dx Ds. pose proof (acc_mul _ _ Hacc x' s') as M. unfold rounds in M.
  assert (X' : Rabs x' <= X + dx). { replace x' with (x + (x' - x)) by ring. eapply Rle_trans; [apply Rabs_triang|]. lra. }
  assert (P : Rabs (x' * s') <= (X + dx) * S) by (rewrite Rabs_mult; apply Rmult_le_compat; auto using Rabs_pos).
  assert (D : Rabs (x' * s' - x * s) <= dx * S + X * ds).
  { replace (x' * s' - x * s) with ((x' - x) * s' + x * (s' - s)) by ring. eapply Rle_trans; [apply Rabs_triang|].
    rewrite !Rabs_mult. apply Rplus_le_compat; apply Rmult_le_compat; auto using Rabs_pos. }
  replace (o_mul o x' s' - x * s) with ((o_mul o x' s' - x' * s') + (x' * s' - x * s)) by ring.
  eapply Rle_trans; [apply Rabs_triang|]. assert (u * (1 + Rabs (x' * s')) <= u * (1 + (X + dx) * S)) by (apply Rmult_le_compat_l; lra). lra.
Qed.

Lemma comp_dv (a b : vec) : Rabs (vx a - vx b) <= dv a b /\ Rabs (vy a - vy b) <= dv a b /\ Rabs (vz a - vz b) <= dv a b.
Proof. destruct (comp_N (q_minus (qv a) (qv b))) as (X & Y & Z & _). auto. Qed.

Section Sizes.
Variables e L A : R.
Hypothesis He : 0 <= e.
Hypothesis HL : 1 <= L.
Hypothesis HA : 0 <= A.
Definition gain : R := u * (1 + A) + e.
Hypothesis Hg : gain <= / 1000.

Lemma gain_u : u <= gain. Proof. unfold gain. nra. Qed.
Lemma gain_e : e <= gain. Proof. unfold gain. nra. Qed.
Lemma gain_ue : u + e <= gain. Proof. unfold gain. nra. Qed.
Lemma gain_uA : u * (1 + A) <= gain. Proof. unfold gain. nra. Qed.

(** the rotation about an axis *)
Lemma round_turn (x' : @Vector3 (FA o)) (x : vec) a : nv x = 1 -> dv (vR o x') x <= e -> Rabs a <= A ->
  let s' := @nsin (FA o) (@mul (FA o) a nhalf) in let c' := @ncos (FA o) (@mul (FA o) a nhalf) in
  dist (qR o (@Q4 (FA o) (@mul (FA o) (vx x') s') (@mul (FA o) (vy x') s') (@mul (FA o) (vz x') s') c'))
       (@Q4 RA (vx x * sin (a / 2))%R (vy x * sin (a / 2))%R (vz x * sin (a / 2))%R (cos (a / 2))) <= 24 * gain.
Proof.
  intros U D Ha s' c'. pose proof gain_u as Gu. pose proof gain_e as Ge. pose proof gain_uA as GA.
  pose proof (sin_near a A Ha) as S. pose proof (cos_near a A Ha) as C.
  change (o_sin o (o_mul o a (@nhalf (FA o)))) with s' in S. change (o_cos o (o_mul o a (@nhalf (FA o)))) with c' in C.
  assert (S' : Rabs s' <= 2).
  { assert (B : Rabs (sin (a / 2)) <= 1) by (apply Rabs_le, SIN_bound). apply Rabs_le_inv in B. apply Rabs_le_inv in S. apply Rabs_le. lra. }
  destruct (comp_nv x) as (X1 & X2 & X3). destruct (comp_dv (vR o x') x) as (D1 & D2 & D3). rewrite U in *. cbn [vR vx vy vz] in D1, D2, D3.
  assert (K : forall y' y, Rabs y <= 1 -> Rabs (y' - y) <= dv (vR o x') x -> Rabs (o_mul o y' s' - y * sin (a / 2)) <= 12 * gain).
  { intros y' y Hy Dy. pose proof (prod_near y' y s' (sin (a / 2)) e (9 / 2 * u * (1 + A)) 1 2 Hy S' ltac:(lra) S) as P.
    assert (u * (1 + (1 + e) * 2) <= u * 4) by (apply Rmult_le_compat_l; lra). lra. }
  replace (24 * gain) with (2 * (12 * gain)) by ring. unfold dist.
  apply N_comp; unfold q_minus, qR; cbn [qx qy qz qw]; rnum; try (apply K; assumption). lra.
Qed.

Lemma round_slide (x' : @Vector3 (FA o)) (x : vec) a : nv x = 1 -> dv (vR o x') x <= e -> Rabs a <= L ->
  dv (vR o (@V3 (FA o) (mul (vx x') a) (mul (vy x') a) (mul (vz x') a))) (@V3 RA (vx x * a)%R (vy x * a)%R (vz x * a)%R) <= 8 * gain * L.
Proof.
  intros U D Ha. pose proof gain_ue as Gue. pose proof gain_e as Ge.
  destruct (comp_nv x) as (X1 & X2 & X3). destruct (comp_dv (vR o x') x) as (D1 & D2 & D3). rewrite U in *. cbn [vR vx vy vz] in D1, D2, D3.
  assert (uL : u <= u * L) by nra. assert (eL : 0 <= e * L) by nra. assert (GL : (u + e) * L <= gain * L) by (apply Rmult_le_compat_r; lra).
  assert (K : forall y' y, Rabs y <= 1 -> Rabs (y' - y) <= dv (vR o x') x -> Rabs (o_mul o y' a - y * a) <= 4 * gain * L).
  { intros y' y Hy Dy. assert (Z : Rabs (a - a) <= 0) by (rewrite Rminus_diag_eq, Rabs_R0 by reflexivity; lra).
    pose proof (prod_near y' y a a e 0 1 L Hy Ha ltac:(lra) Z) as P.
    assert (u * (1 + (1 + e) * L) <= u * (3 * L)) by (apply Rmult_le_compat_l; nra). lra. }
  replace (8 * gain * L) with (2 * (4 * gain * L)) by ring. unfold dv, dist.
  assert (P : 0 <= gain * L) by (apply Rmult_le_pos; lra).
  apply N_comp; unfold q_minus, qv, vR; cbn [qx qy qz qw vx vy vz]; rnum; try (apply K; assumption).
  rewrite Rminus_diag_eq, Rabs_R0 by reflexivity. lra.
Qed.

Lemma clear_unit : unit_q q_clear. Proof. unfold unit_q, qn, q_clear. cbn [qx qy qz qw]. rnum. ring. Qed.
Lemma turn_unit (x : vec) a : nv x = 1 -> unit_q (@Q4 RA (vx x * sin a)%R (vy x * sin a)%R (vz x * sin a)%R (cos a)).
Proof.
  intros H. apply nv_1 in H. unfold unit_q, qn. cbn [qx qy qz qw]. rnum. pose proof (sin2_cos2 a) as E. unfold Rsqr in E.
  replace (cos a * cos a + vx x * sin a * (vx x * sin a) + vy x * sin a * (vy x * sin a) + vz x * sin a * (vz x * sin a))
    with (cos a * cos a + (vx x * vx x + vy x * vy x + vz x * vz x) * (sin a * sin a)) by ring. rewrite H. lra.
Qed.
Lemma nv_clear : nv v_clear = 0.
Proof. unfold nv, N. replace (qn (qv v_clear)) with 0; [apply sqrt_0|]. unfold qn, qv, v_clear. cbn [qx qy qz qw vx vy vz]. rnum. ring. Qed.
Lemma nv_scale (x : vec) a : nv (@V3 RA (vx x * a)%R (vy x * a)%R (vz x * a)%R) = nv x * Rabs a.
Proof.
  unfold nv, N. rewrite <- (sqrt_Rsqr_abs a), <- sqrt_mult; [f_equal| apply qn_nonneg | apply Rle_0_sqr].
  unfold qn, qv, Rsqr. cbn [qx qy qz qw vx vy vz]. rnum. ring.
Qed.
Lemma nv_transform p t : unit_q (rotation p) -> nv (position (pose_transform p t)) <= nv (position p) + nv (position t).
Proof.
  intros U. unfold pose_transform. cbn [position]. eapply Rle_trans; [apply nv_add|]. rewrite (nv_rot _ _ U). lra.
Qed.
Lemma unit_transform p t : unit_q (rotation p) -> unit_q (rotation t) -> unit_q (rotation (@pose_transform RA p t)).
Proof. unfold unit_q, pose_transform. cbn [rotation]. intros H1 H2. rewrite qn_mul, H1, H2. ring. Qed.

Lemma round_motion (j : @UJoint (FA o)) (j' : @UJoint RA) a : joint_near o e L j j' ->
  match uj_type j with REVOLUTE | CONTINUOUS => Rabs a <= A | PRISMATIC => Rabs a <= L | _ => True end ->
  unit_q (rotation (motion j' a)) /\ nv (position (motion j' a)) <= 2 * L /\
  close o (80 * gain) (1000 * gain * L) (motion j a) (motion j' a).
Proof.
  intros J Ha. destruct (pose_near_close _ _ _ _ (jn_origin _ _ _ _ _ J)) as (U & S & C).
  pose proof gain_u as Gu. pose proof gain_e as Ge. pose proof gain_ue as Gue.
  assert (uL : 0 <= u * L) by nra. assert (uL' : u <= u * L) by nra. assert (eL : 0 <= e * L) by nra. assert (eL' : e <= e * L) by nra.
  assert (GL : (u + e) * L <= gain * L) by (apply Rmult_le_compat_r; lra).
  assert (eLL : e * L <= / 1000 * L) by (apply Rmult_le_compat_r; lra).
  pose proof (jn_axis _ _ _ _ _ J) as Ax. pose proof (jn_type _ _ _ _ _ J) as T. unfold motion. rewrite <- T.
  assert (Turn : is_movable (uj_type j) -> Rabs a <= A ->
    let t' := @mkPose (FA o) v_clear (let s' := @nsin (FA o) (@mul (FA o) a nhalf) in let c' := @ncos (FA o) (@mul (FA o) a nhalf) in @Q4 (FA o) (mul (vx (uj_axis j)) s') (mul (vy (uj_axis j)) s') (mul (vz (uj_axis j)) s') c') in
    let t := @mkPose RA v_clear (let s := @nsin RA (@mul RA a nhalf) in let c := @ncos RA (@mul RA a nhalf) in @Q4 RA (mul (vx (uj_axis j')) s) (mul (vy (uj_axis j')) s) (mul (vz (uj_axis j')) s) c) in
    unit_q (rotation (pose_transform (uj_origin j') t)) /\ nv (position (pose_transform (uj_origin j') t)) <= 2 * L /\
    close o (80 * gain) (1000 * gain * L) (pose_transform (uj_origin j) t') (pose_transform (uj_origin j') t)).
  { intros Mv HA'. destruct (Ax Mv) as [V D]. rewrite vlen_nv in V. rewrite vdist_dv in D. intros t' t.
    assert (Et : rotation t = @Q4 RA (vx (uj_axis j') * sin (a / 2))%R (vy (uj_axis j') * sin (a / 2))%R (vz (uj_axis j') * sin (a / 2))%R (cos (a / 2))).
    { unfold t. cbn [rotation]. rnum. replace (a * (1 / 2))%R with (a / 2)%R by field. reflexivity. }
    assert (Ut : unit_q (rotation t)) by (rewrite Et; now apply turn_unit).
    assert (Ct : close o (24 * gain) (2 * u) t' t).
    { split; [|exact (proj2 clear_near)]. rewrite Et. exact (round_turn _ _ a V D HA'). }
    assert (Nt : nv (position t) = 0) by exact nv_clear.
    split; [now apply unit_transform|]. split; [pose proof (nv_transform _ t U); lra|].
    pose proof (round_transform o u Hacc Hu _ _ _ _ _ _ _ _ 1 L U Ut C Ct ltac:(lra) ltac:(lra) ltac:(lra) ltac:(lra) S ltac:(lra)) as X.
    eapply close_mono; [exact X| |]; [lra|]. lra. }
  assert (Keep : unit_q (rotation (uj_origin j')) /\ nv (position (uj_origin j')) <= 2 * L /\
    close o (80 * gain) (1000 * gain * L) (uj_origin j) (uj_origin j')).
  { split; [exact U|]. split; [lra|]. eapply close_mono; [exact C|lra|lra]. }
  destruct (uj_type j) eqn:Ty; try exact Keep.
  all: try (apply Turn; [unfold is_movable; auto|exact Ha]).
  (* a prismatic joint *)
  destruct (Ax ltac:(unfold is_movable; auto)) as [V D]. rewrite vlen_nv in V. rewrite vdist_dv in D.
  set (t := @mkPose RA (@V3 RA (mul (vx (uj_axis j')) a) (mul (vy (uj_axis j')) a) (mul (vz (uj_axis j')) a)) q_clear).
  set (t' := @mkPose (FA o) (@V3 (FA o) (mul (vx (uj_axis j)) a) (mul (vy (uj_axis j)) a) (mul (vz (uj_axis j)) a)) q_clear).
  assert (Ut : unit_q (rotation t)) by exact clear_unit.
  assert (Ct : close o (4 * u) (8 * gain * L) t' t).
  { split; [exact (proj1 clear_near)|]. exact (round_slide _ _ a V D Ha). }
  assert (Nt : nv (position t) <= L). { unfold t. cbn [position]. rnum. rewrite nv_scale, V. lra. }
  assert (g8 : 8 * gain * L <= 8 * / 1000 * L) by (apply Rmult_le_compat_r; lra).
  split; [now apply unit_transform|]. split; [pose proof (nv_transform _ t U); lra|].
  pose proof (round_transform o u Hacc Hu _ _ _ _ _ _ _ _ (2 * L) L U Ut C Ct ltac:(lra) ltac:(lra) ltac:(lra) ltac:(lra) S ltac:(lra)) as X.
  eapply close_mono; [exact X| |]; [lra|]. assert (14 * e * (2 * L) <= 28 * (e * L)) by lra. lra.
Qed.

Section Along.
Variables (js : list (@UJoint (FA o))) (js' : list (@UJoint RA)) (root : string) (added : @Added (FA o)) (added' : @Added RA).
Variables (q : string -> R) (base : @Pose (FA o)) (base' : pose).
Hypothesis Hjs : joints_near o e L js js'.
Hypothesis Hadded : added_near o e L added added'.
Hypothesis Hbase : pose_near o e L base base'.
Hypothesis Hq : within_range A L js' q.

(** Along the path to a link the error of the rotation grows linearly, the error of the position
    quadratically. *)
Lemma round_fk D : 3000 * gain * (INR D + 1) <= 1 ->
  forall n P, fk js root added q base n P -> (forall m d, levels js' root added' m d -> (d <= D)%nat) ->
  exists d P', levels js' root added' n d /\ fk js' root added' q base' n P' /\ unit_q (rotation P') /\
    nv (position P') <= L * (1 + 2 * INR d) /\
    close o (gain * (1 + 140 * INR d)) (3000 * gain * L * (INR d + 1) ^ 2) P P'.
Proof.
  intros HD n P Hf Hl. pose proof gain_u as Gu. pose proof gain_e as Ge. pose proof gain_ue as Gue.
  assert (uL : 0 <= u * L) by nra. assert (uL' : u <= u * L) by nra. assert (eL : 0 <= e * L) by nra. assert (eL' : e <= e * L) by nra.
  assert (GL : (u + e) * L <= gain * L) by (apply Rmult_le_compat_r; lra).
  assert (gL : 0 <= gain * L) by lra.
  assert (Step : forall d (P T : @Pose (FA o)) (P' T' : pose), (d <= D)%nat ->
    unit_q (rotation P') -> nv (position P') <= L * (1 + 2 * INR d) ->
    close o (gain * (1 + 140 * INR d)) (3000 * gain * L * (INR d + 1) ^ 2) P P' ->
    unit_q (rotation T') -> nv (position T') <= 2 * L -> close o (80 * gain) (1000 * gain * L) T T' ->
    unit_q (rotation (pose_transform P' T')) /\ nv (position (pose_transform P' T')) <= L * (1 + 2 * INR (S d)) /\
    close o (gain * (1 + 140 * INR (S d))) (3000 * gain * L * (INR (S d) + 1) ^ 2) (pose_transform P T) (pose_transform P' T')).
  { clear P Hf n. intros d P T P' T' Hd UP SP CP UT ST CT. rewrite !S_INR. set (x := INR d) in *.
    assert (x0 : 0 <= x) by apply pos_INR. assert (xD : x <= INR D) by (now apply le_INR).
    assert (gx0 : 0 <= gain * x) by (apply Rmult_le_pos; lra).
    assert (gx : 3000 * (gain * x) <= 1) by nra.
    assert (gx1 : 3000 * (gain * (x + 1)) <= 1) by nra.
    split; [now apply unit_transform|]. split.
    { pose proof (nv_transform P' T' UP). lra. }
    assert (Lx : 0 <= L * x) by (apply Rmult_le_pos; lra).
    assert (gLx : 0 <= gain * L * x) by (apply Rmult_le_pos; lra).
    assert (FY : 3000 * gain * L * (x + 1) ^ 2 <= L * (1 + 2 * x)).
    { replace (3000 * gain * L * (x + 1) ^ 2) with (3000 * (gain * (x + 1)) * (L * (x + 1))) by ring.
      apply Rle_trans with (1 * (L * (x + 1))); [apply Rmult_le_compat_r; lra|lra]. }
    assert (FX : 1000 * gain * L <= 3 * L) by nra.
    pose proof (round_transform o u Hacc Hu _ _ _ _ _ _ _ _ (3 * L) (L * (1 + 2 * x)) UP UT CP CT ltac:(lra) ltac:(lra) ltac:(lra) FX SP FY) as X.
    eapply close_mono; [exact X| |]; [lra|].
    assert (uLx : u * (L * x) <= gain * L * x) by (rewrite Rmult_assoc; apply Rmult_le_compat_r; lra).
    replace (4 * u * (L * (1 + 2 * x))) with (4 * (u * L) + 8 * (u * (L * x))) by ring.
    replace (14 * (gain * (1 + 140 * x)) * (3 * L)) with (42 * (gain * L) + 5880 * (gain * L * x)) by ring.
    replace (3000 * gain * L * (x + 1 + 1) ^ 2) with (3000 * gain * L * (x + 1) ^ 2 + 6000 * (gain * L * x) + 9000 * (gain * L)) by ring.
    lra. }
  induction Hf as [|j P Hj Hf IH|n p T P Ha Hf IH].
  - exists 0%nat, base'. destruct (pose_near_close _ _ _ _ Hbase) as (U & S & C).
    split; [constructor|]. split; [constructor|]. split; [exact U|]. split; [simpl; lra|].
    eapply close_mono; [exact C| |]; simpl; lra.
  - destruct IH as (d & P' & Hd & F & U & S & C). destruct (Hjs j Hj) as (j' & Hj' & J).
    assert (Rg := Hq j' Hj'). rewrite <- (jn_type _ _ _ _ _ J), <- (jn_name _ _ _ _ _ J) in Rg.
    destruct (round_motion j j' (q (uj_name j)) J Rg) as (UT & ST & CT).
    destruct (Step d _ _ _ _ (Hl _ _ Hd) U S C UT ST CT) as (U1 & S1 & C1).
    exists (Datatypes.S d), (pose_transform P' (motion j' (q (uj_name j)))). split; [rewrite (jn_child _ _ _ _ _ J); constructor; [exact Hj'|]; rewrite <- (jn_parent _ _ _ _ _ J); exact Hd|]. split; [|now split].
    rewrite (jn_child _ _ _ _ _ J), (jn_name _ _ _ _ _ J). constructor; [exact Hj'|]. rewrite <- (jn_parent _ _ _ _ _ J). exact F.
  - destruct IH as (d & P' & Hd & F & U & S & C). destruct (Hadded n p T Ha) as (T' & Ha' & HT).
    destruct (pose_near_close _ _ _ _ HT) as (UT & ST & CT).
    assert (CT' : close o (80 * gain) (1000 * gain * L) T T') by (eapply close_mono; [exact CT|lra|lra]).
    destruct (Step d _ _ _ _ (Hl _ _ Hd) U S C UT ltac:(lra) CT') as (U1 & S1 & C1).
    exists (Datatypes.S d), (pose_transform P' T'). split; [econstructor; eassumption|]. split; [|now split].
    econstructor; eassumption.
Qed.
End Along.
End Sizes.
End Chain.
