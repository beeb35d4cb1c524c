(** Lengths of chains and of steps; for C107 and C108. *)
From Coq Require Import QArith String List Arith Lia Bool Reals Lra Psatz.
From Verif Require Import Base Num Pose DataStructure Urdf Kin Wrapper Spec_Robot Spec_Hist Spec_Load Spec_Jac Spec_Mass Spec_Rot Spec_Body Spec_Reach
  RealArith Pf_Base Pf_Data Inv Pf_FK Rep Pf_Ops Pf_Name Pf_Reach Pf_Pose Pf_Local Pf_Real Pf_Rot Pf_Unit Pf_Rpy Pf_Chain Pf_Deriv Pf_Body Pf_Rigid.
Import ListNotations.
Local Open Scope R_scope.

Lemma vdot_nonneg v : 0 <= vdot v v. Proof. unfold vdot. nra. Qed.
Lemma vlen_nonneg v : 0 <= vlen v. Proof. apply sqrt_pos. Qed.
Lemma vlen_sq v : vlen v * vlen v = vdot v v. Proof. apply sqrt_sqrt, vdot_nonneg. Qed.
Lemma vlen_eq a b : vdot a a = vdot b b -> vlen a = vlen b. Proof. unfold vlen. now intros ->. Qed.
Lemma vlen_le v k : 0 <= k -> vdot v v <= k * k -> vlen v <= k.
Proof. intros H L. unfold vlen. rewrite <- (sqrt_square k H). now apply sqrt_le_1_alt. Qed.
Lemma vdot_add a b : vdot (v_add a b) (v_add a b) = vdot a a + 2 * vdot a b + vdot b b.
Proof. unfold vdot, v_add. proj. rnum. ring. Qed.
Lemma cauchy a b : vdot a b <= vlen a * vlen b.
Proof.
  assert (Q : vdot a b * vdot a b <= vdot a a * vdot b b).
  { assert (S : 0 <= vdot a a * vdot b b - vdot a b * vdot a b); [|lra]. unfold vdot. destruct a as [a1 a2 a3], b as [b1 b2 b3]. proj. change (@num RA) with R in *.
    replace ((a1 * a1 + a2 * a2 + a3 * a3) * (b1 * b1 + b2 * b2 + b3 * b3) - (a1 * b1 + a2 * b2 + a3 * b3) * (a1 * b1 + a2 * b2 + a3 * b3))
      with ((a1 * b2 - a2 * b1) * (a1 * b2 - a2 * b1) + (a2 * b3 - a3 * b2) * (a2 * b3 - a3 * b2) + (a3 * b1 - a1 * b3) * (a3 * b1 - a1 * b3)) by ring.
    pose proof (Rle_0_sqr (a1 * b2 - a2 * b1)). pose proof (Rle_0_sqr (a2 * b3 - a3 * b2)). pose proof (Rle_0_sqr (a3 * b1 - a1 * b3)). unfold Rsqr in *. lra. }
  pose proof (vlen_nonneg a). pose proof (vlen_nonneg b). rewrite <- !vlen_sq in Q.
  destruct (Rle_or_lt (vdot a b) (vlen a * vlen b)) as [|L]; auto. exfalso.
  assert (0 <= vlen a * vlen b) by (apply Rmult_le_pos; auto). nra.
Qed.
Lemma vlen_add a b : vlen (v_add a b) <= vlen a + vlen b.
Proof.
  pose proof (vlen_nonneg a). pose proof (vlen_nonneg b). apply vlen_le; [lra|]. rewrite vdot_add, <- !vlen_sq. pose proof (cauchy a b). lra.
Qed.
Lemma vlen_zero : vlen v_clear = 0.
Proof. unfold vlen. replace (vdot v_clear v_clear) with 0; [apply sqrt_0|]. unfold vdot, v_clear. proj. rnum. ring. Qed.
Definition vscale (k : R) (v : @Vector3 RA) : @Vector3 RA := @V3 RA (vx v * k) (vy v * k) (vz v * k).
Lemma vlen_scale k v : vlen (vscale k v) = Rabs k * vlen v.
Proof.
  unfold vlen. replace (vdot (vscale k v) (vscale k v)) with (Rsqr k * vdot v v) by (unfold vdot, vscale, Rsqr; proj; rnum; ring).
  rewrite sqrt_mult_alt by apply Rle_0_sqr. now rewrite sqrt_Rsqr_abs.
Qed.
Lemma vlen_rotated q v : unit_q q -> vlen (mvec (quat_mat q) v) = vlen v.
Proof. intros U. apply vlen_eq. rewrite vdot_mvec, <- mvec_mmul. destruct (quat_rotation _ U) as (_ & O & _). now rewrite O, mvec_id. Qed.
Lemma vlen_rot q v : unit_q q -> vlen (q_rot q v) = vlen v.
Proof. intros U. rewrite quat_mat_rot by exact U. now apply vlen_rotated. Qed.

(** ** chains *)
Lemma motion_length js j (a : R) : axes_ok js -> In j js ->
  vlen (position (motion j a)) <= vlen (position (uj_origin j)) + match uj_type j with PRISMATIC => Rabs a * vlen (uj_axis j) | _ => 0 end.
Proof.
  intros AX I. destruct (AX j I) as [Ho _]. apply rpy_pose_unit in Ho. rewrite motion_is. pose proof (vlen_nonneg (position (uj_origin j))).
  destruct (uj_type j); try lra; cbn [pose_transform position]; (eapply Rle_trans; [apply vlen_add|]); rewrite vlen_rot by exact Ho.
  - rewrite vlen_zero. lra.
  - rewrite vlen_zero. lra.
  - change (@V3 RA (vx (uj_axis j) * a) (vy (uj_axis j) * a) (vz (uj_axis j) * a)) with (vscale a (uj_axis j)). rewrite vlen_scale. lra.
Qed.
Lemma step_length (B P T : pose) : unit_q (rotation P) ->
  vlen (v_sub (position (pose_transform P T)) (position B)) <= vlen (v_sub (position P) (position B)) + vlen (position T).
Proof.
  intros U. cbn [pose_transform position]. rewrite <- (vlen_rot (rotation P) (position T) U).
  replace (v_sub (v_add (q_rot (rotation P) (position T)) (position P)) (position B)) with (v_add (v_sub (position P) (position B)) (q_rot (rotation P) (position T)))
    by (unfold v_add, v_sub; apply v_eq; proj; rnum; ring).
  apply vlen_add.
Qed.
Lemma fk_reach js root added q base n P : axes_ok js -> added_ok added -> unit_q (rotation base) -> fk js root added q base n P ->
  exists L, chain_length js root added q n L /\ vlen (v_sub (position P) (position base)) <= L.
Proof.
  intros AX AD UB H. induction H as [|j P I H IH|n p T P I H IH].
  - exists 0. split; [constructor|]. replace (v_sub (position base) (position base)) with v_clear by (unfold v_sub, v_clear; apply v_eq; proj; rnum; ring). rewrite vlen_zero. lra.
  - destruct IH as (L & HL & B). eexists. split; [apply cl_joint; eauto|]. assert (U : unit_q (rotation P)) by exact (fk_unit _ _ _ _ _ _ _ AX AD UB H).
    pose proof (step_length base P (motion j (q (uj_name j))) U). pose proof (motion_length js j (q (uj_name j)) AX I). lra.
  - destruct IH as (L & HL & B). eexists. split; [eapply cl_added; eauto|]. assert (U : unit_q (rotation P)) by exact (fk_unit _ _ _ _ _ _ _ AX AD UB H).
    pose proof (step_length base P T U). lra.
Qed.

(** ** one turn *)
Lemma turn_chord (x y z w : R) (v : vec) : let q := @Q4 RA x y z w in unit_q q ->
  vdot (v_sub (q_rot q v) v) (v_sub (q_rot q v) v) <= 4 * (x * x + y * y + z * z) * vdot v v.
Proof.
  intros q U. rewrite quat_mat_rot by exact U. unfold unit_q, qn in U. subst q. proj. rnumin U. destruct v as [a b c]. change (@num RA) with R in *.
  assert (E : vdot (v_sub (mvec (quat_mat (@Q4 RA x y z w)) (@V3 RA a b c)) (@V3 RA a b c)) (v_sub (mvec (quat_mat (@Q4 RA x y z w)) (@V3 RA a b c)) (@V3 RA a b c))
    = 4 * (x * x + y * y + z * z + w * w) * ((x * x + y * y + z * z) * (a * a + b * b + c * c) - (x * a + y * b + z * c) * (x * a + y * b + z * c))).
  { unfold vdot, v_sub, mvec, quat_mat. proj. cbn [m11 m12 m13 m21 m22 m23 m31 m32 m33]. rnum. ring. }
  rewrite E. replace (x * x + y * y + z * z + w * w) with 1 by (cbn [qx qy qz qw] in U; lra). unfold vdot. proj. change (@num RA) with R in *.
  pose proof (Rle_0_sqr (x * a + y * b + z * c)) as S. unfold Rsqr in S. lra.
Qed.
Lemma axis_q_sum u a d : unit_vector u -> axis_q u (a + d) = q_mul (axis_q u a) (axis_q u d).
Proof.
  intros U. unfold unit_vector in U. rnumin U. unfold axis_q, q_mul. cbn [qx qy qz qw]. rnum. destruct u as [x y z]. proj. change (@num RA) with R in *. cbn [vx vy vz] in U.
  replace ((a + d) / 2) with (a / 2 + d / 2) by field. rewrite sin_plus, cos_plus. apply q_eq; cbn [qx qy qz qw]; rnum; try ring.
  replace (cos (a / 2) * cos (d / 2) - sin (a / 2) * sin (d / 2)) with (cos (a / 2) * cos (d / 2) - (x * x + y * y + z * z) * (sin (a / 2) * sin (d / 2))) by (rewrite U; ring). ring.
Qed.
Lemma sin_le_abs x : sin x * sin x <= x * x.
Proof.
  assert (P : forall y, 0 <= y -> sin y * sin y <= y * y).
  { intros y H. destruct (Req_dec y 0) as [->|N]; [rewrite sin_0; lra|]. pose proof (sin_lt_x y ltac:(lra)) as S.
    destruct (Rle_or_lt y 1) as [L|L].
    - assert (0 <= sin y) by (apply sin_ge_0; [lra|]; pose proof PI2_3_2; lra). nra.
    - pose proof (SIN_bound y). nra. }
  destruct (Rle_or_lt 0 x) as [L|L]; [auto|]. specialize (P (- x) ltac:(lra)). rewrite sin_neg in P. lra.
Qed.
Lemma axis_chord u d v : unit_vector u -> vlen (v_sub (q_rot (axis_q u d) v) v) <= Rabs d * vlen v.
Proof.
  intros U. apply vlen_le; [apply Rmult_le_pos; [apply Rabs_pos | apply vlen_nonneg]|].
  replace (Rabs d * vlen v * (Rabs d * vlen v)) with (d * d * vdot v v).
  2:{ rewrite <- vlen_sq. assert (E : Rabs d * Rabs d = d * d) by (rewrite <- Rabs_mult; apply Rabs_pos_eq; nra). rewrite <- E. ring. }
  unfold axis_q. eapply Rle_trans; [apply turn_chord; apply (axis_q_unit u d U)|]. apply Rmult_le_compat_r; [apply vdot_nonneg|].
  unfold unit_vector in U. rnumin U. pose proof (sin_le_abs (d / 2)) as S. set (k := sin (d / 2)) in *. clearbody k.
  apply Rle_trans with (4 * ((vx u * vx u + vy u * vy u + vz u * vz u) * (k * k))); [rnum; right; ring|].
  assert (U' : vx u * vx u + vy u * vy u + vz u * vz u = 1) by exact U. rewrite U'. lra.
Qed.

(** ** one joint *)
Section Step.
Context (R : @Robot RA) (root : string) (sorted : list (string * option (@Inertial RA))) (jsorted : list (@UJoint RA)) (ms : list (string * @Inertial RA)) (mass : @num RA).
Context (ND : NoDup (map uj_name (r_joints R))) (AX : axes_ok (r_joints R)).

Lemma rot_diff q (a b : vec) : unit_q q -> v_sub (q_rot q a) (q_rot q b) = q_rot q (v_sub a b).
Proof. intros U. rewrite !quat_mat_rot by exact U. unfold mvec, v_sub. apply v_eq; proj; rnum; ring. Qed.
Lemma add_diff (a b c : vec) : v_sub (v_add a c) (v_add b c) = v_sub a b.
Proof. unfold v_sub, v_add. apply v_eq; proj; rnum; ring. Qed.
Lemma add_cancel (x c : vec) : v_sub (v_add x c) c = x.
Proof. unfold v_sub, v_add. apply v_eq; proj; rnum; ring. Qed.
Lemma add_clear (c : vec) : v_add v_clear c = c.
Proof. unfold v_clear, v_add. apply v_eq; proj; rnum; ring. Qed.
Lemma rot_clear (q : quat) : unit_q q -> q_rot q v_clear = v_clear.
Proof. intros U. rewrite quat_mat_rot by exact U. unfold mvec, v_clear. apply v_eq; proj; rnum; ring. Qed.
Lemma turned_place (Q D : pose) u a : unit_q (rotation Q) -> unit_vector u ->
  pose_transform (pose_transform Q (mkPose v_clear (axis_q u a))) D = mkPose (v_add (q_rot (rotation Q) (q_rot (axis_q u a) (position D))) (position Q)) (q_mul (q_mul (rotation Q) (axis_q u a)) (rotation D)).
Proof.
  intros U V. pose proof (axis_q_unit u a V) as UA. unfold pose_transform. cbn [rotation position]. f_equal.
  rewrite rot_clear by exact U. rewrite q_rot_mul by (apply unit_pos; auto). f_equal. apply add_clear.
Qed.
Lemma turn_step (Q D : pose) u a b : unit_q (rotation Q) -> unit_vector u ->
  let C := pose_transform Q (mkPose v_clear (axis_q u a)) in let C' := pose_transform Q (mkPose v_clear (axis_q u b)) in
  let P := pose_transform C D in let P' := pose_transform C' D in
  position C' = position C /\ vlen (v_sub (position P') (position P)) <= Rabs (b - a) * vlen (v_sub (position P) (position C)).
Proof.
  intros U V C C' P P'. assert (UA : forall t, unit_q (axis_q u t)) by (intros t; now apply axis_q_unit).
  assert (EC : forall t, position (pose_transform Q (mkPose v_clear (axis_q u t))) = position Q).
  { intros t. cbn [pose_transform position]. rewrite rot_clear by exact U. apply add_clear. }
  split; [unfold C, C'; now rewrite !EC|]. unfold P, P', C, C'. rewrite (EC a), !turned_place by assumption. cbn [position].
  rewrite add_diff, rot_diff, vlen_rot by assumption.
  rewrite add_cancel.
  rewrite !vlen_rot by auto. replace b with (a + (b - a)) at 1 by ring. rewrite axis_q_sum by exact V. rewrite q_rot_mul by (apply unit_pos; auto).
  rewrite rot_diff, vlen_rot by auto. now apply axis_chord.
Qed.
Lemma slide_step (Q D : pose) u a b : unit_q (rotation Q) ->
  let P := pose_transform (pose_transform Q (mkPose (vscale a u) q_clear)) D in let P' := pose_transform (pose_transform Q (mkPose (vscale b u) q_clear)) D in
  rotation P' = rotation P /\ v_sub (position P') (position P) = vscale (b - a) (q_rot (rotation Q) u).
Proof.
  intros U P P'. unfold P, P', pose_transform. cbn [rotation position]. rewrite q_mul_1r. split; [reflexivity|].
  rewrite !quat_mat_rot by exact U. unfold mvec, vscale, v_sub, v_add. apply v_eq; proj; rnum; ring.
Qed.

Lemma joint_step s m k j t n P P' C : Rep R root sorted jsorted ms mass s m -> added_ok (as_added s) -> unit_q (rotation (as_base s)) ->
  nth_error jsorted k = Some j -> carries (r_joints R) (as_added s) j n ->
  let a := by_name (jnames jsorted) (as_angles s) (uj_name j) in
  let s' := mkAS (as_added s) (list_set (as_angles s) k t) (as_base s) in
  pose_at R root jsorted s n P -> pose_at R root jsorted s (uj_child j) C -> pose_at R root jsorted s' n P' ->
  match uj_type j with
  | PRISMATIC => rotation P' = rotation P /\ v_sub (position P') (position P) = vscale (t - a) (q_rot (rotation C) (uj_axis j))
  | _ => vlen (v_sub (position P') (position C)) = vlen (v_sub (position P) (position C)) /\
         vlen (v_sub (position P') (position P)) <= Rabs (t - a) * vlen (v_sub (position P) (position C))
  end.
Proof.
  intros HR AD UB Ej Cj a s' H HC H'. pose proof (Rep_conf _ _ _ _ _ _ s m (list_set (as_angles s) k t) (as_base s) HR) as HR'. fold s' in HR'.
  assert (L : length (list_set (as_angles s) k t) = length (joint_angles m)) by (rewrite list_set_length, (rep_angles _ _ _ _ _ _ _ _ HR); reflexivity). specialize (HR' L).
  assert (Ij' : In j jsorted) by (eapply nth_error_In; eauto). assert (Ij : In j (r_joints R)) by (apply (rep_jsorted _ _ _ _ _ _ _ _ HR); exact Ij').
  assert (Mv : is_movable (uj_type j)) by (destruct (proj1 (rep_jsorted _ _ _ _ _ _ _ _ HR j) Ij') as [_ Mv]; unfold is_movable; destruct (uj_type j); auto; discriminate Mv).
  assert (En : nth_error (jnames jsorted) k = Some (uj_name j)) by (unfold jnames; rewrite nth_error_map', Ej; reflexivity).
  pose proof (jn_nodup _ _ _ _ _ _ _ _ HR) as JN. pose proof (rep_angles_length _ _ _ _ _ _ _ _ HR) as LA.
  destruct (by_name_set (jnames jsorted) (as_angles s) k (uj_name j) t JN LA En) as [Q1 Q2].
  destruct (parent_pose_ex _ _ _ _ _ _ _ _ HR j Ij) as (Pp & HPp).
  destruct (chain _ _ _ _ _ _ _ _ HR j n _ _ Pp ND AX AD UB Ij Cj HPp) as (D & UD & HD).
  assert (UP : unit_q (rotation Pp)) by exact (fk_unit _ _ _ _ _ _ _ AX AD UB HPp). destruct (AX j Ij) as [Ho Hu]. apply rpy_pose_unit in Ho.
  assert (UQ : unit_q (rotation (pose_transform Pp (uj_origin j)))) by (cbn [pose_transform rotation]; now apply unit_mul).
  rewrite (rep_pose_det _ _ _ _ _ _ _ _ HR _ _ _ H (HD _ (fun _ _ _ => eq_refl))).
  pose proof (rep_pose_det _ _ _ _ _ _ _ _ HR' _ _ _ H' (HD _ (fun j' _ N => Q2 _ N))) as E'. cbn [s' as_angles] in E'. rewrite Q1 in E'. rewrite E'. clear E'.
  rewrite (rep_pose_det _ _ _ _ _ _ _ _ HR _ _ _ HC (fk_joint _ _ _ _ _ j Pp Ij HPp)). fold a. rewrite !motion_is.
  destruct Mv as [T|[T|T]]; rewrite T in *.
  - specialize (Hu (or_introl eq_refl)). rewrite <- !pt_assoc by (apply unit_pos; assumption).
    destruct (turn_step (pose_transform Pp (uj_origin j)) D (uj_axis j) a t UQ Hu) as [S1 S2]. split; [|exact S2].
    assert (UC : forall x, unit_q (rotation (pose_transform (pose_transform Pp (uj_origin j)) (mkPose v_clear (axis_q (uj_axis j) x))))) by (intros x; cbn [pose_transform rotation] in *; apply unit_mul; auto; now apply axis_q_unit).
    rewrite <- S1 at 1. cbn [pose_transform position] in *.
    rewrite !add_cancel.
    rewrite !vlen_rot; [reflexivity | apply UC | apply UC].
  - specialize (Hu (or_intror eq_refl)). rewrite <- !pt_assoc by (apply unit_pos; assumption).
    destruct (turn_step (pose_transform Pp (uj_origin j)) D (uj_axis j) a t UQ Hu) as [S1 S2]. split; [|exact S2].
    assert (UC : forall x, unit_q (rotation (pose_transform (pose_transform Pp (uj_origin j)) (mkPose v_clear (axis_q (uj_axis j) x))))) by (intros x; cbn [pose_transform rotation] in *; apply unit_mul; auto; now apply axis_q_unit).
    rewrite <- S1 at 1. cbn [pose_transform position] in *.
    rewrite !add_cancel.
    rewrite !vlen_rot; [reflexivity | apply UC | apply UC].
  - rewrite <- !pt_assoc by (apply unit_pos; assumption). destruct (slide_step (pose_transform Pp (uj_origin j)) D (uj_axis j) a t UQ) as [S1 S2]. split; [exact S1|].
    etransitivity; [exact S2|]. cbn [pose_transform rotation]. now rewrite q_mul_1r.
Qed.
End Step.

(** ** many joints *)
Lemma lever js root added q base r C B n L : axes_ok js -> added_ok added -> unit_q (rotation base) ->
  (forall j, In j js -> uj_type j = PRISMATIC -> Rabs (q (uj_name j)) <= Rabs (B (uj_name j))) ->
  fk js root added q base r C -> chain_length js r added B n L ->
  exists P, fk js root added q base n P /\ vlen (v_sub (position P) (position C)) <= L.
Proof.
  intros AX AD UB HB HC H. induction H as [|j L I H IH|n p T L I H IH].
  - exists C. split; [exact HC|]. replace (v_sub (position C) (position C)) with v_clear by (unfold v_sub, v_clear; apply v_eq; proj; rnum; ring). rewrite vlen_zero. lra.
  - destruct IH as (P & HP & D). eexists. split; [apply fk_joint; eauto|]. assert (U : unit_q (rotation P)) by exact (fk_unit _ _ _ _ _ _ _ AX AD UB HP).
    pose proof (step_length C P (motion j (q (uj_name j))) U). pose proof (motion_length js j (q (uj_name j)) AX I). specialize (HB j I).
    destruct (uj_type j); try lra. specialize (HB eq_refl). pose proof (vlen_nonneg (uj_axis j)). assert (Rabs (q (uj_name j)) * vlen (uj_axis j) <= Rabs (B (uj_name j)) * vlen (uj_axis j)) by (now apply Rmult_le_compat_r). lra.
  - destruct IH as (P & HP & D). eexists. split; [eapply fk_added; eauto|]. assert (U : unit_q (rotation P)) by exact (fk_unit _ _ _ _ _ _ _ AX AD UB HP).
    pose proof (step_length C P T U). lra.
Qed.

Lemma nth_list_set_ne {E} (v : list E) i k a d : k <> i -> nth k (list_set v i a) d = nth k v d.
Proof.
  intros N. pose proof (nth_error_list_set_ne v i k a (not_eq_sym N)) as H. destruct (nth_error v k) as [x|] eqn:Ex.
  - now rewrite (nth_error_nth _ _ d H), (nth_error_nth _ _ d Ex).
  - apply nth_error_None in H, Ex. now rewrite !nth_overflow by assumption.
Qed.
Lemma chain_nonneg js r added q n L : chain_length js r added q n L -> 0 <= L.
Proof.
  intros H. induction H as [|j L I H IH|n p T L I H IH]; [lra| |].
  - pose proof (vlen_nonneg (position (uj_origin j))). pose proof (vlen_nonneg (uj_axis j)). pose proof (Rabs_pos (q (uj_name j))).
    assert (0 <= Rabs (q (uj_name j)) * vlen (uj_axis j)) by (now apply Rmult_le_pos). destruct (uj_type j); lra.
  - pose proof (vlen_nonneg (position T)). lra.
Qed.
Lemma gain_nonneg js added B n j g : gain js added B n j g -> 0 <= g.
Proof. intros [_|_|L _ H]; [lra | apply vlen_nonneg | now apply chain_nonneg in H]. Qed.

Section Many.
Context (R : @Robot RA) (root : string) (sorted : list (string * option (@Inertial RA))) (jsorted : list (@UJoint RA)) (ms : list (string * @Inertial RA)) (mass : @num RA).
Context (ND : NoDup (map uj_name (r_joints R))) (AX : axes_ok (r_joints R)).
Context (B : string -> Rdefinitions.R) (n : string).

Lemma by_name_nth (ns : list string) (v : list (@num RA)) k x : NoDup ns -> length v = length ns -> nth_error ns k = Some x -> by_name ns v x = nth k v n0.
Proof.
  intros N L E. assert (K : (k < length v)%nat) by (rewrite L; eapply nth_error_lt; eauto). destruct (lt_nth_error _ _ K) as (a & Ea).
  unfold by_name. rewrite (assoc_combine_nth ns v k x a); auto. symmetry. now apply nth_error_nth.
Qed.

Lemma one_gain s m k j t g P P' : Rep R root sorted jsorted ms mass s m -> added_ok (as_added s) -> unit_q (rotation (as_base s)) ->
  nth_error jsorted k = Some j -> (forall i x, nth_error jsorted i = Some x -> Rabs (nth i (as_angles s) n0) <= B (uj_name x)) ->
  gain (r_joints R) (as_added s) B n j g ->
  let s' := mkAS (as_added s) (list_set (as_angles s) k t) (as_base s) in
  pose_at R root jsorted s n P -> pose_at R root jsorted s' n P' ->
  vlen (v_sub (position P') (position P)) <= Rabs (t - nth k (as_angles s) n0) * g.
Proof.
  intros HR AD UB Ej HB Hg s' H H'.
  assert (Ij' : In j jsorted) by (eapply nth_error_In; eauto). destruct (proj1 (rep_jsorted _ _ _ _ _ _ _ _ HR j) Ij') as [Ij Mv].
  assert (En : nth_error (jnames jsorted) k = Some (uj_name j)) by (unfold jnames; rewrite nth_error_map', Ej; reflexivity).
  pose proof (jn_nodup _ _ _ _ _ _ _ _ HR) as JN. pose proof (rep_angles_length _ _ _ _ _ _ _ _ HR) as LA.
  assert (Z : forall (x : vec), v_sub x x = v_clear) by (intros x; unfold v_sub, v_clear; apply v_eq; proj; rnum; ring).
  destruct (Classical_Prop.classic (carries (r_joints R) (as_added s) j n)) as [Cj|Cj].
  - destruct (parent_pose_ex _ _ _ _ _ _ _ _ HR j Ij) as (Pp & HPp). pose proof (fk_joint _ _ _ _ _ j Pp Ij HPp) as HC. set (C := pose_transform Pp _) in HC. fold (pose_at R root jsorted s (uj_child j) C) in HC.
    pose proof (joint_step R root sorted jsorted ms mass ND AX s m k j t n P P' C HR AD UB Ej Cj H HC H') as S. rewrite (by_name_nth _ _ k (uj_name j) JN LA En) in S.
    destruct Hg as [Nc|T|L T HL]; [contradiction| |].
    + rewrite T in S. destruct S as [_ S]. rewrite S, vlen_scale. assert (U : unit_q (rotation C)) by exact (fk_unit _ _ _ _ _ _ _ AX AD UB HC). rewrite vlen_rot by exact U. apply Rle_refl.
    + assert (LE : vlen (v_sub (position P) (position C)) <= L).
      { assert (HB' : forall j', In j' (r_joints R) -> uj_type j' = PRISMATIC -> Rabs (by_name (jnames jsorted) (as_angles s) (uj_name j')) <= Rabs (B (uj_name j'))).
        { intros j' I' T'. assert (Mj : In j' jsorted) by (apply (rep_jsorted _ _ _ _ _ _ _ _ HR); split; [exact I' | now rewrite T']). apply In_nth_error in Mj. destruct Mj as (i & Ei).
          rewrite (by_name_nth _ _ i (uj_name j') JN LA) by (unfold jnames; rewrite nth_error_map', Ei; reflexivity). pose proof (HB i j' Ei) as Q. pose proof (Rabs_pos (nth i (as_angles s) n0)). rewrite (Rabs_pos_eq (B (uj_name j'))) by lra. exact Q. }
        destruct (lever _ _ _ _ _ _ _ B n L AX AD UB HB' HC HL) as (P2 & HP2 & LE). now rewrite (rep_pose_det _ _ _ _ _ _ _ _ HR _ _ _ H HP2). }
      assert (S' : vlen (v_sub (position P') (position P)) <= Rabs (t - nth k (as_angles s) n0) * vlen (v_sub (position P) (position C))) by (destruct (uj_type j); try apply S; now destruct T).
      eapply Rle_trans; [exact S'|]. apply Rmult_le_compat_l; [apply Rabs_pos | exact LE].
  - assert (E : P' = P).
    { destruct (by_name_set (jnames jsorted) (as_angles s) k (uj_name j) t JN LA En) as [Q1 Q2].
      pose proof (Rep_conf _ _ _ _ _ _ s m (list_set (as_angles s) k t) (as_base s) HR) as HR'. fold s' in HR'.
      assert (L : length (list_set (as_angles s) k t) = length (joint_angles m)) by (rewrite list_set_length, (rep_angles _ _ _ _ _ _ _ _ HR); reflexivity). specialize (HR' L).
      apply (rep_pose_det _ _ _ _ _ _ _ _ HR' _ _ _ H'). unfold pose_at in *. cbn [s' as_added as_angles as_base].
      apply (fk_local _ _ _ _ _ _ _ _ H). intros j' I' C'. symmetry. apply Q2. intros E. apply (same_name_same_joint R) in E; auto. subst j'. auto. }
    rewrite E, Z, vlen_zero. apply Rmult_le_pos; [apply Rabs_pos|]. eapply gain_nonneg; eauto.
Qed.

Lemma many_gains : forall jids qs gs s m P P', Rep R root sorted jsorted ms mass s m -> added_ok (as_added s) -> unit_q (rotation (as_base s)) ->
  In n (all_links sorted s) -> NoDup jids ->
  (forall i x, nth_error jsorted i = Some x -> Rabs (nth i (as_angles s) n0) <= B (uj_name x)) ->
  (forall c k j b, nth_error jids c = Some k -> nth_error jsorted k = Some j -> nth_error qs c = Some b -> Rabs b <= B (uj_name j)) ->
  Forall2 (fun k g => exists j, nth_error jsorted k = Some j /\ gain (r_joints R) (as_added s) B n j g) jids gs -> length qs = length jids ->
  let s' := mkAS (as_added s) (assign jids qs (as_angles s)) (as_base s) in
  pose_at R root jsorted s n P -> pose_at R root jsorted s' n P' ->
  vlen (v_sub (position P') (position P)) <= travel (map (fun k => nth k (as_angles s) n0) jids) qs gs.
Proof.
  induction jids as [|k jids IH]; intros qs gs s m P P' HR AD UB In' N HB Hq F Lq s' H H'.
  - assert (E : s' = s) by (unfold s', assign; destruct s; reflexivity). rewrite E in *. clear E. rewrite (rep_pose_det _ _ _ _ _ _ _ _ HR _ _ _ H' H).
    replace (v_sub (position P) (position P)) with v_clear by (unfold v_sub, v_clear; apply v_eq; proj; rnum; ring). rewrite vlen_zero. cbn [map travel]. lra.
  - destruct qs as [|b qs]; [discriminate|]. inversion F as [|? g ? gs' (j & Ej & Hg) F']; subst. apply NoDup_cons_iff in N. destruct N as [Nk N].
    set (s1 := mkAS (as_added s) (list_set (as_angles s) k b) (as_base s)).
    assert (HR1 : Rep R root sorted jsorted ms mass s1 (set_base (as_base s) (set_angles (list_set (as_angles s) k b) m))).
    { apply (Rep_conf _ _ _ _ _ _ s m (list_set (as_angles s) k b) (as_base s) HR). rewrite list_set_length, (rep_angles _ _ _ _ _ _ _ _ HR). reflexivity. }
    destruct (rep_pose_ex _ _ _ _ _ _ _ _ HR1 n In') as (P1 & H1).
    pose proof (one_gain s m k j b g P P1 HR AD UB Ej HB Hg H H1) as S1.
    assert (LA : length (as_angles s) = length jsorted) by (rewrite (rep_angles_length _ _ _ _ _ _ _ _ HR); unfold jnames; apply map_length).
    assert (HB1 : forall i x, nth_error jsorted i = Some x -> Rabs (nth i (as_angles s1) n0) <= B (uj_name x)).
    { intros i x Ei. cbn [s1 as_angles]. destruct (Nat.eq_dec i k) as [->|Ni].
      - rewrite (nth_error_nth _ _ _ (nth_error_list_set_eq (as_angles s) k b ltac:(rewrite LA; eapply nth_error_lt; eauto))). apply (Hq 0%nat k x b); auto.
      - pose proof (HB i x Ei) as Q. rewrite <- (nth_list_set_ne (as_angles s) k i b n0) in Q; auto. }
    assert (S2 : vlen (v_sub (position P') (position P1)) <= travel (map (fun k => nth k (as_angles s1) n0) jids) qs gs').
    { apply (IH qs gs' s1 _ P1 P' HR1 AD UB In' N HB1); auto. intros c k' j' b' X1 X2 X3. apply (Hq (S c) k' j' b'); auto. }
    replace (map (fun k0 => nth k0 (as_angles s1) n0) jids) with (map (fun k0 => nth k0 (as_angles s) n0) jids) in S2.
    2:{ apply map_ext_in. intros i Ii. cbn [s1 as_angles]. symmetry. apply nth_list_set_ne. intros ->. contradiction. }
    cbn [map travel]. replace (v_sub (position P') (position P)) with (v_add (v_sub (position P') (position P1)) (v_sub (position P1) (position P))) by (unfold v_sub, v_add; apply v_eq; proj; rnum; ring).
    eapply Rle_trans; [apply vlen_add|]. lra.
Qed.
End Many.
