(** Centre of mass and inertia of a moved set of bodies; for C103 and C104. *)
From Coq Require Import QArith String List Arith Lia Bool Permutation Reals Lra.
From Verif Require Import Base Num Pose DataStructure Urdf Kin Wrapper Spec_Robot Spec_Hist Spec_Load Spec_Jac Spec_Mass Spec_Rot Spec_Body
  RealArith Pf_Base Pf_Data Inv Pf_FK Rep Pf_Reach Pf_Pose Pf_Wrap2 Pf_Mass Pf_Real Pf_Rot Pf_Unit Pf_Rpy Pf_Body.
Import ListNotations.
Local Open Scope R_scope.

Lemma mtr_mmul' a b : mtr (mmul a b) = mmul (mtr b) (mtr a).
Proof. unfold mtr, mmul. cbn [m11 m12 m13 m21 m22 m23 m31 m32 m33]. f_equal; ring. Qed.
Lemma rotated_mmul a b I : rotated (mmul a b) I = rotated a (rotated b I).
Proof. unfold rotated. now rewrite mtr_mmul', !mmul_assoc. Qed.
Lemma rotated_madd Q a b : rotated Q (madd a b) = madd (rotated Q a) (rotated Q b).
Proof. unfold rotated, mmul, madd, mtr. cbn [m11 m12 m13 m21 m22 m23 m31 m32 m33]. f_equal; ring. Qed.
Lemma rotated_mscale Q k a : rotated Q (mscale k a) = mscale k (rotated Q a).
Proof. unfold rotated, mmul, mscale, mtr. cbn [m11 m12 m13 m21 m22 m23 m31 m32 m33]. f_equal; ring. Qed.
Lemma rotated_zero Q : rotated Q mzero = mzero.
Proof. unfold rotated, mmul, mzero, mtr. cbn [m11 m12 m13 m21 m22 m23 m31 m32 m33]. f_equal; ring. Qed.
Lemma rotated_outer Q d : outer (mvec Q d) (mvec Q d) = rotated Q (outer d d).
Proof. unfold rotated, mmul, outer, mvec, mtr. cbn [m11 m12 m13 m21 m22 m23 m31 m32 m33 vx vy vz]. rnum. f_equal; ring. Qed.
Lemma rotated_sum {B} Q (f : B -> M33) l : rotated Q (msum f l) = msum (fun b => rotated Q (f b)) l.
Proof. induction l as [|b l IH]; [apply rotated_zero|]. cbn [msum fold_right]. rewrite rotated_madd. f_equal. exact IH. Qed.
Lemma vdot_mvec a u v : vdot u (mvec a v) = vdot (mvec (mtr a) u) v.
Proof. unfold vdot, mvec, mtr. cbn [m11 m12 m13 m21 m22 m23 m31 m32 m33 vx vy vz]. rnum. ring. Qed.
Lemma mvec_id v : mvec mid v = v.
Proof. unfold mvec, mid. cbn [m11 m12 m13 m21 m22 m23 m31 m32 m33]. apply v_eq; cbn [vx vy vz]; rnum; ring. Qed.
Lemma parallel_rotated Q m d : is_rotation Q -> parallel_axis m (mvec Q d) = rotated Q (parallel_axis m d).
Proof.
  intros (H1 & H2 & _). unfold parallel_axis. rewrite rotated_mscale, rotated_madd, !rotated_mscale, <- rotated_outer. f_equal. f_equal.
  unfold rotated. rewrite mmul_1r, H1. f_equal. rewrite vdot_mvec, <- mvec_mmul, H2. now rewrite mvec_id.
Qed.

(** sums of vectors under a motion [v -> Q v + t] *)
Definition moved (Q : M33) (t v : @Vector3 RA) : @Vector3 RA := v_add (mvec Q v) t.
Lemma moved_diff Q t u v : v_sub (moved Q t u) (moved Q t v) = mvec Q (v_sub u v).
Proof. unfold moved, v_sub, v_add, mvec. cbn [vx vy vz]. rnum. apply v_eq; cbn [vx vy vz]; rnum; ring. Qed.

Lemma moved_sums {C} (m : C -> R) (p p' : C -> @Vector3 RA) Q t l : (forall w, In w l -> p' w = moved Q t (p w)) ->
  @V3 RA (rsum (fun w => m w * vx (p' w)) l) (rsum (fun w => m w * vy (p' w)) l) (rsum (fun w => m w * vz (p' w)) l) =
  v_add (mvec Q (@V3 RA (rsum (fun w => m w * vx (p w)) l) (rsum (fun w => m w * vy (p w)) l) (rsum (fun w => m w * vz (p w)) l)))
        (@V3 RA (rsum m l * vx t) (rsum m l * vy t) (rsum m l * vz t)).
Proof.
  induction l as [|w l IH]; intros H.
  - unfold rsum, v_add, mvec. cbn [fold_right vx vy vz]. rnum. f_equal; ring.
  - specialize (IH (fun w I => H w (or_intror I))). pose proof (H w (or_introl eq_refl)) as E. unfold rsum in *. cbn [fold_right].
    unfold v_add, mvec in IH. cbn [vx vy vz] in IH. rnumin IH. injection IH as E1 E2 E3. rewrite E1, E2, E3, E. clear.
    unfold moved, v_add, mvec. cbn [vx vy vz]. rnum. f_equal; ring.
Qed.

Section Move.
Variable B : @Pose RA.
Hypothesis UB : unit_q (rotation B).
Definition move_body (w : Body) : Body := (fst w, pose_transform B (snd w)).
Notation Q := (quat_mat (rotation B)).
Notation t := (position B).
Lemma move_point w : unit_q (rotation (snd w)) -> bpoint (move_body w) = moved Q t (bpoint w).
Proof.
  intros U. unfold bpoint, move_body, com_point, moved. cbn [fst snd pose_transform position rotation].
  rewrite q_rot_mul by (apply unit_pos; assumption). rewrite <- quat_mat_rot by exact UB. rewrite q_rot_add, v_add_assoc. reflexivity.
Qed.
Lemma move_mass W : mass_of (map move_body W) = mass_of W.
Proof. unfold mass_of. rewrite rsum_map. reflexivity. Qed.
Lemma move_centre W : (forall w, In w W -> unit_q (rotation (snd w))) -> mass_of W <> 0 -> centre_of (map move_body W) = moved Q t (centre_of W).
Proof.
  intros U M0. unfold centre_of. rewrite move_mass.
  assert (E : first_moment (map move_body W) = v_add (mvec Q (first_moment W)) (@V3 RA (mass_of W * vx t) (mass_of W * vy t) (mass_of W * vz t))).
  { unfold first_moment, mass_of. rewrite !rsum_map. apply moved_sums. intros w I. now apply move_point, U. }
  rewrite E. unfold moved, vdiv, v_add, mvec. cbn [vx vy vz]. rnum. apply v_eq; cbn [vx vy vz]; rnum; field; exact M0.
Qed.
Lemma move_inertia c w : unit_q (rotation (snd w)) -> inertia_of (moved Q t c) (move_body w) = rotated Q (inertia_of c w).
Proof.
  intros U. pose proof (quat_rotation _ UB) as IR. unfold inertia_of. rewrite rotated_madd, move_point, moved_diff, parallel_rotated by assumption.
  f_equal. rewrite <- rotated_mmul. f_equal. change (rotation (snd (move_body w))) with (q_mul (rotation B) (rotation (snd w))). apply quat_mat_mul; assumption.
Qed.
Lemma move_total W : (forall w, In w W -> unit_q (rotation (snd w))) -> mass_of W <> 0 ->
  msum (inertia_of (centre_of (map move_body W))) (map move_body W) = rotated Q (msum (inertia_of (centre_of W)) W).
Proof.
  intros U M0. rewrite (move_centre W U M0), rotated_sum. generalize (centre_of W). intros c. clear M0.
  induction W as [|w W IH]; [reflexivity|]. cbn [map msum fold_right]. f_equal; [apply move_inertia, U; now left|]. apply IH. intros w' I. apply U. now right.
Qed.
End Move.

(** the bodies of a robot whose base is moved *)
Lemma bodies_moved R root jsorted (s : @AState RA) B W0 : axes_ok (r_joints R) -> added_ok (as_added s) -> unit_q (rotation B) ->
  bodies R root jsorted (mkAS (as_added s) (as_angles s) pose_clear) W0 ->
  bodies R root jsorted (mkAS (as_added s) (as_angles s) B) (map (move_body B) W0) /\ forall w, In w W0 -> unit_q (rotation (snd w)).
Proof.
  intros Ha Hd UB F. unfold bodies in *. split.
  - induction F as [|ni w ms W [E1 E2] F IH]; cbn [map]; constructor; [|exact IH]. split; [exact E1|]. cbn [move_body snd].
    unfold pose_at in *. cbn [as_added as_angles as_base] in *. apply fk_base; auto; [now apply axes_ok_nonzero | now apply unit_pos].
  - intros w I. destruct (Forall2_in_r _ _ _ w F I) as (ni & _ & _ & HP). unfold pose_at in HP. cbn [as_added as_angles as_base] in HP.
    exact (fk_unit _ _ _ _ _ _ _ Ha Hd (unit_clear : unit_q (rotation pose_clear)) HP).
Qed.

(** a weighted mean stays in every half-space of the weighted points *)
Lemma rsum_le {C} (f g : C -> R) l : (forall w, In w l -> f w <= g w) -> rsum f l <= rsum g l.
Proof.
  unfold rsum. induction l as [|w l IH]; intros H; cbn [fold_right]; [lra|].
  pose proof (H w (or_introl eq_refl)). specialize (IH (fun w I => H w (or_intror I))). lra.
Qed.
Lemma rsum_dot {C} (m : C -> R) (p : C -> @Vector3 RA) (a : @Vector3 RA) l :
  vdot a (@V3 RA (rsum (fun w => m w * vx (p w)) l) (rsum (fun w => m w * vy (p w)) l) (rsum (fun w => m w * vz (p w)) l)) = rsum (fun w => m w * vdot a (p w)) l.
Proof.
  unfold vdot. cbn [vx vy vz]. unfold rsum. induction l as [|w l IH]; cbn [fold_right]; [ring|]. rewrite <- IH. ring.
Qed.
Lemma rsum_const {C} (m : C -> R) b l : rsum (fun w => m w * b) l = rsum m l * b.
Proof. unfold rsum. induction l as [|w l IH]; cbn [fold_right]; [ring|]. rewrite IH. ring. Qed.
Lemma vdot_vdiv a v k : vdot a (vdiv v k) = vdot a v / k.
Proof. unfold vdot, vdiv. cbn [vx vy vz]. unfold Rdiv. rnum. rewrite !Rmult_plus_distr_r, !Rmult_assoc. reflexivity. Qed.
Lemma centre_half_space W a b : 0 < mass_of W -> (forall w, In w W -> 0 <= bmass w) ->
  (forall w, In w W -> 0 < bmass w -> vdot a (bpoint w) <= b) -> vdot a (centre_of W) <= b.
Proof.
  intros M0 Hp Hb. unfold centre_of.
  assert (E : vdot a (vdiv (first_moment W) (mass_of W)) = vdot a (first_moment W) / mass_of W) by apply vdot_vdiv.
  rewrite E. unfold first_moment. rewrite rsum_dot. apply Rmult_le_reg_r with (mass_of W); [exact M0|]. unfold Rdiv. rewrite Rmult_assoc, Rinv_l, Rmult_1_r by lra.
  rewrite (Rmult_comm b). unfold mass_of. rewrite <- rsum_const. apply rsum_le. intros w I.
  destruct (Rle_lt_or_eq_dec _ _ (Hp w I)) as [L|L]; [apply Rmult_le_compat_l; [lra | auto] | rewrite <- L; lra].
Qed.
