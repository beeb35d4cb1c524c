(** How a link moves with the base (lemmas for C13, C14, C15). *)
From Coq Require Import String List Arith Lia Bool Permutation Reals Lra.
From Coquelicot Require Import Coquelicot.
From Verif Require Import Base Num Pose DataStructure Urdf Kin Wrapper Spec_Robot Spec_Hist Spec_Load Spec_Jac Spec_Rot Spec_Deriv RealArith
  Pf_Base Pf_Data Inv Pf_FK Pf_Frame Pf_Rp Rep Pf_Ops Pf_Name Pf_Ctor Pf_Reach Pf_Jac Pf_Safe Pf_Pose Pf_Local Pf_Hist Pf_Wrap Pf_Real Pf_Rot Pf_Unit Pf_Rpy Pf_Chain Pf_Deriv Pf_JacD.
Import ListNotations.
Local Open Scope R_scope.

(** every link is rigidly attached to the base *)
Lemma fk_base_inv js root added q base n P : nonzero_axes js -> added_ok added -> 0 < qn (rotation base) -> fk js root added q base n P ->
  exists P0, fk js root added q pose_clear n P0 /\ P = pose_transform base P0.
Proof.
  intros Ha Hd Hb H. induction H as [|j P I H (P0 & H0 & ->)|n p T P I H (P0 & H0 & ->)].
  - exists pose_clear. split; [constructor | now rewrite pt_1r].
  - exists (pose_transform P0 (motion j (q (uj_name j)))). split; [now constructor|]. apply pt_assoc; auto.
    apply (fk_pos js root added q pose_clear _ P0 Ha Hd qn_clear_pos H0).
  - exists (pose_transform P0 T). split; [eapply fk_added; eauto|]. apply pt_assoc; auto.
    apply (fk_pos js root added q pose_clear _ P0 Ha Hd qn_clear_pos H0).
Qed.
Lemma unit_nonzero tinyxml text (R : @Robot RA) root : loadable tinyxml text R root -> unit_axes R -> nonzero_axes (r_joints R).
Proof.
  intros L H j I. split; [eapply loaded_origins; eauto|]. intros T. specialize (H j I T). unfold unit_vector in H.
  destruct (Req_dec (vx (uj_axis j)) 0) as [Ex|]; auto. destruct (Req_dec (vy (uj_axis j)) 0) as [Ey|]; auto. right. right. intros Ez. rewrite Ex, Ey, Ez in H. rnumin H. lra.
Qed.

Section Reached.
Context tinyxml text (R : @Robot RA) root sorted jsorted ops m (Hr : reached tinyxml text R root sorted jsorted ops m).
Context (Hc : clean ops = true) (Hu : unit_axes R) (Hb : unit_bases ops).
Notation s := (after sorted jsorted ops).

Lemma observed_base i n B P : unit_q (rotation B) -> nth_error (get_link_names m) i = Some n -> pose_with_base m i B P ->
  pose_at R root jsorted (mkAS (as_added s) (as_angles s) B) n P.
Proof.
  intros UB En (m2 & X).
  assert (Hr1 : exists m1, set_base_pose B m = (m1, Ok tt) /\ reached tinyxml text R root sorted jsorted (ops ++ [Op_set_base_pose B]) m1).
  { eexists. split; [reflexivity|]. apply (reached_run _ _ _ _ _ _ _ _ _ _ Hr). reflexivity. }
  destruct Hr1 as (m1 & E1 & Hr1). rewrite (bind_ok _ _ _ _ _ E1) in X.
  destruct (reached_Rep _ _ _ _ _ _ _ _ Hr) as [HR _]. destruct (reached_Rep _ _ _ _ _ _ _ _ Hr1) as [HR1 HC1].
  assert (C : clean (ops ++ [Op_set_base_pose B]) = true) by (unfold clean; rewrite fold_left_app; reflexivity). specialize (HC1 C).
  destruct (get_link_pose_ok m1 i m2 P ltac:(split; auto; apply HR1) X) as [HP _]. rewrite after_app in HR1.
  rewrite (rep_all_links _ _ _ _ _ _ _ _ HR) in En.
  apply (rep_pose_of' _ _ _ _ _ _ _ _ HR1 i n P); auto.
Qed.

(** what the link's pose is for every base pose, and the base columns of its Jacobian *)
Lemma base_path i n jids rt m' J : nth_error (get_link_names m) i = Some n -> (forall k, In k jids -> (k < length (get_joint_names m))%nat) ->
  get_jacobian i jids rt true m = (m', Ok J) ->
  exists D, unit_q (rotation D) /\ pose_at R root jsorted (mkAS (as_added s) (as_angles s) pose_clear) n D /\
    (forall B P, unit_q (rotation B) -> pose_with_base m i B P -> P = pose_transform B D) /\
    let E := pose_transform (as_base s) D in
    forall b, (b < 3)%nat ->
       column (length jids + b) J = map (fun r => if Nat.eqb r b then n1 else n0) (seq 0 (jac_rows rt)) /\
       column (length jids + 3 + b) J = base_quotient rt b (as_base s) E /\
       pose_transform (pose_inverse (as_base s)) E = D.
Proof.
  intros Nm Hk X. destruct (reached_Rep _ _ _ _ _ _ _ _ Hr) as [HR HC]. specialize (HC Hc).
  assert (G : Good m) by (split; auto; apply HR). rewrite (rep_joint_count _ _ _ _ _ _ _ _ HR) in Hk.
  destruct (jacobian_is _ _ _ _ _ _ _ _ _ _ _ _ _ _ HR G Hk X) as (n' & En & _ & E & HE & _ & HB). specialize (HB eq_refl).
  assert (n' = n) by (rewrite (rep_all_links _ _ _ _ _ _ _ _ HR) in Nm; congruence). subst n'.
  pose proof (after_base_unit sorted jsorted ops Hb) as UB. pose proof (unit_nonzero _ _ _ _ (proj1 Hr) Hu) as NZ.
  destruct (fk_base_inv _ _ _ _ _ _ _ NZ (after_ok sorted jsorted ops) (unit_pos _ UB) HE) as (D & HD & ->).
  exists D. split; [|split; [exact HD|split]].
  - apply (fk_unit _ _ _ _ _ _ _ (loaded_axes_ok _ _ _ _ (proj1 Hr) Hu) (after_ok sorted jsorted ops) (unit_clear : unit_q (rotation pose_clear)) HD).
  - intros B P HBu HP. assert (En' : nth_error (get_link_names m) i = Some n) by now rewrite (rep_all_links _ _ _ _ _ _ _ _ HR).
    pose proof (observed_base i n B P HBu En' HP) as H1. unfold pose_at in H1. cbn [as_added as_angles as_base] in H1.
    destruct (fk_base_inv _ _ _ _ _ _ _ NZ (after_ok sorted jsorted ops) (unit_pos _ HBu) H1) as (D' & HD' & ->).
    f_equal. assert (Hr0 : reached tinyxml text R root sorted jsorted (ops ++ [Op_set_base_pose pose_clear]) (fst (set_base_pose pose_clear m))).
    { apply (reached_run _ _ _ _ _ _ _ _ _ _ Hr). reflexivity. }
    destruct (reached_Rep _ _ _ _ _ _ _ _ Hr0) as [HR0 _]. rewrite after_app in HR0.
    exact (rep_pose_det _ _ _ _ _ _ _ _ HR0 n D' D HD' HD).
  - cbv zeta. intros b Lb. destruct (HB b Lb) as [H1 H2]. split; [exact H1|]. split; [exact H2|].
    rewrite <- pt_assoc, pt_inverse_l, pt_1l; auto; [now apply unit_pos| |now apply unit_pos].
    unfold pose_inverse. cbn [rotation]. apply qn_inverse_pos. now apply unit_pos.
Qed.
End Reached.

(** ** moving the base along an axis *)
Lemma base_shift (B D : pose) b r rt : (b < 3)%nat -> (r < jac_rows rt)%nat ->
  derivable_pt_lim (fun t => reported rt r (pose_transform (mkPose (with_coord b t (position B)) (rotation B)) D)) (coord b (position B))
    (nth r (map (fun r => if Nat.eqb r b then @n1 RA else n0) (seq 0 (jac_rows rt))) 0).
Proof.
  intros Lb Lr. assert (E : nth r (map (fun r => if Nat.eqb r b then @n1 RA else n0) (seq 0 (jac_rows rt))) 0 = if Nat.eqb r b then 1 else 0).
  { rewrite (nth_indep _ 0 ((fun r => if Nat.eqb r b then @n1 RA else n0) 0%nat)) by (rewrite map_length, seq_length; auto).
    rewrite (map_nth (fun r => if Nat.eqb r b then @n1 RA else n0)), seq_nth by auto. rewrite Nat.add_0_l. rnum. reflexivity. }
  rewrite E. clear E. set (w := q_rot (rotation B) (position D)). destruct B as [[x y z] q]. cbn [position rotation] in *.
  assert (X : forall c d : R, derivable_pt_lim (fun t => c + t) d 1).
  { intros c d. replace 1 with (0 + 1) by ring. apply derivable_pt_lim_plus; [apply derivable_pt_lim_const | apply derivable_pt_lim_id]. }
  unfold reported, link_row. cbn [pose_transform position rotation]. fold w.
  destruct r as [|[|[|r]]]; destruct b as [|[|[|b]]]; try lia; cbn [app nth with_coord coord vx vy vz v_add Nat.eqb];
    try (apply deriv_const; reflexivity); rnum; apply X.
Qed.

(** ** turning the base about roll, pitch or yaw *)
Lemma coord_vcomp k v : coord k v = vcomp k v.
Proof. destruct k as [|[|k]]; reflexivity. Qed.

Lemma Rabs_sin_pos x : 0 < x -> Rabs (sin x) <= Rabs x.
Proof.
  intros H. rewrite (Rabs_pos_eq x) by lra. destruct (Rle_dec x 1) as [L|L].
  - pose proof (sin_lt_x x H). pose proof PI_RGT_0. pose proof PI2_3_2. rewrite Rabs_pos_eq; [lra|]. apply sin_ge_0; lra.
  - apply Rle_trans with 1; [apply Rabs_le, SIN_bound | lra].
Qed.
(** a sinusoid and its difference quotient *)
Lemma sin_lip a b : Rabs (sin a - sin b) <= Rabs (a - b).
Proof.
  rewrite form4. rewrite !Rabs_mult. rewrite (Rabs_pos_eq 2) by lra.
  assert (H1 : Rabs (cos ((a + b) / 2)) <= 1) by (apply Rabs_le; apply COS_bound).
  assert (H2 : Rabs (sin ((a - b) / 2)) <= Rabs ((a - b) / 2)).
  { destruct (Rtotal_order ((a - b) / 2) 0) as [H|[H|H]].
    - rewrite <- (Rabs_Ropp (sin _)), <- (Rabs_Ropp ((a - b) / 2)), <- sin_neg. apply Rabs_sin_pos. lra.
    - rewrite H, sin_0. lra.
    - now apply Rabs_sin_pos. }
  assert (H3 : Rabs ((a - b) / 2) = Rabs (a - b) / 2) by (unfold Rdiv; rewrite Rabs_mult, (Rabs_pos_eq (/ 2)); lra).
  pose proof (Rabs_pos (sin ((a - b) / 2))). pose proof (Rabs_pos (cos ((a + b) / 2))). nra.
Qed.
Lemma cos_lip a b : Rabs (cos a - cos b) <= Rabs (a - b).
Proof.
  rewrite !cos_sin. replace (Rabs (a - b)) with (Rabs ((PI / 2 + a) - (PI / 2 + b))) by (f_equal; ring). apply sin_lip.
Qed.
Lemma wave_derive (a b c x : R) : derivable_pt_lim (fun t => a * cos t + b * sin t + c) x (b * cos x - a * sin x).
Proof. apply is_deriv. auto_derive; auto. ring. Qed.
Lemma wave_quotient (a b c x e : R) : 0 < e ->
  Rabs (((a * cos (x + e) + b * sin (x + e) + c) - (a * cos x + b * sin x + c)) / e - (b * cos x - a * sin x)) <= e * (Rabs a + Rabs b).
Proof.
  intros He. destruct (MVT_cor2 (fun t => a * cos t + b * sin t + c) (fun t => b * cos t - a * sin t) x (x + e) ltac:(lra)) as (z & E & Hz).
  { intros z _. apply wave_derive. }
  cbv beta in E. rewrite E. replace (x + e - x) with e by ring. replace ((b * cos z - a * sin z) * e / e - (b * cos x - a * sin x)) with (b * (cos z - cos x) - a * (sin z - sin x)) by (field; lra).
  pose proof (cos_lip z x) as H1. pose proof (sin_lip z x) as H2. assert (H3 : Rabs (z - x) <= e) by (rewrite Rabs_pos_eq; lra).
  eapply Rle_trans; [apply Rabs_triang|]. rewrite Rabs_Ropp, !Rabs_mult. pose proof (Rabs_pos a). pose proof (Rabs_pos b).
  pose proof (Rabs_pos (cos z - cos x)). pose proof (Rabs_pos (sin z - sin x)). nra.
Qed.

Definition l1 (d : vec) : R := Rabs (vx d) + Rabs (vy d) + Rabs (vz d).
Definition Rot3 (v : vec) : M33 := Rot_rpy (vx v) (vy v) (vz v).
Definition small (k : R) : Prop := Rabs k <= 1.
Lemma small_sin x : small (sin x). Proof. apply Rabs_le, SIN_bound. Qed.
Lemma small_cos x : small (cos x). Proof. apply Rabs_le, COS_bound. Qed.
Lemma small_mul a b : small a -> small b -> small (a * b).
Proof. unfold small. intros. rewrite Rabs_mult. pose proof (Rabs_pos a). pose proof (Rabs_pos b). nra. Qed.
Lemma small_opp a : small a -> small (- a). Proof. unfold small. now rewrite Rabs_Ropp. Qed.
Lemma small_0 : small 0. Proof. unfold small. rewrite Rabs_R0. lra. Qed.
Lemma small_1 : small 1. Proof. unfold small. rewrite Rabs_R1. lra. Qed.
Ltac small := repeat first [apply small_opp | apply small_mul | apply small_sin | apply small_cos | apply small_0 | apply small_1].
Lemma lin_bound (k1 k2 k3 : R) (d : vec) : small k1 -> small k2 -> small k3 -> Rabs (k1 * vx d + k2 * vy d + k3 * vz d) <= l1 d.
Proof.
  unfold small, l1. intros. destruct d as [x y z]. cbn [vx vy vz]. change (@num RA) with R in *.
  eapply Rle_trans; [apply Rabs_triang|]. apply Rplus_le_compat; [eapply Rle_trans; [apply Rabs_triang|]; apply Rplus_le_compat|]; rewrite Rabs_mult;
    match goal with |- ?a * Rabs ?b <= _ => pose proof (Rabs_pos b); nra end.
Qed.

Lemma rpy_wave b v d i : (b < 3)%nat -> exists a s c, (forall t, vcomp i (mvec (Rot3 (with_coord b t v)) d) = a * cos t + s * sin t + c) /\
  Rabs a <= l1 d /\ Rabs s <= l1 d.
Proof.
  intros Lb. unfold Rot3. destruct v as [r p y], d as [dx dy dz]. change (@num RA) with R in *.
  assert (X : forall a1 a2 a3 s1 s2 s3 c : R, small a1 -> small a2 -> small a3 -> small s1 -> small s2 -> small s3 ->
     (forall t, vcomp i (mvec (Rot_rpy (vx (with_coord b t (@V3 RA r p y))) (vy (with_coord b t (@V3 RA r p y))) (vz (with_coord b t (@V3 RA r p y)))) (@V3 RA dx dy dz))
        = (a1 * dx + a2 * dy + a3 * dz) * cos t + (s1 * dx + s2 * dy + s3 * dz) * sin t + c) ->
     exists a s c, (forall t, vcomp i (mvec (Rot_rpy (vx (with_coord b t (@V3 RA r p y))) (vy (with_coord b t (@V3 RA r p y))) (vz (with_coord b t (@V3 RA r p y)))) (@V3 RA dx dy dz)) = a * cos t + s * sin t + c) /\
       Rabs a <= l1 (@V3 RA dx dy dz) /\ Rabs s <= l1 (@V3 RA dx dy dz)).
  { intros a1 a2 a3 s1 s2 s3 c. intros. exists (a1 * dx + a2 * dy + a3 * dz), (s1 * dx + s2 * dy + s3 * dz), c. split; [assumption|]. split; apply (lin_bound _ _ _ (@V3 RA dx dy dz)); assumption. }
  destruct b as [|[|[|b]]]; [| | |lia]; (destruct i as [|[|i]]; [set (k := 0%nat)|set (k := 1%nat)|set (k := 2%nat)]).
  - apply (X 0 (- sin y) (cos y * sin p) 0 (cos y * sin p) (sin y) (cos y * cos p * dx)); small; intros t; cbn [with_coord vx vy vz]; rewrite Rot_rpy_is; unfold mvec; cbn [vcomp vx vy vz m11 m12 m13 m21 m22 m23 m31 m32 m33]; rnum; change (@num RA) with R in *; ring.
  - apply (X 0 (cos y) (sin y * sin p) 0 (sin y * sin p) (- cos y) (sin y * cos p * dx)); small; intros t; cbn [with_coord vx vy vz]; rewrite Rot_rpy_is; unfold mvec; cbn [vcomp vx vy vz m11 m12 m13 m21 m22 m23 m31 m32 m33]; rnum; change (@num RA) with R in *; ring.
  - apply (X 0 0 (cos p) 0 (cos p) 0 (- sin p * dx)); small; intros t; cbn [with_coord vx vy vz]; rewrite Rot_rpy_is; unfold mvec; cbn [vcomp vx vy vz m11 m12 m13 m21 m22 m23 m31 m32 m33]; rnum; change (@num RA) with R in *; ring.
  - apply (X (cos y) 0 0 0 (cos y * sin r) (cos y * cos r) (- sin y * cos r * dy + sin y * sin r * dz)); small; intros t; cbn [with_coord vx vy vz]; rewrite Rot_rpy_is; unfold mvec; cbn [vcomp vx vy vz m11 m12 m13 m21 m22 m23 m31 m32 m33]; rnum; change (@num RA) with R in *; ring.
  - apply (X (sin y) 0 0 0 (sin y * sin r) (sin y * cos r) (cos y * cos r * dy - cos y * sin r * dz)); small; intros t; cbn [with_coord vx vy vz]; rewrite Rot_rpy_is; unfold mvec; cbn [vcomp vx vy vz m11 m12 m13 m21 m22 m23 m31 m32 m33]; rnum; change (@num RA) with R in *; ring.
  - apply (X 0 (sin r) (cos r) (- (1)) 0 0 0); small; intros t; cbn [with_coord vx vy vz]; rewrite Rot_rpy_is; unfold mvec; cbn [vcomp vx vy vz m11 m12 m13 m21 m22 m23 m31 m32 m33]; rnum; change (@num RA) with R in *; ring.
  - apply (X (cos p) (sin p * sin r) (sin p * cos r) 0 (- cos r) (sin r) 0); small; intros t; cbn [with_coord vx vy vz]; rewrite Rot_rpy_is; unfold mvec; cbn [vcomp vx vy vz m11 m12 m13 m21 m22 m23 m31 m32 m33]; rnum; change (@num RA) with R in *; ring.
  - apply (X 0 (cos r) (- sin r) (cos p) (sin p * sin r) (sin p * cos r) 0); small; intros t; cbn [with_coord vx vy vz]; rewrite Rot_rpy_is; unfold mvec; cbn [vcomp vx vy vz m11 m12 m13 m21 m22 m23 m31 m32 m33]; rnum; change (@num RA) with R in *; ring.
  - apply (X 0 0 0 0 0 0 (- sin p * dx + cos p * sin r * dy + cos p * cos r * dz)); small; intros t; cbn [with_coord vx vy vz]; rewrite Rot_rpy_is; unfold mvec; cbn [vcomp vx vy vz m11 m12 m13 m21 m22 m23 m31 m32 m33]; rnum; change (@num RA) with R in *; ring.
Qed.

Lemma le_sqrt_sq (a b : R) : 0 <= b -> a * a <= b -> a <= sqrt b.
Proof. intros. destruct (Rle_dec a 0) as [L|L]; [pose proof (sqrt_pos b); lra|]. rewrite <- (sqrt_square a) by lra. now apply sqrt_le_1_alt. Qed.
Lemma l1_norm (d : vec) : l1 d <= 2 * sqrt (vx d * vx d + vy d * vy d + vz d * vz d).
Proof.
  unfold l1. destruct d as [x y z]. cbn [vx vy vz]. change (@num RA) with R in *.
  pose proof (Rabs_pos x). pose proof (Rabs_pos y). pose proof (Rabs_pos z).
  assert (forall a, a * a = Rabs a * Rabs a) as Q by (intros a; rewrite <- Rabs_mult; symmetry; apply Rabs_pos_eq; nra).
  rewrite (Q x), (Q y), (Q z). set (a := Rabs x) in *. set (b := Rabs y) in *. set (c := Rabs z) in *.
  assert ((a + b + c) / 2 <= sqrt (a * a + b * b + c * c)); [|lra]. apply le_sqrt_sq; pose proof (Rle_0_sqr (a - b)); pose proof (Rle_0_sqr (b - c)); pose proof (Rle_0_sqr (a - c)); unfold Rsqr in *; nra.
Qed.
Lemma rot_norm q (d : vec) : unit_q q -> let w := mvec (quat_mat q) d in vx w * vx w + vy w * vy w + vz w * vz w = vx d * vx d + vy d * vy d + vz d * vz d :> R.
Proof.
  intros H w. destruct (quat_rotation q H) as (_ & E & _). unfold w. destruct (quat_mat q) as [a11 a12 a13 a21 a22 a23 a31 a32 a33].
  unfold mmul, mtr, mid in E. cbn [m11 m12 m13 m21 m22 m23 m31 m32 m33] in E. injection E as E1 E2 E3 E4 E5 E6 E7 E8 E9.
  unfold mvec. destruct d as [x y z]. cbn [vx vy vz m11 m12 m13 m21 m22 m23 m31 m32 m33]. change (@num RA) with R in *.
  transitivity ((a11 * a11 + a21 * a21 + a31 * a31) * (x * x) + (a12 * a12 + a22 * a22 + a32 * a32) * (y * y) + (a13 * a13 + a23 * a23 + a33 * a33) * (z * z)
    + 2 * (a11 * a12 + a21 * a22 + a31 * a32) * (x * y) + 2 * (a11 * a13 + a21 * a23 + a31 * a33) * (x * z) + 2 * (a12 * a13 + a22 * a23 + a32 * a33) * (y * z)); [rnum; ring|].
  rewrite E1, E2, E3, E5, E6, E9. ring.
Qed.

(** the angles read back from an orientation turn it like the angles it was made from *)
Lemma read_back (v : vec) : - (PI / 2) < vy v < PI / 2 -> Rabs (sin (vy v)) < 99999 / 100000 ->
  let g := getRPY (from_rpy v) in
  sin (vx g) = sin (vx v) /\ cos (vx g) = cos (vx v) /\ vy g = vy v /\ sin (vz g) = sin (vz v) /\ cos (vz g) = cos (vz v).
Proof.
  intros Hp Hs g. destruct v as [r p y]. cbn [vx vy vz] in *. unfold g, from_rpy in *. cbn [vx vy vz] in *. change (@num RA) with R in *.
  pose proof (rpy_unit r p y) as U. pose proof (rpy_mat r p y) as E. set (q := @setFromRPY RA r p y) in *.
  destruct (quat_mat_row _ U) as (E31 & _). rewrite E in E31. rewrite Rot_rpy_is in E31. cbn [m31] in E31.
  assert (Es : 2 * (qw q * qy q - qx q * qz q) = sin p) by lra.
  assert (Aw : away q) by (unfold away; now rewrite Es).
  pose proof (rpy_of_away q U Aw) as B. cbv zeta in B. rewrite rpy_mat, E, !Rot_rpy_is in B.
  assert (Ep : vy (getRPY q) = p) by (rewrite getRPY_away by auto; cbn [vy]; rewrite Es; apply asin_sin; lra).
  rewrite Ep in B. assert (C : 0 < cos p) by (apply cos_gt_0; lra). injection B as B11 _ _ B21 _ _ B32 B33.
  repeat split; auto; apply (Rmult_eq_reg_l (cos p)); try lra.
Qed.

Lemma Rot3_turn (g v : vec) b (e : R) : (b < 3)%nat -> sin (vx g) = sin (vx v) -> cos (vx g) = cos (vx v) -> vy g = vy v -> sin (vz g) = sin (vz v) -> cos (vz g) = cos (vz v) ->
  Rot3 (v_add_at b e g) = Rot3 (with_coord b (coord b v + e) v).
Proof.
  intros Lb H1 H2 H3 H4 H5. unfold Rot3, v_add_at. destruct g as [gr gp gy], v as [r p y]. cbn [vx vy vz] in *. change (@num RA) with R in *. subst gp.
  rewrite !Rot_rpy_is. destruct b as [|[|[|b]]]; try lia; cbn [with_coord coord vx vy vz]; rnum; rewrite ?sin_plus, ?cos_plus, ?H1, ?H2, ?H4, ?H5; reflexivity.
Qed.

Lemma fd_eps_R : @fd_eps RA = 1 / 10000000.
Proof. unfold fd_eps. rnum. unfold Q2R. simpl. lra. Qed.
Lemma with_coord_same b v : with_coord b (coord b v) v = v.
Proof. destruct v as [x y z], b as [|[|b]]; reflexivity. Qed.
(** position row [i] of the base rotation column [b] *)
Lemma base_turn_error (pos v : vec) (D : pose) b i rt : (b < 3)%nat -> (i < 3)%nat -> unit_q (rotation D) ->
  - (PI / 2) < vy v < PI / 2 -> Rabs (sin (vy v)) < 99999 / 100000 ->
  let B := mkPose pos (from_rpy v) in let E := pose_transform B D in
  pose_transform (pose_inverse B) E = D ->
  exists d, derivable_pt_lim (fun t => reported rt i (pose_transform (mkPose pos (from_rpy (with_coord b t v))) D)) (coord b v) d /\
    Rabs (nth i (base_quotient rt b B E) 0 - d) <= 4 / 10000000 * dist3 (position E) (position B).
Proof.
  intros Lb Li UD Hp Hs B E HD. destruct (rpy_wave b v (position D) i Lb) as (a & w & c & HW & Ha & Hw).
  assert (W : with_coord b (coord b v) v = v) by (apply with_coord_same).
  assert (POS : forall u, position (pose_transform (mkPose pos (from_rpy u)) D) = v_add (mvec (Rot3 u) (position D)) pos).
  { intros u. cbn [pose_transform position rotation]. unfold from_rpy. rewrite quat_mat_rot by apply rpy_unit. now rewrite rpy_mat. }
  assert (RP : forall P : pose, reported rt i P = vcomp i (position P)).
  { intros P. unfold reported, link_row. destruct i as [|[|[|i]]]; [reflexivity..|lia]. }
  assert (VA : forall x y : vec, vcomp i (v_add x y) = vcomp i x + vcomp i y).
  { intros x y. destruct i as [|[|i']]; cbn [vcomp v_add vx vy vz]; rnum; reflexivity. }
  exists (w * cos (coord b v) - a * sin (coord b v)). split.
  - apply (dext (fun t => a * cos t + w * sin t + (c + vcomp i pos))); [|apply wave_derive].
    intros t. rewrite RP, POS, VA, HW. ring.
  - destruct (read_back v Hp Hs) as (R1 & R2 & R3 & R4 & R5).
    assert (T : base_turned b B E = pose_transform (mkPose pos (from_rpy (v_add_at b fd_eps (getRPY (from_rpy v))))) D).
    { unfold base_turned. rewrite HD. reflexivity. }
    assert (N : nth i (base_quotient rt b B E) 0 = (vcomp i (position (base_turned b B E)) - vcomp i (position E)) / (1 / 10000000)).
    { unfold base_quotient, link_row. set (X := base_turned b B E). destruct i as [|[|[|i']]]; try lia; cbn [app combine map nth fst snd vcomp]; rnum;
      rewrite fd_eps_R; reflexivity. }
    rewrite N, T. unfold E, B. rewrite !POS. rewrite (Rot3_turn _ v b (@fd_eps RA)) by auto. rewrite fd_eps_R. rewrite !VA, HW.
    rewrite <- W at 3. rewrite HW.
    replace (a * cos (coord b v + 1 / 10000000) + w * sin (coord b v + 1 / 10000000) + c + vcomp i pos - (a * cos (coord b v) + w * sin (coord b v) + c + vcomp i pos))
      with ((a * cos (coord b v + 1 / 10000000) + w * sin (coord b v + 1 / 10000000) + c) - (a * cos (coord b v) + w * sin (coord b v) + c)) by ring.
    eapply Rle_trans; [apply wave_quotient; lra|]. cbn [position].
    assert (ND : dist3 (v_add (mvec (Rot3 v) (position D)) pos) pos = sqrt (vx (position D) * vx (position D) + vy (position D) * vy (position D) + vz (position D) * vz (position D))).
    { unfold dist3. f_equal. unfold Rot3. rewrite <- rpy_mat. rewrite <- (rot_norm _ (position D) (rpy_unit (vx v) (vy v) (vz v))). cbv zeta.
      unfold v_add. cbn [vx vy vz]. rnum. ring. }
    rewrite ND. pose proof (l1_norm (position D)). lra.
Qed.

(** ** the constant used for pi/2 *)
Lemma fact_INR n : INR (fact (S n)) = INR (S n) * INR (fact n).
Proof. rewrite fact_simpl, mult_INR. reflexivity. Qed.
Lemma cos_poly (a : R) : -2 <= a <= 2 -> 1 - a * a / 2 + a * a * a * a / 24 - a * a * a * a * a * a / 720 <= cos a <= 1 - a * a / 2 + a * a * a * a / 24 - a * a * a * a * a * a / 720 + a * a * a * a * a * a * a * a / 40320.
Proof.
  intros [G1 G2]. destruct (pre_cos_bound a 1 G1 G2) as [H1 H2].
  unfold cos_approx, cos_term, sum_f_R0 in H1, H2. cbn [Nat.mul Nat.add] in H1, H2. rewrite ?fact_INR in H1, H2. cbn [fact] in H1, H2. cbn [pow] in H1, H2.
  rewrite ?mult_INR in *. change (INR 1) with 1 in *. rewrite ?S_INR in H1, H2. change (INR 0) with 0 in *.
  split; [eapply Rle_trans; [|exact H1]|eapply Rle_trans; [exact H2|]]; apply Req_le. all: simpl INR; field.
Qed.
Lemma cos_L (a : R) : a = 157079632679489661923 / 100000000000000000000 -> Rabs (cos a) <= 1 / 1000.
Proof.
  intros E. destruct (cos_poly a ltac:(lra)) as [H1 H2]. apply Rabs_le. rewrite E in H1 at 1 2 3 4 5 6 7 8 9 10 11 12. rewrite E in H2 at 2 3 4 5 6 7 8 9 10 11 12 13 14 15 16 17 18 19 20 21. split; lra.
Qed.
