(** What single columns of Jacobians can be (lemmas for C113 and C114). *)
From Coq Require Import String List Arith Lia Bool Permutation Classical Reals Lra.
From Verif Require Import Base Num Pose DataStructure Urdf Kin Wrapper Spec_Robot Spec_Hist Spec_Load Spec_Jac Spec_Mass Spec_Rot Spec_Deriv Spec_Body Spec_Reach Spec_Column RealArith
  Pf_Base Pf_Data Inv Pf_FK Pf_Frame Pf_Rp Rep Pf_Ops Pf_Name Pf_Ctor Pf_Reach Pf_Jac Pf_Safe Pf_Pose Pf_Local Pf_Hist Pf_Wrap Pf_Mass Pf_Wrap2 Pf_Real Pf_Rot Pf_Unit Pf_Rpy Pf_Chain Pf_Deriv Pf_JacD Pf_Body Pf_Rigid Pf_Reach2.
Import ListNotations.
Local Open Scope m_scope.
Local Open Scope R_scope.

Lemma q_column (q : quat) (w : vec) : unit_q q ->
  let d := q_derivative (q_inverse q) w in
  qx d * qx q + qy d * qy q + qz d * qz q + qw d * qw q = 0 /\
  qx d * qx d + qy d * qy d + qz d * qz d + qw d * qw d = (vx w * vx w + vy w * vy w + vz w * vz w) / 4.
Proof.
  intros U d. subst d. destruct q as [x y z s], w as [a b c]. unfold q_inverse. rewrite qn_norm2. unfold unit_q in U. rewrite U. unfold qn in U. unfold q_derivative. cbn [qx qy qz qw vx vy vz] in *. rnum. split; [field|].
  transitivity ((a * a + b * b + c * c) / 4 * (s * s + x * x + y * y + z * z)); [field|]. rewrite U. field.
Qed.

Lemma pcol_zeros J c n : column c J = zeros n -> pcol J c = v_clear.
Proof. intros H. unfold pcol. rewrite !entry_column, H, !nth_zeros. unfold v_clear. f_equal; symmetry; apply n0_R. Qed.
Lemma qcol_zeros J c n : column c J = zeros n -> qcol J c = @Q4 RA 0 0 0 0.
Proof. intros H. unfold qcol. rewrite !entry_column, H, !nth_zeros. reflexivity. Qed.
Lemma pcol_geometric J c rt j E C : column c J = geometric_column rt j E C ->
  pcol J c = match uj_type j with PRISMATIC => q_rot (rotation C) (uj_axis j) | _ => cross_product (q_rot (rotation C) (uj_axis j)) (v_sub (position E) (position C)) end.
Proof. intros H. unfold pcol. rewrite !entry_column, H. unfold geometric_column. destruct (uj_type j); unfold v_list; apply v_eq; reflexivity. Qed.
Lemma qcol_geometric J c j E C : column c J = geometric_column XYZW j E C ->
  qcol J c = match uj_type j with PRISMATIC => @Q4 RA 0 0 0 0 | _ => q_derivative (q_inverse (rotation E)) (q_rot (rotation C) (uj_axis j)) end.
Proof.
  intros H. unfold qcol. rewrite !entry_column, H. unfold geometric_column. destruct (uj_type j); unfold v_list, q_list; try (apply q_eq; reflexivity).
  cbn [app nth jac_rows]. f_equal; apply nth_zeros.
Qed.

Lemma cross_len (u v : vec) : vlen u = 1 -> vlen (cross_product u v) <= vlen v.
Proof.
  intros U. assert (UU : vdot u u = 1) by (rewrite <- vlen_sq, U; ring). apply vlen_le; [apply vlen_nonneg|]. rewrite vlen_sq.
  assert (E : vdot (cross_product u v) (cross_product u v) = vdot u u * vdot v v - vdot u v * vdot u v).
  { destruct u as [a b c], v as [x y z]. unfold vdot, cross_product. cbn [vx vy vz]. rnum. ring. }
  rewrite E, UU. nra.
Qed.
Lemma rigid_cross (w a b c : vec) : vdot (v_sub a b) (v_sub (cross_product w (v_sub a c)) (cross_product w (v_sub b c))) = 0.
Proof. destruct w as [w1 w2 w3], a as [a1 a2 a3], b as [b1 b2 b3], c as [c1 c2 c3]. unfold vdot, v_sub, cross_product. cbn [vx vy vz]. rnum. ring. Qed.
Lemma vdot_same (a b c : vec) : vdot (v_sub a b) (v_sub c c) = 0.
Proof. destruct a as [a1 a2 a3], b as [b1 b2 b3], c as [c1 c2 c3]. unfold vdot, v_sub. cbn [vx vy vz]. rnum. ring. Qed.

Section Columns.
Context (tinyxml : string -> option (list xml)) (text : string) (R : @Robot RA) (root : string) (sorted : list (string * option (@Inertial RA))) (jsorted : list (@UJoint RA)) (ops : list (@op RA)) (m : @KM RA).
Context (Hr : reached tinyxml text R root sorted jsorted ops m) (Hc : clean ops = true) (Hu : unit_axes R) (Hb : unit_bases ops).
Notation s := (after sorted jsorted ops).

Lemma observed_pose i n m1 P : nth_error (get_link_names m) i = Some n -> get_link_pose i m = (m1, Ok P) -> pose_at R root jsorted s n P.
Proof.
  intros En X. destruct (reached_Rep _ _ _ _ _ _ _ _ Hr) as [HR HC]. specialize (HC Hc). assert (G : Good m) by (split; auto; apply HR).
  rewrite (rep_all_links _ _ _ _ _ _ _ _ HR) in En. destruct (get_link_pose_ok m i m1 P G X) as [Y _]. exact (rep_pose_of' _ _ _ _ _ _ _ _ HR i n P En Y).
Qed.
Lemma observed_unit n P : pose_at R root jsorted s n P -> unit_q (rotation P).
Proof. intros H. exact (fk_unit _ _ _ _ _ _ _ (loaded_axes_ok _ _ _ _ (proj1 Hr) Hu) (after_ok sorted jsorted ops) (after_base_unit sorted jsorted ops Hb) H). Qed.
Lemma computed_column i n jids rt wb m' J c k j : nth_error (get_link_names m) i = Some n -> (forall k, In k jids -> (k < length (get_joint_names m))%nat) ->
  get_jacobian i jids rt wb m = (m', Ok J) -> nth_error jids c = Some k -> nth_error jsorted k = Some j ->
  exists P, pose_at R root jsorted s n P /\
  (~ carries (r_joints R) (as_added s) j n -> column c J = zeros (jac_rows rt)) /\
  (carries (r_joints R) (as_added s) j n -> exists C, pose_at R root jsorted s (uj_child j) C /\ column c J = geometric_column rt j P C).
Proof.
  intros En Hk X Ec Ej. destruct (reached_Rep _ _ _ _ _ _ _ _ Hr) as [HR HC]. specialize (HC Hc). assert (G : Good m) by (split; auto; apply HR).
  pose proof Hk as Hk'. rewrite (rep_joint_count _ _ _ _ _ _ _ _ HR) in Hk'.
  destruct (jacobian_is _ _ _ _ _ _ _ _ _ _ _ _ _ _ HR G Hk' X) as (n' & En' & (_ & E & HE & HJ & _)).
  assert (n' = n) by (rewrite (rep_all_links _ _ _ _ _ _ _ _ HR) in En; congruence). subst n'. exists E. split; [exact HE|]. exact (HJ c k j Ec Ej).
Qed.
Lemma observed_column i n jids rt wb m' J c k j m1 P : nth_error (get_link_names m) i = Some n -> (forall k, In k jids -> (k < length (get_joint_names m))%nat) ->
  get_jacobian i jids rt wb m = (m', Ok J) -> get_link_pose i m = (m1, Ok P) -> nth_error jids c = Some k -> nth_error jsorted k = Some j ->
  (~ carries (r_joints R) (as_added s) j n -> column c J = zeros (jac_rows rt)) /\
  (carries (r_joints R) (as_added s) j n -> exists C, pose_at R root jsorted s (uj_child j) C /\ column c J = geometric_column rt j P C).
Proof.
  intros En Hk X XP Ec Ej. destruct (reached_Rep _ _ _ _ _ _ _ _ Hr) as [HR _]. destruct (computed_column i n jids rt wb m' J c k j En Hk X Ec Ej) as (E & HE & HJ).
  assert (E = P) by exact (rep_pose_det _ _ _ _ _ _ _ _ HR n _ _ HE (observed_pose i n m1 P En XP)). subst E. exact HJ.
Qed.
Lemma movable_axis k j : nth_error jsorted k = Some j -> In j (r_joints R) /\ (uj_type j = PRISMATIC \/ unit_vector (uj_axis j) /\ (uj_type j = REVOLUTE \/ uj_type j = CONTINUOUS)).
Proof.
  intros Ej. destruct (reached_Rep _ _ _ _ _ _ _ _ Hr) as [HR _]. destruct (proj1 (rep_jsorted _ _ _ _ _ _ _ _ HR j) (nth_error_In _ _ Ej)) as [I Mv].
  split; [exact I|]. destruct (uj_type j) eqn:T; try discriminate Mv; auto; right; (split; [apply (Hu j I); auto | auto]).
Qed.

Lemma column_quaternion i n jids wb m' J c k j m1 P : nth_error (get_link_names m) i = Some n -> (forall k, In k jids -> (k < length (get_joint_names m))%nat) ->
  get_jacobian i jids XYZW wb m = (m', Ok J) -> get_link_pose i m = (m1, Ok P) -> nth_error jids c = Some k -> nth_error jsorted k = Some j ->
  let d := qcol J c in let o := rotation P in
  qdot d o = 0 /\
  ((uj_type j = PRISMATIC \/ ~ carries (r_joints R) (as_added s) j n) -> d = @Q4 RA 0 0 0 0) /\
  (uj_type j <> PRISMATIC -> carries (r_joints R) (as_added s) j n -> qdot d d = 1 / 4).
Proof.
  intros En Hk X XP Ec Ej d o. unfold qdot. destruct (observed_column i n jids XYZW wb m' J c k j m1 P En Hk X XP Ec Ej) as [H0 H1].
  pose proof (observed_pose i n m1 P En XP) as HP. pose proof (observed_unit n P HP) as UP.
  destruct (movable_axis k j Ej) as [I A]. destruct (classic (carries (r_joints R) (as_added s) j n)) as [Y|N].
  - destruct (H1 Y) as (C & HC & EC). pose proof (observed_unit _ _ HC) as UC. pose proof (qcol_geometric J c j P C EC) as ED. fold d in ED. rewrite ED.
    assert (UW : unit_vector (uj_axis j) -> vx (q_rot (rotation C) (uj_axis j)) * vx (q_rot (rotation C) (uj_axis j)) + vy (q_rot (rotation C) (uj_axis j)) * vy (q_rot (rotation C) (uj_axis j)) + vz (q_rot (rotation C) (uj_axis j)) * vz (q_rot (rotation C) (uj_axis j)) = 1).
    { intros U. pose proof (vlen_rot (rotation C) (uj_axis j) UC) as L. pose proof (vlen_sq (q_rot (rotation C) (uj_axis j))) as L1. rewrite L, vlen_sq in L1. unfold vdot in L1. unfold unit_vector in U. change (@num RA) with Rdefinitions.R in *. lra. }
    destruct (q_column o (q_rot (rotation C) (uj_axis j)) UP) as [T1 T2]. cbv zeta in T1, T2.
    destruct A as [T|[U T]].
    + rewrite T. cbn [qx qy qz qw]. split; [ring|]. split; [reflexivity | intros F; now destruct F].
    + rewrite (UW U) in T2. split; [destruct T as [T|T]; rewrite T; exact T1|]. split; [intros [F|F]; [destruct T; congruence | contradiction]|].
      intros _ _. destruct T as [T|T]; rewrite T; exact T2.
  - pose proof (qcol_zeros J c _ (H0 N)) as ED. fold d in ED. rewrite ED. cbn [qx qy qz qw]. split; [ring|]. split; [reflexivity | contradiction].
Qed.

Lemma columns_rigid i1 i2 n1 n2 jids1 jids2 rt1 rt2 wb1 wb2 m1 m2 m3 m4 J1 J2 c1 c2 k j P1 P2 :
  nth_error (get_link_names m) i1 = Some n1 -> nth_error (get_link_names m) i2 = Some n2 ->
  (forall k, In k jids1 -> (k < length (get_joint_names m))%nat) -> (forall k, In k jids2 -> (k < length (get_joint_names m))%nat) ->
  get_jacobian i1 jids1 rt1 wb1 m = (m1, Ok J1) -> get_jacobian i2 jids2 rt2 wb2 m = (m2, Ok J2) -> get_link_pose i1 m = (m3, Ok P1) -> get_link_pose i2 m = (m4, Ok P2) ->
  nth_error jids1 c1 = Some k -> nth_error jids2 c2 = Some k -> nth_error jsorted k = Some j ->
  (carries (r_joints R) (as_added s) j n1 <-> carries (r_joints R) (as_added s) j n2) ->
  vdot (v_sub (position P1) (position P2)) (v_sub (pcol J1 c1) (pcol J2 c2)) = 0.
Proof.
  intros N1 N2 K1 K2 X1 X2 Y1 Y2 C1 C2 Ej Hcc. destruct (reached_Rep _ _ _ _ _ _ _ _ Hr) as [HR _].
  destruct (observed_column _ _ _ _ _ _ _ _ _ _ _ _ N1 K1 X1 Y1 C1 Ej) as [A0 A1]. destruct (observed_column _ _ _ _ _ _ _ _ _ _ _ _ N2 K2 X2 Y2 C2 Ej) as [B0 B1].
  destruct (classic (carries (r_joints R) (as_added s) j n1)) as [Y|N].
  - destruct (A1 Y) as (D & HD & E1). destruct (B1 (proj1 Hcc Y)) as (D' & HD' & E2). assert (D' = D) by exact (rep_pose_det _ _ _ _ _ _ _ _ HR _ _ _ HD' HD). subst D'.
    rewrite (pcol_geometric _ _ _ _ _ _ E1), (pcol_geometric _ _ _ _ _ _ E2). destruct (uj_type j); first [apply rigid_cross | apply vdot_same].
  - assert (N' : ~ carries (r_joints R) (as_added s) j n2) by tauto. rewrite (pcol_zeros _ _ _ (A0 N)), (pcol_zeros _ _ _ (B0 N')). apply vdot_same.
Qed.

Lemma column_bounded B i n jids rt wb m' J c k j g : nth_error (get_link_names m) i = Some n -> (forall k, In k jids -> (k < length (get_joint_names m))%nat) ->
  (forall i x, nth_error jsorted i = Some x -> Rabs (nth i (as_angles s) n0) <= B (uj_name x)) ->
  get_jacobian i jids rt wb m = (m', Ok J) -> nth_error jids c = Some k -> nth_error jsorted k = Some j ->
  gain (r_joints R) (as_added s) B n j g -> vlen (pcol J c) <= g.
Proof.
  intros En Hk HB X Ec Ej Hg. destruct (computed_column i n jids rt wb m' J c k j En Hk X Ec Ej) as (P & HP & H0 & H1).
  destruct (reached_Rep _ _ _ _ _ _ _ _ Hr) as [HR _]. pose proof (jn_nodup _ _ _ _ _ _ _ _ HR) as JN. pose proof (rep_angles_length _ _ _ _ _ _ _ _ HR) as LA.
  pose proof (loaded_axes_ok _ _ _ _ (proj1 Hr) Hu) as AX. pose proof (after_ok sorted jsorted ops) as AD. pose proof (after_base_unit sorted jsorted ops Hb) as UB.
  destruct (movable_axis k j Ej) as [I A].
  destruct (classic (carries (r_joints R) (as_added s) j n)) as [Y|N].
  2:{ rewrite (pcol_zeros _ _ _ (H0 N)), vlen_zero. eapply gain_nonneg; eauto. }
  destruct (H1 Y) as (C & HC & EC). pose proof (observed_unit _ _ HC) as UC. rewrite (pcol_geometric _ _ _ _ _ _ EC).
  destruct Hg as [Nc|T|L T HL]; [contradiction| |].
  - rewrite T, vlen_rot by exact UC. apply Rle_refl.
  - destruct A as [T'|[U T']]; [contradiction|].
    assert (LE : vlen (v_sub (position P) (position C)) <= L).
    { assert (HB' : forall j', In j' (r_joints R) -> uj_type j' = PRISMATIC -> Rabs (by_name (jnames jsorted) (as_angles s) (uj_name j')) <= Rabs (B (uj_name j'))).
      { intros j' I' Tj. assert (Mj : In j' jsorted) by (apply (rep_jsorted _ _ _ _ _ _ _ _ HR); split; [exact I' | now rewrite Tj]). apply In_nth_error in Mj. destruct Mj as (i' & Ei).
        rewrite (by_name_nth _ _ i' (uj_name j') JN LA) by (unfold jnames; rewrite nth_error_map', Ei; reflexivity). pose proof (HB i' j' Ei) as Q. pose proof (Rabs_pos (nth i' (as_angles s) n0)). rewrite (Rabs_pos_eq (B (uj_name j'))) by lra. exact Q. }
      destruct (lever _ _ _ _ _ _ _ B n L AX AD UB HB' HC HL) as (P2 & HP2 & LE). now rewrite (rep_pose_det _ _ _ _ _ _ _ _ HR _ _ _ HP HP2). }
    assert (W : vlen (q_rot (rotation C) (uj_axis j)) = 1) by (rewrite vlen_rot by exact UC; unfold vlen, vdot; unfold unit_vector in U; rewrite <- sqrt_1; f_equal; exact U).
    pose proof (cross_len _ (v_sub (position P) (position C)) W) as Q. destruct T' as [T'|T']; rewrite T'; eapply Rle_trans; eauto.
Qed.
End Columns.
