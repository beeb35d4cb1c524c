(** Distance gradients: the base does not matter, nor do joints that carry both links or neither (lemmas for C116, C117). *)
From Coq Require Import String List Arith Lia Bool Permutation Classical Reals Lra.
From Verif Require Import Base Num Pose DataStructure Urdf Kin Wrapper Spec_Robot Spec_Hist Spec_Load Spec_Jac Spec_Mass Spec_Rot Spec_Deriv Spec_Body Spec_Reach Spec_Column RealArith
  Pf_Base Pf_Data Inv Pf_FK Pf_Frame Pf_Rp Rep Pf_Ops Pf_Name Pf_Ctor Pf_Reach Pf_Jac Pf_Safe Pf_Pose Pf_Local Pf_Hist Pf_Wrap Pf_Mass Pf_Wrap2 Pf_Real Pf_Rot Pf_Unit Pf_Rpy Pf_Chain Pf_Deriv Pf_JacD Pf_Body Pf_ComD Pf_BaseD Pf_Rigid Pf_Reach2 Pf_Column Pf_BaseTurn.
Import ListNotations.
Local Open Scope m_scope.
Local Open Scope R_scope.

Lemma mvec_dot q (a b : vec) : unit_q q -> vdot (mvec (quat_mat q) a) (mvec (quat_mat q) b) = vdot a b.
Proof. intros U. rewrite vdot_mvec, <- mvec_mmul. destruct (quat_rotation _ U) as (_ & O & _). now rewrite O, mvec_id. Qed.
Lemma mvec_sub M (a b : vec) : v_sub (mvec M a) (mvec M b) = mvec M (v_sub a b).
Proof. unfold v_sub, mvec. cbn [vx vy vz]. rnum. apply v_eq; cbn [vx vy vz]; rnum; ring. Qed.
Lemma sq_norm_dot (a : vec) : sq_norm a = vdot a a.
Proof. reflexivity. Qed.

(** one entry of a gradient row as an inner product *)
Lemma grad_entry_dot nj (J1 J2 : @mat RA) d c : has_shape 3 nj J1 -> has_shape 3 nj J2 -> (c < nj)%nat ->
  nth c (grad_row nj J1 J2 d) 0 = 2 * vdot (v_sub (pcol J1 c) (pcol J2 c)) d.
Proof. intros S1 S2 L. rewrite (grad_entry nj J1 J2 d c S1 S2 L). unfold vdot, v_sub, pcol. cbn [vx vy vz]. rnum. reflexivity. Qed.

Lemma grad_entry_swap (a b p q : vec) : vdot (v_sub a b) (v_sub p q) = vdot (v_sub b a) (v_sub q p).
Proof. unfold vdot, v_sub. cbn [vx vy vz]. rnum. ring. Qed.

Lemma cross_pair (w p1 p2 c : vec) : vdot (v_sub (cross_product w (v_sub p1 c)) (cross_product w (v_sub p2 c))) (v_sub p1 p2) = 0.
Proof. unfold vdot, v_sub, cross_product. cbn [vx vy vz]. rnum. ring. Qed.
Lemma same_pair (w d : vec) : vdot (v_sub w w) d = 0.
Proof. unfold vdot, v_sub. cbn [vx vy vz]. rnum. ring. Qed.

Lemma assign_prefix (jids : list nat) (q b v : list (@num RA)) : length q = length jids -> assign jids (q ++ b) v = assign jids q v.
Proof.
  intros L. unfold assign. assert (E : combine jids (q ++ b) = combine jids q); [|now rewrite E].
  revert q L. induction jids as [|k jids IH]; intros [|x q] L; try discriminate L; [destruct b; reflexivity|]. cbn [app combine]. f_equal. apply IH. now injection L.
Qed.

Lemma pose6_unit (b : list (@num RA)) : unit_q (rotation (pose6 b)).
Proof. unfold pose6. apply rpy_unit. Qed.
Lemma based_set (m : @KM RA) B : exists m1, set_base_pose B m = (m1, Ok tt).
Proof. eexists. reflexivity. Qed.
Lemma nth_error_ext {X} (l l' : list X) : (forall i, nth_error l i = nth_error l' i) -> l = l'.
Proof. revert l'. induction l as [|x l IH]; intros [|y l'] H; [reflexivity | discriminate (H 0%nat) | discriminate (H 0%nat)|]. pose proof (H 0%nat) as E. injection E as ->. f_equal. apply IH. intros i. exact (H (S i)). Qed.

Section Pair.
Context (R : @Robot RA) (root : string) (sorted : list (string * option (@Inertial RA))) (jsorted : list (@UJoint RA)) (ms : list (string * @Inertial RA)) (mass : @num RA).
Context (s : @AState RA) (AX : axes_ok (r_joints R)) (AD : added_ok (as_added s)).
Notation at_base B := (mkAS (as_added s) (as_angles s) B).
Notation s0 := (at_base pose_clear).

(** the position rows of a joint column with the base at the origin *)
Definition clear_column (n : string) (j : @UJoint RA) (V : vec) : Prop :=
  (~ carries (r_joints R) (as_added s) j n /\ V = v_clear) \/
  (exists E C, pose_at R root jsorted s0 n E /\ pose_at R root jsorted s0 (uj_child j) C /\ carries (r_joints R) (as_added s) j n /\
     V = match uj_type j with PRISMATIC => q_rot (rotation C) (uj_axis j) | _ => cross_product (q_rot (rotation C) (uj_axis j)) (v_sub (position E) (position C)) end).

Lemma clear_column_det m0 n j V V' : Rep R root sorted jsorted ms mass s0 m0 -> clear_column n j V -> clear_column n j V' -> V = V'.
Proof.
  intros HR [(N & ->)|(E & C & HE & HC & Y & ->)] [(N' & ->)|(E' & C' & HE' & HC' & Y' & ->)]; try reflexivity; try contradiction.
  now rewrite (rep_pose_det _ _ _ _ _ _ _ _ HR n _ _ HE HE'), (rep_pose_det _ _ _ _ _ _ _ _ HR _ _ _ HC HC').
Qed.

Lemma pose_back B n P : unit_q (rotation B) -> pose_at R root jsorted (at_base B) n P -> exists P0, pose_at R root jsorted s0 n P0 /\ P = pose_transform B P0.
Proof. intros U H. unfold pose_at in *. cbn [as_added as_angles as_base] in *. apply fk_base_inv; auto; [now apply axes_ok_nonzero | now apply unit_pos]. Qed.

Lemma moved_offset B (P P' : pose) : unit_q (rotation B) -> v_sub (position (pose_transform B P)) (position (pose_transform B P')) = mvec (quat_mat (rotation B)) (v_sub (position P) (position P')).
Proof. intros U. rewrite !moved_position by exact U. apply moved_diff. Qed.

Lemma column_back B m1 n jids wb J c k j : Rep R root sorted jsorted ms mass (at_base B) m1 -> unit_q (rotation B) -> is_jacobian R root jsorted (at_base B) IGNORE n jids wb J -> nth_error jids c = Some k -> nth_error jsorted k = Some j ->
  exists V, clear_column n j V /\ pcol J c = mvec (quat_mat (rotation B)) V.
Proof.
  intros HR UB (_ & E & HE & HJ & _) Ek Ej. destruct (HJ c k j Ek Ej) as [Z G]. cbn [as_added] in Z, G.
  destruct (classic (carries (r_joints R) (as_added s) j n)) as [Y|N].
  - destruct (G Y) as (C & HC & K). destruct (pose_back B n E UB HE) as (E0 & HE0 & ->). destruct (pose_back B _ C UB HC) as (C0 & HC0 & ->).
    eexists. split; [right; exists E0, C0; split; [exact HE0|]; split; [exact HC0|]; split; [exact Y|reflexivity]|].
    rewrite (pcol_geometric _ _ _ _ _ _ K).
    assert (W : q_rot (rotation (pose_transform B C0)) (uj_axis j) = mvec (quat_mat (rotation B)) (q_rot (rotation C0) (uj_axis j))).
    { pose proof (fk_unit _ _ _ _ _ _ _ AX AD (unit_clear : unit_q (rotation pose_clear)) HC0) as UC.
      cbn [pose_transform rotation]. rewrite q_rot_mul by (now apply unit_pos). apply quat_mat_rot. exact UB. }
    rewrite W, moved_offset, mvec_cross by exact UB. destruct (uj_type j); reflexivity.
  - exists v_clear. split; [left; auto|]. now rewrite (pcol_zeros _ _ _ (Z N)), mvec_clear.
Qed.

(** the entries of a gradient row with the base anywhere, from the poses with the base at the origin *)
Lemma gradient_base m0 B1 B2 m1 m2 e1 e2 jids wb g1 g2 c k j : Rep R root sorted jsorted ms mass s0 m0 ->
  Rep R root sorted jsorted ms mass (at_base B1) m1 -> Rep R root sorted jsorted ms mass (at_base B2) m2 -> unit_q (rotation B1) -> unit_q (rotation B2) ->
  grad_at R root sorted jsorted (at_base B1) jids wb e1 e2 g1 -> grad_at R root sorted jsorted (at_base B2) jids wb e1 e2 g2 ->
  nth_error jids c = Some k -> nth_error jsorted k = Some j -> nth c g1 0 = nth c g2 0.
Proof.
  intros HR0 HR1 HR2 U1 U2 (p1 & p2 & J1 & J2 & (n1 & N1 & P1) & (n2 & N2 & P2) & (n1' & N1' & I1) & (n2' & N2' & I2) & ->)
    (q1 & q2 & K1 & K2 & (x1 & X1 & Q1) & (x2 & X2 & Q2) & (x1' & X1' & L1) & (x2' & X2' & L2) & ->) Ek Ej.
  pose proof (nth_error_lt _ _ _ Ek) as Lc.
  unfold all_links in *. cbn [as_added] in *.
  assert (n1' = n1) by congruence. assert (n2' = n2) by congruence. assert (x1 = n1) by congruence. assert (x2 = n2) by congruence. assert (x1' = n1) by congruence. assert (x2' = n2) by congruence. subst.
  rewrite !grad_entry_dot by (try apply I1; try apply I2; try apply L1; try apply L2; lia).
  destruct (column_back B1 m1 n1 jids wb J1 c k j HR1 U1 I1 Ek Ej) as (V1 & HV1 & ->). destruct (column_back B1 m1 n2 jids wb J2 c k j HR1 U1 I2 Ek Ej) as (V2 & HV2 & ->).
  destruct (column_back B2 m2 n1 jids wb K1 c k j HR2 U2 L1 Ek Ej) as (W1 & HW1 & ->). destruct (column_back B2 m2 n2 jids wb K2 c k j HR2 U2 L2 Ek Ej) as (W2 & HW2 & ->).
  rewrite <- (clear_column_det m0 n1 j V1 W1 HR0 HV1 HW1), <- (clear_column_det m0 n2 j V2 W2 HR0 HV2 HW2).
  destruct (pose_back B1 n1 p1 U1 P1) as (a1 & A1 & ->). destruct (pose_back B1 n2 p2 U1 P2) as (a2 & A2 & ->).
  destruct (pose_back B2 n1 q1 U2 Q1) as (b1 & D1 & ->). destruct (pose_back B2 n2 q2 U2 Q2) as (b2 & D2 & ->).
  rewrite (rep_pose_det _ _ _ _ _ _ _ _ HR0 n1 b1 a1 D1 A1), (rep_pose_det _ _ _ _ _ _ _ _ HR0 n2 b2 a2 D2 A2).
  now rewrite !moved_offset, !mvec_sub, !mvec_dot by assumption.
Qed.

Lemma distance_base m0 B1 B2 e1 e2 d1 d2 : Rep R root sorted jsorted ms mass s0 m0 -> unit_q (rotation B1) -> unit_q (rotation B2) ->
  sqdist_at R root sorted jsorted (at_base B1) e1 e2 d1 -> sqdist_at R root sorted jsorted (at_base B2) e1 e2 d2 -> d1 = d2.
Proof.
  intros HR0 U1 U2 (p1 & p2 & (n1 & N1 & P1) & (n2 & N2 & P2) & ->) (q1 & q2 & (x1 & X1 & Q1) & (x2 & X2 & Q2) & ->).
  unfold all_links in *. cbn [as_added] in *. assert (x1 = n1) by congruence. assert (x2 = n2) by congruence. subst.
  destruct (pose_back B1 n1 p1 U1 P1) as (a1 & A1 & ->). destruct (pose_back B1 n2 p2 U1 P2) as (a2 & A2 & ->).
  destruct (pose_back B2 n1 q1 U2 Q1) as (b1 & D1 & ->). destruct (pose_back B2 n2 q2 U2 Q2) as (b2 & D2 & ->).
  rewrite (rep_pose_det _ _ _ _ _ _ _ _ HR0 n1 b1 a1 D1 A1), (rep_pose_det _ _ _ _ _ _ _ _ HR0 n2 b2 a2 D2 A2).
  rewrite !moved_offset by assumption. rewrite !sq_norm_dot. now rewrite !mvec_dot by assumption.
Qed.
End Pair.

(** a joint that carries both links or neither *)
Lemma gradient_zero (R : @Robot RA) root sorted jsorted ms mass s m jids wb e1 e2 g n1 n2 c k j : Rep R root sorted jsorted ms mass s m ->
  grad_at R root sorted jsorted s jids wb e1 e2 g -> nth_error (all_links sorted s) e1 = Some n1 -> nth_error (all_links sorted s) e2 = Some n2 ->
  nth_error jids c = Some k -> nth_error jsorted k = Some j ->
  (carries (r_joints R) (as_added s) j n1 <-> carries (r_joints R) (as_added s) j n2) -> nth c g 0 = 0.
Proof.
  intros HR (p1 & p2 & J1 & J2 & (x1 & X1 & P1) & (x2 & X2 & P2) & (x1' & X1' & I1) & (x2' & X2' & I2) & ->) N1 N2 Ek Ej Hc.
  assert (x1 = n1) by congruence. assert (x2 = n2) by congruence. assert (x1' = n1) by congruence. assert (x2' = n2) by congruence. subst.
  pose proof (nth_error_lt _ _ _ Ek) as Lc.
  rewrite grad_entry_dot by (try apply I1; try apply I2; lia).
  destruct I1 as (_ & E1 & HE1 & H1 & _). destruct I2 as (_ & E2 & HE2 & H2 & _).
  destruct (H1 c k j Ek Ej) as [Z1 G1]. destruct (H2 c k j Ek Ej) as [Z2 G2].
  rewrite (rep_pose_det _ _ _ _ _ _ _ _ HR n1 _ _ P1 HE1), (rep_pose_det _ _ _ _ _ _ _ _ HR n2 _ _ P2 HE2).
  destruct (classic (carries (r_joints R) (as_added s) j n1)) as [Y|N].
  - destruct (G1 Y) as (C1 & HC1 & K1). destruct (G2 (proj1 Hc Y)) as (C2 & HC2 & K2). rewrite (rep_pose_det _ _ _ _ _ _ _ _ HR _ _ _ HC2 HC1) in K2.
    rewrite (pcol_geometric _ _ _ _ _ _ K1), (pcol_geometric _ _ _ _ _ _ K2).
    destruct (uj_type j); rewrite ?cross_pair, ?same_pair; apply Rmult_0_r.
  - assert (N' : ~ carries (r_joints R) (as_added s) j n2) by (intros Y; apply N; apply Hc; exact Y).
    rewrite (pcol_zeros _ _ _ (Z1 N)), (pcol_zeros _ _ _ (Z2 N')), same_pair. apply Rmult_0_r.
Qed.

(** the position rows of a Jacobian are determined *)
Lemma pcol_det (R : @Robot RA) root sorted jsorted ms mass s m n jids wb J J' c : Rep R root sorted jsorted ms mass s m -> (forall k, In k jids -> (k < length jsorted)%nat) ->
  is_jacobian R root jsorted s IGNORE n jids wb J -> is_jacobian R root jsorted s IGNORE n jids wb J' -> (c < length jids + if wb then 6 else 0)%nat -> pcol J c = pcol J' c.
Proof.
  intros HR Hk (_ & E & HE & HJ & HB) (_ & E' & HE' & HJ' & HB') Lc. rewrite (rep_pose_det _ _ _ _ _ _ _ _ HR n _ _ HE' HE) in HJ', HB'.
  assert (X : column c J = column c J'); [|unfold pcol; now rewrite !entry_column, X].
  destruct (Nat.lt_ge_cases c (length jids)) as [L|L].
  - destruct (lt_nth_error jids c L) as (k & Ek). destruct (lt_nth_error jsorted k (Hk k (nth_error_In _ _ Ek))) as (j & Ej).
    destruct (HJ c k j Ek Ej) as [Z G]. destruct (HJ' c k j Ek Ej) as [Z' G'].
    destruct (classic (carries (r_joints R) (as_added s) j n)) as [Y|N]; [|now rewrite Z, Z'].
    destruct (G Y) as (C & HC & ->). destruct (G' Y) as (C' & HC' & ->). now rewrite (rep_pose_det _ _ _ _ _ _ _ _ HR _ _ _ HC' HC).
  - destruct wb; [|lia]. specialize (HB eq_refl). specialize (HB' eq_refl).
    destruct (Nat.lt_ge_cases (c - length jids) 3) as [L3|L3].
    + replace c with (length jids + (c - length jids))%nat by lia. destruct (HB _ L3) as [-> _]. destruct (HB' _ L3) as [-> _]. reflexivity.
    + replace c with (length jids + 3 + (c - length jids - 3))%nat by lia. destruct (HB (c - length jids - 3)%nat ltac:(lia)) as [_ ->]. destruct (HB' (c - length jids - 3)%nat ltac:(lia)) as [_ ->]. reflexivity.
Qed.

(** distances and gradients of a pair are determined, whichever link comes first *)
Lemma gradient_pair (R : @Robot RA) root sorted jsorted ms mass s m jids wb e1 e2 x1 x2 g g' c : Rep R root sorted jsorted ms mass s m -> (forall k, In k jids -> (k < length jsorted)%nat) ->
  (x1 = e1 /\ x2 = e2 \/ x1 = e2 /\ x2 = e1) ->
  grad_at R root sorted jsorted s jids wb e1 e2 g -> grad_at R root sorted jsorted s jids wb x1 x2 g' -> (c < length jids + if wb then 6 else 0)%nat -> nth c g 0 = nth c g' 0.
Proof.
  intros HR Hk Hx (p1 & p2 & J1 & J2 & (n1 & N1 & P1) & (n2 & N2 & P2) & (n1' & N1' & I1) & (n2' & N2' & I2) & ->)
    (q1 & q2 & K1 & K2 & (y1 & X1 & Q1) & (y2 & X2 & Q2) & (y1' & X1' & L1) & (y2' & X2' & L2) & ->) Lc.
  assert (n1' = n1) by congruence. assert (n2' = n2) by congruence. assert (y1' = y1) by congruence. assert (y2' = y2) by congruence. subst n1' n2' y1' y2'.
  rewrite !grad_entry_dot by (try apply I1; try apply I2; try apply L1; try apply L2; lia). f_equal.
  destruct Hx as [[-> ->]|[-> ->]].
  - assert (y1 = n1) by congruence. assert (y2 = n2) by congruence. subst.
    rewrite (pcol_det _ _ _ _ _ _ _ _ _ _ _ _ _ c HR Hk I1 L1 Lc), (pcol_det _ _ _ _ _ _ _ _ _ _ _ _ _ c HR Hk I2 L2 Lc).
    now rewrite (rep_pose_det _ _ _ _ _ _ _ _ HR n1 _ _ P1 Q1), (rep_pose_det _ _ _ _ _ _ _ _ HR n2 _ _ P2 Q2).
  - assert (y1 = n2) by congruence. assert (y2 = n1) by congruence. subst.
    rewrite (pcol_det _ _ _ _ _ _ _ _ _ _ _ _ _ c HR Hk I1 L2 Lc), (pcol_det _ _ _ _ _ _ _ _ _ _ _ _ _ c HR Hk I2 L1 Lc).
    rewrite (rep_pose_det _ _ _ _ _ _ _ _ HR n1 _ _ P1 Q2), (rep_pose_det _ _ _ _ _ _ _ _ HR n2 _ _ P2 Q1). apply grad_entry_swap.
Qed.
Lemma distance_pair (R : @Robot RA) root sorted jsorted ms mass s m e1 e2 x1 x2 d d' : Rep R root sorted jsorted ms mass s m ->
  (x1 = e1 /\ x2 = e2 \/ x1 = e2 /\ x2 = e1) -> sqdist_at R root sorted jsorted s e1 e2 d -> sqdist_at R root sorted jsorted s x1 x2 d' -> d = d'.
Proof.
  intros HR Hx (p1 & p2 & (n1 & N1 & P1) & (n2 & N2 & P2) & ->) (q1 & q2 & (y1 & X1 & Q1) & (y2 & X2 & Q2) & ->).
  rewrite !sq_norm_dot. destruct Hx as [[-> ->]|[-> ->]].
  - assert (y1 = n1) by congruence. assert (y2 = n2) by congruence. subst. now rewrite (rep_pose_det _ _ _ _ _ _ _ _ HR n1 _ _ P1 Q1), (rep_pose_det _ _ _ _ _ _ _ _ HR n2 _ _ P2 Q2).
  - assert (y1 = n2) by congruence. assert (y2 = n1) by congruence. subst.
    rewrite (rep_pose_det _ _ _ _ _ _ _ _ HR n1 _ _ P1 Q2), (rep_pose_det _ _ _ _ _ _ _ _ HR n2 _ _ P2 Q1). apply grad_entry_swap.
Qed.
