(** What is reported for a link moving with given velocities, and the velocities of the links of a chain (lemmas for C110). *)
From Coq Require Import String List Arith Lia Bool Permutation Reals Lra.
From Coquelicot Require Import Coquelicot.
From Verif Require Import Base Num Pose DataStructure Urdf Kin Wrapper Spec_Robot Spec_Hist Spec_Load Spec_Jac Spec_Rot Spec_Deriv RealArith
  Pf_Base Pf_Data Inv Pf_FK Pf_Frame Pf_Rp Rep Pf_Ops Pf_Name Pf_Ctor Pf_Reach Pf_Jac Pf_Safe Pf_Pose Pf_Local Pf_Real Pf_Rot Pf_Unit Pf_Rpy Pf_Chain Pf_Deriv Pf_JacD Pf_Velocity.
Import ListNotations.
Local Open Scope R_scope.

Section Rows.
Context (E : R -> pose) (t : R) (v w : vec).
Context (E_unit : forall s, unit_q (rotation (E s))) (HM : moves E t v w).
Let M (t : R) : M33 := quat_mat (rotation (E t)).

Lemma mcol_moves i k : derivable_pt_lim (fun t => vcomp i (mcol k (M t))) t (vcomp i (cross_product w (mcol k (M t)))).
Proof.
  set (e := match k with 0%nat => @V3 RA 1 0 0 | 1%nat => @V3 RA 0 1 0 | _ => @V3 RA 0 0 1 end).
  assert (X : forall m, mcol k m = mvec m e).
  { intros m. unfold e. destruct k as [|[|k]]; destruct m as [b1 b2 b3 b4 b5 b6 b7 b8 b9]; unfold mcol, mvec; apply v_eq; proj; cbn [m11 m12 m13 m21 m22 m23 m31 m32 m33]; rnum; ring. }
  rewrite X. eapply dext; [|exact (moves_mat E t v w e i HM E_unit)]. intros s. cbn beta. now rewrite X.
Qed.
Lemma m11_derive : derivable_pt_lim (fun t => m11 (M t)) t (vy w * m31 (M t) - vz w * m21 (M t)). Proof. exact (mcol_moves 0 0). Qed.
Lemma m21_derive : derivable_pt_lim (fun t => m21 (M t)) t (vz w * m11 (M t) - vx w * m31 (M t)). Proof. exact (mcol_moves 1 0). Qed.
Lemma m31_derive : derivable_pt_lim (fun t => m31 (M t)) t (vx w * m21 (M t) - vy w * m11 (M t)). Proof. exact (mcol_moves 2 0). Qed.
Lemma m32_derive : derivable_pt_lim (fun t => m32 (M t)) t (vx w * m22 (M t) - vy w * m12 (M t)). Proof. exact (mcol_moves 2 1). Qed.
Lemma m33_derive : derivable_pt_lim (fun t => m33 (M t)) t (vx w * m23 (M t) - vy w * m13 (M t)). Proof. exact (mcol_moves 2 2). Qed.

Lemma away_m31 x : away (rotation (E x)) <-> Rabs (- m31 (M x)) < 99999 / 100000.
Proof. unfold away, M. destruct (quat_mat_row _ (E_unit x)) as (-> & _). now rewrite Ropp_involutive. Qed.

Lemma getRPY_mat x : away (rotation (E x)) -> getRPY (rotation (E x)) =
  @V3 RA (ratan2 (m32 (M x)) (m33 (M x))) (asin (- m31 (M x))) (ratan2 (m21 (M x)) (m11 (M x))).
Proof.
  intros H. rewrite getRPY_away by auto. unfold M. destruct (quat_mat_row _ (E_unit x)) as (-> & -> & -> & -> & ->). now rewrite Ropp_involutive.
Qed.

Lemma locally_away : away (rotation (E t)) -> locally t (fun t => away (rotation (E t))).
Proof.
  intros H. apply away_m31, Rabs_def2 in H. pose proof (derivable_pt_lim_opp _ _ _ m31_derive) as Hd.
  destruct H as [H1 H2]. pose proof (locally_lt _ _ _ _ Hd H1) as L1. pose proof (locally_gt _ _ _ _ Hd H2) as L2.
  generalize (filter_and _ _ L1 L2). apply filter_imp. intros x [X1 X2]. apply away_m31. unfold opp_fct in *. now apply Rabs_def1.
Qed.

Lemma moves_rpy i : away (rotation (E t)) -> vx (getRPY (rotation (E t))) <> PI -> vz (getRPY (rotation (E t))) <> PI ->
  derivable_pt_lim (fun t => vcomp i (getRPY (rotation (E t)))) t
    (vcomp i (rpy_derivative (getRPY (rotation (E t))) w)).
Proof.
  intros Ha Cr Cy. pose proof (getRPY_mat t Ha) as ER. rewrite ER in *. cbn [vx vz] in Cr, Cy.
  destruct (quat_cof _ (E_unit t)) as (C1 & C2 & C3 & C4 & C5 & C6). pose proof (quat_m11 _ (E_unit t)) as C0. 
  destruct (quat_cof9 _ (E_unit t)) as (_ & (C21 & _ & _) & _). cbv zeta in C21. fold (M t) in C0, C1, C2, C3, C4, C5, C6, C21.
  apply away_m31 in Ha as Ha'. apply Rabs_def2 in Ha'. set (s := - m31 (M t)) in *. assert (P : 0 < 1 - s * s) by nra.
  assert (Es : m31 (M t) = - s) by (unfold s; ring). rewrite Es in C5, C6.
  assert (N1 : m33 (M t) <> 0 \/ m32 (M t) <> 0). { destruct (Req_dec (m33 (M t)) 0) as [Z|]; auto. right. intros Z'. rewrite Z, Z' in C5. lra. }
  assert (N2 : m11 (M t) <> 0 \/ m21 (M t) <> 0). { destruct (Req_dec (m11 (M t)) 0) as [Z|]; auto. right. intros Z'. rewrite Z, Z' in C6. lra. }
  assert (SP : 0 < sqrt (1 - s * s)) by now apply sqrt_lt_R0. set (k := sqrt (1 - s * s)) in *.
  assert (K2 : k * k = 1 - s * s) by (apply sqrt_sqrt; lra).
  assert (S2 : sqrt (m11 (M t) * m11 (M t) + m21 (M t) * m21 (M t)) = k) by (unfold k; f_equal; lra).
  assert (CA : cos (asin s) = k) by (rewrite cos_asin by lra; reflexivity). assert (SA : sin (asin s) = s) by (apply sin_asin; lra).
  pose proof (cos_atan2 _ _ N2) as CY. pose proof (sin_atan2 _ _ N2) as SY. rewrite S2 in CY, SY.
  pose proof (off_cut _ _ N1 Cr) as O1. pose proof (off_cut _ _ N2 Cy) as O2.
  assert (L : forall i, locally t (fun t => vcomp i (@V3 RA (ratan2 (m32 (M t)) (m33 (M t))) (asin (- m31 (M t))) (ratan2 (m21 (M t)) (m11 (M t)))) = vcomp i (getRPY (rotation (E t))))).
  { intros i0. generalize (locally_away Ha). apply filter_imp. intros x Hx. cbn beta in Hx. now rewrite getRPY_mat. }
  apply (dext_loc _ _ _ _ (L i)). clear L. unfold rpy_derivative. cbn [vx vy vz]. rnum. rewrite !cos_neg, !sin_neg, CA, SA, CY, SY.
  assert (F : forall a b : R, k * k * a = k * k * b -> a = b) by (intros a b H; apply (Rmult_eq_reg_l (k * k)); auto; nra).
  destruct i as [|[|i]]; cbn [vcomp vx vy vz].
  - pose proof (ratan2_derive _ _ _ _ _ m32_derive m33_derive O1) as Hd.
    match type of Hd with derivable_pt_lim _ _ ?a => match goal with |- derivable_pt_lim _ _ ?b => replace b with a; [exact Hd|] end end.
    replace (m33 (M t) * m33 (M t) + m32 (M t) * m32 (M t)) with (k * k) by lra.
    transitivity ((vx w * m11 (M t) + vy w * m21 (M t)) / (k * k)); [f_equal; rewrite C0, C21; ring | field; lra].
  - pose proof (asin_derive _ _ _ (derivable_pt_lim_opp _ _ _ m31_derive) ltac:(unfold opp_fct; fold s; lra)) as Hd.
    match type of Hd with derivable_pt_lim _ _ ?a => match goal with |- derivable_pt_lim _ _ ?b => replace b with a; [exact Hd|] end end.
    unfold opp_fct. fold s k. field. lra.
  - pose proof (ratan2_derive _ _ _ _ _ m21_derive m11_derive O2) as Hd.
    match type of Hd with derivable_pt_lim _ _ ?a => match goal with |- derivable_pt_lim _ _ ?b => replace b with a; [exact Hd|] end end.
    replace (m11 (M t) * m11 (M t) + m21 (M t) * m21 (M t)) with (k * k) by lra. rewrite Es.
    transitivity ((vz w * (m11 (M t) * m11 (M t) + m21 (M t) * m21 (M t)) + s * (vx w * m11 (M t) + vy w * m21 (M t))) / (k * k)); [f_equal; ring|].
    replace (m11 (M t) * m11 (M t) + m21 (M t) * m21 (M t)) with (k * k) by lra. field. lra.
Qed.
End Rows.

(** the numbers of a row changing with velocity [v] and angular velocity [w] at orientation [q] *)
Definition rates (rt : RotationType) (q : quat) (v w : vec) : list R :=
  v_list v ++ match rt with IGNORE => [] | RPY => v_list (rpy_derivative (getRPY q) w) | XYZW => q_list (q_derivative (q_inverse q) w) end.

Lemma moves_reported E t v w rt r : (forall s, unit_q (rotation (E s))) -> moves E t v w -> (r < jac_rows rt)%nat -> regular rt r (rotation (E t)) ->
  derivable_pt_lim (fun s => reported rt r (E s)) t (nth r (rates rt (rotation (E t)) v w) 0).
Proof.
  intros U HM Lr Hreg. destruct (Nat.lt_ge_cases r 3) as [L3|G3].
  - destruct HM as (H & _). unfold reported, link_row, rates, v_list. destruct r as [|[|[|r]]]; cbn [app nth]; [exact (H 0%nat)|exact (H 1%nat)|exact (H 2%nat)|lia].
  - unfold reported, link_row, rates, v_list. destruct rt; cbn in Lr; [lia| |].
    + specialize (Hreg eq_refl G3) as (A & C1 & C2). assert (H : forall i, derivable_pt_lim (fun s => vcomp i (getRPY (rotation (E s)))) t (vcomp i (rpy_derivative (getRPY (rotation (E t))) w)))
        by (intros i; apply (moves_rpy E t v w U HM i); auto).
      do 3 (destruct r as [|r]; [lia|]). destruct r as [|[|[|r]]]; cbn [app nth]; [exact (H 0%nat)|exact (H 1%nat)|exact (H 2%nat)|lia].
    + destruct HM as (_ & H). rewrite q_derivative_mul by apply U.
      do 3 (destruct r as [|r]; [lia|]). destruct r as [|[|[|[|r]]]]; cbn [app nth]; [exact (H 0%nat)|exact (H 1%nat)|exact (H 2%nat)|exact (H 3%nat)|lia].
Qed.

Lemma rates_linear rt q (a : R) v w v1 w1 r :
  nth r (rates rt q (v_add v (vscale a v1)) (v_add w (vscale a w1))) 0 = nth r (rates rt q v w) 0 + a * nth r (rates rt q v1 w1) 0.
Proof.
  unfold rates, v_list, v_add, vscale.
  do 3 (destruct r as [|r]; [cbn [app nth vx vy vz]; rnum; ring|]). cbn [app nth]. destruct rt.
  - destruct r; cbn; ring.
  - generalize (getRPY q). intros p. unfold rpy_derivative. cbn [vx vy vz]. destruct r as [|[|[|r]]]; cbn [nth app vx vy vz]; rnum; unfold Rdiv; try ring. destruct r; ring.
  - generalize (q_inverse q). intros p. unfold q_derivative, q_list. cbn [vx vy vz qx qy qz qw]. destruct r as [|[|[|[|r]]]]; cbn [nth app qx qy qz qw]; rnum; unfold Rdiv; try ring. destruct r; ring.
Qed.
Lemma rates_0 rt q r : nth r (rates rt q v_clear v_clear) 0 = 0.
Proof.
  pose proof (rates_linear rt q (-1) v_clear v_clear v_clear v_clear r) as H.
  replace (v_add v_clear (vscale (-1) v_clear)) with (@v_clear RA) in H by (unfold v_add, vscale, v_clear; apply v_eq; proj; rnum; ring). lra.
Qed.
