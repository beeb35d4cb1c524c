(** Velocities of poses that depend on a parameter, and of chains of them (lemmas for C110 and C111). *)
From Coq Require Import String List Arith Lia Bool Permutation Reals Lra.
From Coquelicot Require Import Coquelicot.
From Verif Require Import Base Num Pose DataStructure Urdf Kin Wrapper Spec_Robot Spec_Hist Spec_Load Spec_Jac Spec_Rot Spec_Deriv RealArith
  Pf_Base Pf_Data Inv Pf_FK Pf_Frame Pf_Rp Rep Pf_Ops Pf_Name Pf_Ctor Pf_Reach Pf_Jac Pf_Safe Pf_Pose Pf_Local Pf_Real Pf_Rot Pf_Unit Pf_Rpy Pf_Chain Pf_Deriv Pf_JacD.
Import ListNotations.
Local Open Scope R_scope.

(** [v] is the velocity of the position and [w] the angular velocity, in the world, at [t0] *)
Definition moves (P : R -> pose) (t0 : R) (v w : vec) : Prop :=
  (forall i, derivable_pt_lim (fun t => vcomp i (position (P t))) t0 (vcomp i v)) /\
  (forall k, derivable_pt_lim (fun t => qcomp k (rotation (P t))) t0 (qcomp k (qscale (1 / 2) (q_mul (qv w) (rotation (P t0)))))).
Definition vscale (k : R) (v : vec) : vec := @V3 RA (k * vx v) (k * vy v) (k * vz v).

Ltac dv := repeat split; try (eexists; eassumption).
Ltac dval := repeat match goal with H : is_derive ?f ?x ?l |- _ =>
  repeat change (Derive (fun u => f u) x) with (Derive f x); rewrite ?(is_derive_unique f x l H); clear H end.

(** the rotation matrix of a quaternion, homogeneous in it *)
Definition hmat (q : quat) : M33 :=
  let x : R := qx q in let y : R := qy q in let z : R := qz q in let w : R := qw q in
  mkM (x * x + w * w - y * y - z * z) (2 * (x * y - z * w)) (2 * (x * z + y * w))
      (2 * (x * y + z * w)) (y * y + w * w - x * x - z * z) (2 * (y * z - x * w))
      (2 * (x * z - y * w)) (2 * (y * z + x * w)) (z * z + w * w - x * x - y * y).
Lemma hmat_unit q : unit_q q -> quat_mat q = hmat q.
Proof. unfold unit_q, qn. destruct q as [x y z w]. cbn [qx qy qz qw]. rnum. intros H. unfold quat_mat, hmat. cbn [qx qy qz qw]. change (@num RA) with R in *. f_equal; lra. Qed.

Section Poly.
Context (x y z k a b c p1 p2 p3 : R -> R) (x' y' z' k' a' b' c' p1' p2' p3' t : R).
Context (Hx : is_derive x t x') (Hy : is_derive y t y') (Hz : is_derive z t z') (Hk : is_derive k t k').
Context (Ha : is_derive a t a') (Hb : is_derive b t b') (Hc : is_derive c t c').
Context (H1 : is_derive p1 t p1') (H2 : is_derive p2 t p2') (H3 : is_derive p3 t p3').
Let Q s : quat := @Q4 RA (x s) (y s) (z s) (k s).
Let X s : vec := @V3 RA (a s) (b s) (c s).
Let Pp s : vec := @V3 RA (p1 s) (p2 s) (p3 s).

Lemma poly_point w i : @Q4 RA x' y' z' k' = qscale (1 / 2) (q_mul (qv w) (Q t)) ->
  derivable_pt_lim (fun s => vcomp i (v_add (mvec (hmat (Q s)) (X s)) (Pp s))) t
    (vcomp i (v_add (v_add (cross_product w (mvec (hmat (Q t)) (X t))) (mvec (hmat (Q t)) (@V3 RA a' b' c'))) (@V3 RA p1' p2' p3'))).
Proof.
  intros E. unfold qscale, q_mul, qv, Q in E. cbn [qx qy qz qw] in E. rnumin E. destruct w as [w1 w2 w3]. cbn [vx vy vz] in E. change (@num RA) with R in *.
  injection E as E1 E2 E3 E4. apply is_deriv.
  unfold Q, X, Pp, v_add, mvec, hmat, cross_product. destruct i as [|[|i]]; cbn [vcomp qx qy qz qw vx vy vz m11 m12 m13 m21 m22 m23 m31 m32 m33]; rnum; change (@num RA) with R in *;
    (auto_derive; [dv | dval; subst; field]).
Qed.

Lemma poly_quat w u i : unit_q (Q t) -> @Q4 RA x' y' z' k' = qscale (1 / 2) (q_mul (qv w) (Q t)) -> @Q4 RA a' b' c' p1' = qscale (1 / 2) (q_mul (qv u) (@Q4 RA (a t) (b t) (c t) (p1 t))) ->
  derivable_pt_lim (fun s => qcomp i (q_mul (Q s) (@Q4 RA (a s) (b s) (c s) (p1 s)))) t
    (qcomp i (qscale (1 / 2) (q_mul (qv (v_add w (mvec (quat_mat (Q t)) u))) (q_mul (Q t) (@Q4 RA (a t) (b t) (c t) (p1 t)))))).
Proof.
  intros U E F.
  assert (Z : qscale (1 / 2) (q_mul (qv (v_add w (mvec (quat_mat (Q t)) u))) (q_mul (Q t) (@Q4 RA (a t) (b t) (c t) (p1 t))))
     = let A := q_mul (@Q4 RA x' y' z' k') (@Q4 RA (a t) (b t) (c t) (p1 t)) in let B := q_mul (Q t) (@Q4 RA a' b' c' p1') in
       @Q4 RA (qx A + qx B) (qy A + qy B) (qz A + qz B) (qw A + qw B)).
  { rewrite E, F. pose proof (world_axis_mul (Q t) u U) as W.
    transitivity (let A := qscale (1 / 2) (q_mul (q_mul (qv w) (Q t)) (@Q4 RA (a t) (b t) (c t) (p1 t))) in
       let B := qscale (1 / 2) (q_mul (q_mul (qv (mvec (quat_mat (Q t)) u)) (Q t)) (@Q4 RA (a t) (b t) (c t) (p1 t))) in
       @Q4 RA (qx A + qx B) (qy A + qy B) (qz A + qz B) (qw A + qw B)).
    - generalize (mvec (quat_mat (Q t)) u). intros v0. unfold Q. cbv zeta. unfold qscale, q_mul, qv, v_add. apply q_eq; proj; rnum; ring.
    - rewrite W. clear W. unfold Q. cbv zeta. unfold qscale, q_mul, qv. apply q_eq; proj; rnum; ring. }
  rewrite Z. clear Z. apply is_deriv. unfold Q, q_mul. cbv zeta. destruct i as [|[|[|i]]]; cbn [qcomp qx qy qz qw]; rnum; change (@num RA) with R in *;
    (auto_derive; [dv | dval; ring]).
Qed.
End Poly.

Lemma der f t l : derivable_pt_lim f t l -> is_derive f t l.
Proof. apply is_derive_Reals. Qed.
Lemma moves_const P t : moves (fun _ => P) t v_clear v_clear.
Proof.
  split.
  - intros i. replace (vcomp i v_clear) with 0 by (destruct i as [|[|i]]; cbn; rnum; reflexivity). apply derivable_pt_lim_const.
  - intros k. replace (qcomp k (qscale (1 / 2) (q_mul (qv v_clear) (rotation P)))) with 0; [apply derivable_pt_lim_const|].
    unfold qscale, q_mul, qv, v_clear. destruct k as [|[|[|k]]]; cbn [qcomp qx qy qz qw vx vy vz]; rnum; ring.
Qed.

Lemma moves_compose P T t v w v1 w1 : moves P t v w -> moves T t v1 w1 -> (forall s, unit_q (rotation (P s))) ->
  moves (fun s => pose_transform (P s) (T s)) t
    (v_add (v_add v (cross_product w (mvec (quat_mat (rotation (P t))) (position (T t))))) (mvec (quat_mat (rotation (P t))) v1))
    (v_add w (mvec (quat_mat (rotation (P t))) w1)).
Proof.
  intros (Pp & Pq) (Tp & Tq) U.
  pose proof (der _ _ _ (Pp 0%nat)) as P1. pose proof (der _ _ _ (Pp 1%nat)) as P2. pose proof (der _ _ _ (Pp 2%nat)) as P3.
  pose proof (der _ _ _ (Tp 0%nat)) as T1. pose proof (der _ _ _ (Tp 1%nat)) as T2. pose proof (der _ _ _ (Tp 2%nat)) as T3.
  pose proof (der _ _ _ (Pq 0%nat)) as X1. pose proof (der _ _ _ (Pq 1%nat)) as X2. pose proof (der _ _ _ (Pq 2%nat)) as X3. pose proof (der _ _ _ (Pq 3%nat)) as X4.
  pose proof (der _ _ _ (Tq 0%nat)) as Y1. pose proof (der _ _ _ (Tq 1%nat)) as Y2. pose proof (der _ _ _ (Tq 2%nat)) as Y3. pose proof (der _ _ _ (Tq 3%nat)) as Y4.
  cbn [vcomp qcomp] in *. split.
  - intros i. pose proof (poly_point _ _ _ _ _ _ _ _ _ _ _ _ _ _ _ _ _ _ _ _ t X1 X2 X3 X4 T1 T2 T3 P1 P2 P3 w i) as H.
    assert (EQ : forall s, @Q4 RA (qx (rotation (P s))) (qy (rotation (P s))) (qz (rotation (P s))) (qw (rotation (P s))) = rotation (P s)) by (intros s; now destruct (rotation (P s))).
    assert (ET : forall s, @V3 RA (vx (position (T s))) (vy (position (T s))) (vz (position (T s))) = position (T s)) by (intros s; now destruct (position (T s))).
    assert (EP : forall s, @V3 RA (vx (position (P s))) (vy (position (P s))) (vz (position (P s))) = position (P s)) by (intros s; now destruct (position (P s))).
    cbn beta in H. rewrite EQ, ET in H. specialize (H eq_refl).
    match type of H with derivable_pt_lim _ _ ?a => match goal with |- derivable_pt_lim _ _ ?b => replace b with a end end.
    + eapply dext; [|exact H]. intros s. cbn beta. rewrite EQ, ET, EP. cbn [pose_transform position]. rewrite quat_mat_rot, <- hmat_unit by apply U. reflexivity.
    + rewrite <- hmat_unit by apply U. f_equal. destruct v as [q1 q2 q3], v1 as [q4 q5 q6]. unfold v_add. apply v_eq; proj; rnum; ring.
  - intros k. pose proof (poly_quat _ _ _ _ _ _ _ _ _ _ _ _ _ _ _ _ t X1 X2 X3 X4 Y1 Y2 Y3 Y4 w w1 k) as H.
    assert (EQ : forall s, @Q4 RA (qx (rotation (P s))) (qy (rotation (P s))) (qz (rotation (P s))) (qw (rotation (P s))) = rotation (P s)) by (intros s; now destruct (rotation (P s))).
    assert (EU : forall s, @Q4 RA (qx (rotation (T s))) (qy (rotation (T s))) (qz (rotation (T s))) (qw (rotation (T s))) = rotation (T s)) by (intros s; now destruct (rotation (T s))).
    cbn beta in H. rewrite EQ, EU in H. specialize (H (U t) eq_refl eq_refl).
    eapply dext; [|exact H]. intros s. cbn beta. rewrite EQ, EU. reflexivity.
Qed.

(** the matrix of the orientation turns with the angular velocity *)
Lemma moves_mat P t v w x i : moves P t v w -> (forall s, unit_q (rotation (P s))) ->
  derivable_pt_lim (fun s => vcomp i (mvec (quat_mat (rotation (P s))) x)) t (vcomp i (cross_product w (mvec (quat_mat (rotation (P t))) x))).
Proof.
  intros HM U. pose proof (moves_compose P (fun _ => mkPose x q_clear) t v w _ _ HM (moves_const _ t) U) as (H & _). specialize (H i).
  destruct HM as (Pp & _). pose proof (derivable_pt_lim_minus _ _ _ _ _ H (Pp i)) as D.
  match type of D with derivable_pt_lim _ _ ?a => match goal with |- derivable_pt_lim _ _ ?b => replace b with a end end.
  - eapply dext; [|exact D]. intros s. unfold minus_fct. cbn [pose_transform position]. rewrite quat_mat_rot by apply U.
    unfold v_add. destruct i as [|[|i]]; cbn [vcomp vx vy vz]; rnum; ring.
  - cbn [position]. unfold v_add, mvec, v_clear. destruct i as [|[|i]]; cbn [vcomp vx vy vz]; rnum; ring.
Qed.
