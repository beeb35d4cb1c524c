(** Mass, centre of mass and inertia of a set of bodies, over the real numbers. *)
From Coq Require Import String List Reals.
From Verif Require Import Base Num Pose Urdf Kin RealArith Spec_Robot Spec_Hist Spec_Load Spec_Mass Spec_Rot.
Import ListNotations.
Local Open Scope R_scope.

Definition rsum {B} (f : B -> R) (l : list B) : R := fold_right (fun b a => f b + a) 0 l.
Definition mzero : M33 := mkM 0 0 0 0 0 0 0 0 0.
Definition msum {B} (f : B -> M33) (l : list B) : M33 := fold_right (fun b a => madd (f b) a) mzero l.

(** a body: inertial data, and the world pose of the link that has them *)
Definition Body : Type := (@Inertial RA * @Pose RA)%type.
Definition bmass (w : Body) : R := in_mass (fst w).
Definition bpoint (w : Body) : @Vector3 RA := com_point (snd w) (fst w).

(** The bodies of a robot in a state: one for each link element with an inertial element,
    in the order of the document. *)
Definition bodies (R : @Robot RA) (root : string) (jsorted : list UJoint) (s : AState) (W : list Body) : Prop :=
  Forall2 (fun ni w => fst w = snd ni /\ pose_at R root jsorted s (fst ni) (snd w)) (massive (r_links R)) W.

Definition mass_of (W : list Body) : R := rsum bmass W.
Definition first_moment (W : list Body) : @Vector3 RA :=
  @V3 RA (rsum (fun w => bmass w * vx (bpoint w)) W) (rsum (fun w => bmass w * vy (bpoint w)) W) (rsum (fun w => bmass w * vz (bpoint w)) W).
Definition vdiv (v : @Vector3 RA) (k : R) : @Vector3 RA := @V3 RA (vx v / k) (vy v / k) (vz v / k).
Definition centre_of (W : list Body) : @Vector3 RA := vdiv (first_moment W) (mass_of W).

Definition tensor (i : @Inertial RA) : M33 := mkM (ixx i) (ixy i) (ixz i) (ixy i) (iyy i) (iyz i) (ixz i) (iyz i) (izz i).
Definition vdot (a b : @Vector3 RA) : R := vx a * vx b + vy a * vy b + vz a * vz b.
Definition outer (a b : @Vector3 RA) : M33 :=
  mkM (vx a * vx b) (vx a * vy b) (vx a * vz b) (vy a * vx b) (vy a * vy b) (vy a * vz b) (vz a * vx b) (vz a * vy b) (vz a * vz b).
(** m (|d|^2 Id - d d^T) *)
Definition parallel_axis (m : R) (d : @Vector3 RA) : M33 := mscale m (madd (mscale (vdot d d) mid) (mscale (-1) (outer d d))).
Definition rotated (R I : M33) : M33 := mmul (mmul R I) (mtr R).

(** R I R^T + m (|d|^2 Id - d d^T), R the rotation of the link *)
Definition inertia_of (c : @Vector3 RA) (w : Body) : M33 :=
  madd (rotated (quat_mat (rotation (snd w))) (tensor (fst w))) (parallel_axis (bmass w) (v_sub (bpoint w) c)).
(** the same when the tensor is given in the frame of the inertial origin *)
Definition inertia_of_frame (c : @Vector3 RA) (w : Body) : M33 :=
  madd (rotated (mmul (quat_mat (rotation (snd w))) (quat_mat (rotation (in_origin (fst w))))) (tensor (fst w)))
       (parallel_axis (bmass w) (v_sub (bpoint w) c)).

Definition mrows (a : M33) : @mat RA :=
  [[m11 a; m12 a; m13 a]; [m21 a; m22 a; m23 a]; [m31 a; m32 a; m33 a]] : list (list R).
Definition symmetric (a : M33) : Prop := mtr a = a.
Definition pos_semidef (a : M33) : Prop := forall v, 0 <= vdot v (mvec a v).
