(** Rotation matrices and homogeneous transforms over the real numbers, written down
    without reference to quaternions. *)
From Coq Require Import String List Reals.
From Verif Require Import Base Num Pose Urdf RealArith Spec_Robot.
Import ListNotations.
Local Open Scope R_scope.

Record M33 := mkM { m11 : R; m12 : R; m13 : R; m21 : R; m22 : R; m23 : R; m31 : R; m32 : R; m33 : R }.

Definition mid : M33 := mkM 1 0 0 0 1 0 0 0 1.
Definition mmul (a b : M33) : M33 :=
  mkM (m11 a * m11 b + m12 a * m21 b + m13 a * m31 b) (m11 a * m12 b + m12 a * m22 b + m13 a * m32 b) (m11 a * m13 b + m12 a * m23 b + m13 a * m33 b)
      (m21 a * m11 b + m22 a * m21 b + m23 a * m31 b) (m21 a * m12 b + m22 a * m22 b + m23 a * m32 b) (m21 a * m13 b + m22 a * m23 b + m23 a * m33 b)
      (m31 a * m11 b + m32 a * m21 b + m33 a * m31 b) (m31 a * m12 b + m32 a * m22 b + m33 a * m32 b) (m31 a * m13 b + m32 a * m23 b + m33 a * m33 b).
Definition madd (a b : M33) : M33 :=
  mkM (m11 a + m11 b) (m12 a + m12 b) (m13 a + m13 b) (m21 a + m21 b) (m22 a + m22 b) (m23 a + m23 b) (m31 a + m31 b) (m32 a + m32 b) (m33 a + m33 b).
Definition mscale (k : R) (a : M33) : M33 :=
  mkM (k * m11 a) (k * m12 a) (k * m13 a) (k * m21 a) (k * m22 a) (k * m23 a) (k * m31 a) (k * m32 a) (k * m33 a).
Definition mtr (a : M33) : M33 := mkM (m11 a) (m21 a) (m31 a) (m12 a) (m22 a) (m32 a) (m13 a) (m23 a) (m33 a).
Definition mvec (a : M33) (v : @Vector3 RA) : @Vector3 RA :=
  @V3 RA (m11 a * vx v + m12 a * vy v + m13 a * vz v) (m21 a * vx v + m22 a * vy v + m23 a * vz v) (m31 a * vx v + m32 a * vy v + m33 a * vz v).
Definition mdet (a : M33) : R :=
  m11 a * (m22 a * m33 a - m23 a * m32 a) - m12 a * (m21 a * m33 a - m23 a * m31 a) + m13 a * (m21 a * m32 a - m22 a * m31 a).

(** every entry of the one is within [e] of that of the other *)
Definition within (e : R) (a b : M33) : Prop :=
  Rabs (m11 a - m11 b) <= e /\ Rabs (m12 a - m12 b) <= e /\ Rabs (m13 a - m13 b) <= e /\
  Rabs (m21 a - m21 b) <= e /\ Rabs (m22 a - m22 b) <= e /\ Rabs (m23 a - m23 b) <= e /\
  Rabs (m31 a - m31 b) <= e /\ Rabs (m32 a - m32 b) <= e /\ Rabs (m33 a - m33 b) <= e.

(** elementary rotations, and the URDF's rpy rotation *)
Definition Rot_x (a : R) : M33 := mkM 1 0 0  0 (cos a) (- sin a)  0 (sin a) (cos a).
Definition Rot_y (a : R) : M33 := mkM (cos a) 0 (sin a)  0 1 0  (- sin a) 0 (cos a).
Definition Rot_z (a : R) : M33 := mkM (cos a) (- sin a) 0  (sin a) (cos a) 0  0 0 1.
Definition Rot_rpy (r p y : R) : M33 := mmul (Rot_z y) (mmul (Rot_y p) (Rot_x r)).

(** Rodrigues' formula: rotation by [a] about the unit vector [u],
    I + sin a [u]x + (1 - cos a) [u]x^2 *)
Definition skew (u : @Vector3 RA) : M33 := mkM 0 (- vz u) (vy u)  (vz u) 0 (- vx u)  (- vy u) (vx u) 0.
Definition Rodrigues (u : @Vector3 RA) (a : R) : M33 :=
  madd mid (madd (mscale (sin a) (skew u)) (mscale (1 - cos a) (mmul (skew u) (skew u)))).

(** homogeneous transforms *)
Record Hom := mkH { hrot : M33; htrans : @Vector3 RA }.
Definition hmul (a b : Hom) : Hom := mkH (mmul (hrot a) (hrot b)) (v_add (mvec (hrot a) (htrans b)) (htrans a)).

(** the rotation matrix a unit quaternion stands for (x, y, z, w are its components) *)
Definition quat_mat (q : @Rotation RA) : M33 :=
  let x : R := qx q in let y : R := qy q in let z : R := qz q in let w : R := qw q in
  mkM (1 - 2 * (y * y + z * z)) (2 * (x * y - z * w)) (2 * (x * z + y * w))
      (2 * (x * y + z * w)) (1 - 2 * (x * x + z * z)) (2 * (y * z - x * w))
      (2 * (x * z - y * w)) (2 * (y * z + x * w)) (1 - 2 * (x * x + y * y)).
Definition pose_hom (P : @Pose RA) : Hom := mkH (quat_mat (rotation P)) (position P).

(** what a joint contributes at angle (or displacement) [a], after its origin *)
Definition joint_hom (j : @UJoint RA) (a : R) : Hom :=
  match uj_type j with
  | REVOLUTE | CONTINUOUS => mkH (Rodrigues (uj_axis j) a) (@V3 RA 0 0 0)
  | PRISMATIC => mkH mid (@V3 RA (a * vx (uj_axis j)) (a * vy (uj_axis j)) (a * vz (uj_axis j)))
  | _ => mkH mid (@V3 RA 0 0 0)
  end.

(** Forward kinematics with homogeneous matrices.  [org j] is the transform of the origin
    of joint [j], [off n] that of an attached link. *)
Inductive hfk (js : list (@UJoint RA)) (root : string) (added : list (string * string * Hom)) (org : @UJoint RA -> Hom)
  (q : string -> R) (base : Hom) : string -> Hom -> Prop :=
| hfk_root : hfk js root added org q base root base
| hfk_joint j P : In j js -> hfk js root added org q base (uj_parent j) P ->
    hfk js root added org q base (uj_child j) (hmul P (hmul (org j) (joint_hom j (q (uj_name j)))))
| hfk_added n p T P : In (n, p, T) added -> hfk js root added org q base p P ->
    hfk js root added org q base n (hmul P T).

(** unit axes, as the URDF format requires of joints that turn *)
Definition unit_vector (v : @Vector3 RA) : Prop := vx v * vx v + vy v * vy v + vz v * vz v = 1.
Definition unit_axes (R : @Robot RA) : Prop :=
  forall j, In j (r_joints R) -> uj_type j = REVOLUTE \/ uj_type j = CONTINUOUS -> unit_vector (uj_axis j).
Definition unit_quaternion (q : @Rotation RA) : Prop := qx q * qx q + qy q * qy q + qz q * qz q + qw q * qw q = 1.
