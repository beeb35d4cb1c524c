(** Angles that differ by whole turns, and poses that are the same placement. *)
From Coq Require Import String List ZArith Reals.
From Verif Require Import Base Num Pose Urdf Kin RealArith Spec_Rot.
Import ListNotations.
Local Open Scope R_scope.

(** for a joint that turns, [b] is [a] plus a whole number of turns; a sliding joint has no turns *)
Definition whole_turns (j : @UJoint RA) (a b : R) : Prop :=
  match uj_type j with
  | REVOLUTE | CONTINUOUS => exists k : Z, b = a + 2 * PI * IZR k
  | _ => b = a
  end.

(** same position and same rotation; the quaternions may differ in sign *)
Definition opposite (q : @Rotation RA) : @Rotation RA := @Q4 RA (- qx q) (- qy q) (- qz q) (- qw q).
Definition same_placement (P P' : @Pose RA) : Prop :=
  position P' = position P /\ (rotation P' = rotation P \/ rotation P' = opposite (rotation P)).

(** the same roll and pitch, and the same yaw up to whole turns *)
Definition same_rpy (v v' : @Vector3 RA) : Prop :=
  vx v' = vx v /\ vy v' = vy v /\ sin (vz v') = sin (vz v) /\ cos (vz v') = cos (vz v).
