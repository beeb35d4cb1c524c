(** The parts of one column of a Jacobian; for C113 and C114. *)
From Coq Require Import List Arith Reals.
From Verif Require Import Base Num Pose Kin Spec_Jac Spec_Deriv RealArith.

(** the rows of a position *)
Definition pcol (J : @mat RA) (c : nat) : @Vector3 RA := @V3 RA (entry J 0 c) (entry J 1 c) (entry J 2 c).
(** the rows of a quaternion *)
Definition qcol (J : @mat RA) (c : nat) : @Rotation RA := @Q4 RA (entry J 3 c) (entry J 4 c) (entry J 5 c) (entry J 6 c).
(** the inner product of quaternions as vectors of four numbers *)
Definition qdot (a b : @Rotation RA) : R := (qx a * qx b + qy a * qy b + qz a * qz b + qw a * qw b)%R.
