(** Joints moving together along a path, and the product of a Jacobian with the joint speeds. *)
From Coq Require Import String List Arith Reals.
From Verif Require Import Base Num Pose DataStructure Urdf Kin Wrapper Spec_Robot Spec_Hist Spec_Load Spec_Jac Spec_Deriv RealArith.
Import ListNotations.
Local Open Scope m_scope.

(** [P] is the pose reported for link [i] after setting the joints [jids] of [m] to [q] *)
Definition pose_with_joints (m : @KM RA) (jids : list nat) (i : nat) (q : list R) (P : @Pose RA) : Prop :=
  exists m1, (set_joint_angles (A := RA) jids q ;;; get_link_pose i) m = (m1, Ok P).
(** likewise for the centre of mass *)
Definition com_with_joints (m : @KM RA) (jids : list nat) (q : list R) (c : @Vector3 RA) : Prop :=
  exists m1, (set_joint_angles (A := RA) jids q ;;; get_com) m = (m1, Ok c).
(** the angles of [jids] are [q] *)
Definition angles_are (m : @KM RA) (jids : list nat) (q : list R) : Prop := get_joint_angles (A := RA) jids m = (m, Ok q).

(** every entry of the path [q] has the corresponding entry of [v] as its derivative at [t0] *)
Definition speeds (n : nat) (q : R -> list R) (t0 : R) (v : list R) : Prop :=
  length v = n /\ (forall t, length (q t) = n) /\ forall c, c < n -> derivative_at (fun t => nth c (q t) 0%R) t0 (nth c v 0%R).

(** row [r] of the matrix times [v], from column [c] on *)
Fixpoint row_times (J : @mat RA) (r c : nat) (v : list R) : R :=
  match v with [] => 0%R | x :: v' => (entry J r c * x + row_times J r (S c) v')%R end.
