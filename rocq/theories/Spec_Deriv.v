(** Quantities reported by a model as functions of one joint angle, and what it means for a
    matrix entry to be a partial derivative (limit of difference quotients over the reals). *)
From Coq Require Import String List Arith Reals.
From Verif Require Import Base Num Pose DataStructure Urdf Kin Wrapper Spec_Robot Spec_Hist Spec_Load Spec_Jac RealArith.
Import ListNotations.
Local Open Scope m_scope.

Section Moving.
Context `{A : Arith}.

(** [P] is the pose reported for link [i] after setting joint [k] of [m] to [t] *)
Definition pose_with_joint (m : KM) (k i : nat) (t : num) (P : Pose) : Prop :=
  exists m1, (set_joint_angles [k] [t] ;;; get_link_pose i) m = (m1, Ok P).
(** likewise for the centre of mass *)
Definition com_with_joint (m : KM) (k : nat) (t : num) (c : Vector3) : Prop :=
  exists m1, (set_joint_angles [k] [t] ;;; get_com) m = (m1, Ok c).
(** the current angle of joint [k] *)
Definition angle_is (m : KM) (k : nat) (a : num) : Prop := get_joint_angles [k] m = (m, Ok [a]).
(** [P] is the pose reported for link [i] after setting the base of [m] to [B] *)
Definition pose_with_base (m : KM) (i : nat) (B P : Pose) : Prop :=
  exists m1, (set_base_pose B ;;; get_link_pose i) m = (m1, Ok P).
(** likewise for the centre of mass *)
Definition com_with_base (m : KM) (B : Pose) (c : Vector3) : Prop :=
  exists m1, (set_base_pose B ;;; get_com) m = (m1, Ok c).
End Moving.

(** entry in row [r], column [c] *)
Definition entry (J : @mat RA) (r c : nat) : R := nth c (nth r J []) 0%R.
(** [J(r,c)] is the derivative of [f] at [x] *)
Definition derivative_at (f : R -> R) (x d : R) : Prop := derivable_pt_lim f x d.
(** row [r] of what is reported for a link at pose [P] (position, then rpy or quaternion) *)
Definition reported (rt : RotationType) (r : nat) (P : @Pose RA) : R := nth r (link_row rt P) 0%R.

(** coordinate [k] of a triple, and the triple with it replaced *)
Definition coord (k : nat) (v : @Vector3 RA) : R := match k with 0 => vx v | 1 => vy v | _ => vz v end.
Definition with_coord (k : nat) (t : R) (v : @Vector3 RA) : @Vector3 RA :=
  match k with 0 => @V3 RA t (vy v) (vz v) | 1 => @V3 RA (vx v) t (vz v) | _ => @V3 RA (vx v) (vy v) t end.
(** the orientation with the given roll, pitch, yaw *)
Definition from_rpy (v : @Vector3 RA) : @Rotation RA := setFromRPY (vx v) (vy v) (vz v).
(** distance of two points *)
Definition dist3 (a b : @Vector3 RA) : R :=
  sqrt ((vx a - vx b) * (vx a - vx b) + (vy a - vy b) * (vy a - vy b) + (vz a - vz b) * (vz a - vz b))%R.

(** [d] is the squared distance reported for links [e1], [e2] at the single waypoint [q] *)
Definition sqdist_with (m : @KM RA) (jids : list nat) (wb uc : bool) (e1 e2 : nat) (q : list R) (d : R) : Prop :=
  exists m' G, compute_inter_link_squared_dists [q] [e1] [e2] jids wb false uc m = (m', Ok ([d], G)).
