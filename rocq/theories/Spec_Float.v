(** When a robot description in rounded arithmetic stands for an exact one. *)
From Coq Require Import QArith Qreals Reals String List.
From Verif Require Import Base Num Pose Urdf Decimal RealArith FloatArith Spec_Robot Spec_Hist.
Import ListNotations.
Local Open Scope R_scope.

Section Near.
Variable o : Ops.

(** Euclidean distance between a computed and an exact value *)
Definition vdist (a : @Vector3 (FA o)) (b : @Vector3 RA) : R :=
  sqrt ((vx a - vx b) ^ 2 + (vy a - vy b) ^ 2 + (vz a - vz b) ^ 2).
Definition qdist (a : @Rotation (FA o)) (b : @Rotation RA) : R :=
  sqrt ((qx a - qx b) ^ 2 + (qy a - qy b) ^ 2 + (qz a - qz b) ^ 2 + (qw a - qw b) ^ 2).
Definition vlen (a : @Vector3 RA) : R := sqrt (vx a ^ 2 + vy a ^ 2 + vz a ^ 2).
Definition qlen (a : @Rotation RA) : R := sqrt (qx a ^ 2 + qy a ^ 2 + qz a ^ 2 + qw a ^ 2).

(** An exact pose: unit quaternion, not farther than [L]; the stored one is within [e]
    (relative to [L] for the position). *)
Record pose_near (e L : R) (p : @Pose (FA o)) (p' : @Pose RA) : Prop := {
  pn_unit : qlen (rotation p') = 1;
  pn_size : vlen (position p') <= L;
  pn_rot : qdist (rotation p) (rotation p') <= e;
  pn_pos : vdist (position p) (position p') <= e * L }.

(** The same for a joint: same names and type, close origin, close unit axis. *)
Record joint_near (e L : R) (j : @UJoint (FA o)) (j' : @UJoint RA) : Prop := {
  jn_name : uj_name j = uj_name j';
  jn_type : uj_type j = uj_type j';
  jn_parent : uj_parent j = uj_parent j';
  jn_child : uj_child j = uj_child j';
  jn_origin : pose_near e L (uj_origin j) (uj_origin j');
  jn_axis : is_movable (uj_type j) -> vlen (uj_axis j') = 1 /\ vdist (uj_axis j) (uj_axis j') <= e }.


(** every stored joint stands for an exact one *)
Definition joints_near (e L : R) (js : list (@UJoint (FA o))) (js' : list (@UJoint RA)) : Prop :=
  forall j, In j js -> exists j', In j' js' /\ joint_near e L j j'.
(** every attached frame stands for an exact one *)
Definition added_near (e L : R) (l : @Added (FA o)) (l' : @Added RA) : Prop :=
  forall n p T, In (n, p, T) l -> exists T', In (n, p, T') l' /\ pose_near e L T T'.

(** angles are at most [A] and displacements at most [L] *)
Definition within_range (A L : R) (js : list (@UJoint RA)) (q : string -> R) : Prop :=
  forall j, In j js -> match uj_type j with
                       | REVOLUTE | CONTINUOUS => Rabs (q (uj_name j)) <= A
                       | PRISMATIC => Rabs (q (uj_name j)) <= L
                       | _ => True
                       end.

(** ** Documents and calls with moderate numbers *)
Definition angles_within (A : R) (v : @Vector3 RA) : Prop :=
  Rabs (vx v) <= A /\ Rabs (vy v) <= A /\ Rabs (vz v) <= A.

(** The document, read exactly, is the robot [E]; its angles are at most [A], its lengths at
    most [L], and the axes of its movable joints are unit vectors. *)
Record moderate (A L : R) (top : list xml) (E : @Robot RA) : Prop := {
  md_reads : describes top E;
  md_angles : forall robot j x s v, hd_error (children "robot" top) = Some robot ->
    In j (children "joint" (x_kids robot)) -> first_child "origin" j = Some x ->
    attribute "rpy" x = Some s -> @v_init RA s = Some v -> angles_within A v;
  md_origins : forall j, In j (r_joints E) -> vlen (position (uj_origin j)) <= L;
  md_axes : forall j, In j (r_joints E) -> is_movable (uj_type j) -> vlen (uj_axis j) = 1;
  md_masses : forall n i, In (n, Some i) (r_links E) -> vlen (position (in_origin i)) <= L }.

(** base positions at most [L] away, base angles at most [A] *)
Definition base_within (A L : R) (b : list R) : Prop :=
  vlen (@V3 RA (nth 0 b 0) (nth 1 b 0) (nth 2 b 0)) <= L /\
  angles_within A (@V3 RA (nth 3 b 0) (nth 4 b 0) (nth 5 b 0)).
Definition bases_within (A L : R) (with_base : bool) (qs : list (list R)) : Prop :=
  with_base = true -> forall q, In q qs -> base_within A L (skipn (length q - 6) q).

Definition same_vector (a : @Vector3 (FA o)) (b : @Vector3 RA) : Prop := vx a = vx b /\ vy a = vy b /\ vz a = vz b.

(** [same_call e A L c c']: the call [c] of the computing program and the call [c'] of the exact
    one are the same, with the same numbers, and these are moderate.  Only a base given as a
    quaternion may differ, since few unit quaternions are representable. *)
Inductive same_call (e A L : R) : @op (FA o) -> @op RA -> Prop :=
| sc_set_joint_angles jids a : same_call e A L (@Op_set_joint_angles (FA o) jids a) (@Op_set_joint_angles RA jids a)
| sc_set_joint_angle j a : same_call e A L (@Op_set_joint_angle (FA o) j a) (@Op_set_joint_angle RA j a)
| sc_set_base_pose p p' : pose_near e L p p' -> same_call e A L (Op_set_base_pose p) (Op_set_base_pose p')
| sc_set_base_xyzrpy v : base_within A L v ->
    same_call e A L (@Op_set_base_xyzrpy (FA o) v) (@Op_set_base_xyzrpy RA v)
| sc_set_init_angles : same_call e A L Op_set_init_angles Op_set_init_angles
| sc_add_new_link n k pos rpy pos' rpy' : same_vector pos pos' -> same_vector rpy rpy' ->
    vlen pos' <= L -> angles_within A rpy' ->
    same_call e A L (Op_add_new_link n k pos rpy) (Op_add_new_link n k pos' rpy')
| sc_clear_cache : same_call e A L Op_clear_cache Op_clear_cache
| sc_get_link_pose i : same_call e A L (Op_get_link_pose i) (Op_get_link_pose i)
| sc_get_jacobian i jids rt wb : same_call e A L (Op_get_jacobian i jids rt wb) (Op_get_jacobian i jids rt wb)
| sc_get_com : same_call e A L Op_get_com Op_get_com
| sc_get_com_jacobian jids wb : same_call e A L (Op_get_com_jacobian jids wb) (Op_get_com_jacobian jids wb)
| sc_get_inertia : same_call e A L Op_get_total_inertia_matrix Op_get_total_inertia_matrix
| sc_solve_fk qs el jids rt wb wj uc : bases_within A L wb qs ->
    same_call e A L (@Op_solve_fk (FA o) qs el jids rt wb wj uc) (@Op_solve_fk RA qs el jids rt wb wj uc)
| sc_solve_com_fk qs jids ac fo wb wj : bases_within A L wb qs ->
    same_call e A L (@Op_solve_com_fk (FA o) qs jids ac fo wb wj) (@Op_solve_com_fk RA qs jids ac fo wb wj)
| sc_compute_inertia q jids : same_call e A L (@Op_compute_inertia (FA o) q jids) (@Op_compute_inertia RA q jids)
| sc_sqdists qs i1 i2 jids wb wg uc : bases_within A L wb qs ->
    same_call e A L (@Op_sqdists (FA o) qs i1 i2 jids wb wg uc) (@Op_sqdists RA qs i1 i2 jids wb wg uc).
End Near.
