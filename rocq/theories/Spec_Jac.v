(** What the columns of a Jacobian are, in terms of poses of named links. *)
From Coq Require Import String List Arith.
From Verif Require Import Base Num Pose DataStructure Urdf Kin Wrapper Spec_Robot Spec_Hist Spec_Load.
Import ListNotations.

Section Jac.
Context `{A : Arith}.

(** number of rows: position, and roll-pitch-yaw or quaternion if requested *)
Definition jac_rows (rt : RotationType) : nat := match rt with IGNORE => 3 | RPY => 6 | XYZW => 7 end.

(** column [c] of a matrix given by rows *)
Definition column (c : nat) (J : mat) : list num := map (fun row => nth c row n0) J.

Definition zeros (n : nat) : list num := repeat n0 n.

(** The geometric column of joint [j] for a link at pose [E], when the joint's child link
    is at pose [C]: with [w] the joint axis in the world, a prismatic joint moves the link
    along [w]; another joint moves it along [w] x lever and turns it about [w]. *)
Definition geometric_column (rt : RotationType) (j : UJoint) (E C : Pose) : list num :=
  let w := q_rot (rotation C) (uj_axis j) in
  match uj_type j with
  | PRISMATIC => v_list w ++ zeros (jac_rows rt - 3)
  | _ => v_list (cross_product w (v_sub (position E) (position C))) ++
         match rt with
         | IGNORE => []
         | RPY => v_list (rpy_derivative (getRPY (rotation E)) w)
         | XYZW => q_list (q_derivative (q_inverse (rotation E)) w)
         end
  end.

(** the matrix has [r] rows of [c] entries *)
Definition has_shape (r c : nat) (J : mat) : Prop := length J = r /\ forall row, In row J -> length row = c.

(** the numbers reported for a link at pose [P] *)
Definition link_row (rt : RotationType) (P : Pose) : list num :=
  [vx (position P); vy (position P); vz (position P)] ++
  match rt with
  | IGNORE => []
  | RPY => let r := getRPY (rotation P) in [vx r; vy r; vz r]
  | XYZW => [qx (rotation P); qy (rotation P); qz (rotation P); qw (rotation P)]
  end.

(** One base rotation column: the entries of the link (position; roll-pitch-yaw or
    quaternion if requested) after adding [fd_eps] to one of the base's roll, pitch, yaw,
    minus those before, over [fd_eps]. *)
Definition base_turned (k : nat) (B E : Pose) : Pose :=
  let r := v_add_at k fd_eps (getRPY (rotation B)) in
  pose_transform (mkPose (position B) (setFromRPY (vx r) (vy r) (vz r))) (pose_transform (pose_inverse B) E).
Definition base_quotient (rt : RotationType) (k : nat) (B E : Pose) : list num :=
  map (fun xy => div (sub (fst xy) (snd xy)) fd_eps) (combine (link_row rt (base_turned k B E)) (link_row rt E)).

(** [J] is the Jacobian of link [n] for the joints [jids] (and the base) in state [s]. *)
Definition is_jacobian (R : Robot) (root : string) (jsorted : list UJoint) (s : AState) (rt : RotationType)
           (n : string) (jids : list nat) (wb : bool) (J : mat) : Prop :=
  has_shape (jac_rows rt) (length jids + if wb then 6 else 0) J /\
  exists E, pose_at R root jsorted s n E /\
    (forall c k j, nth_error jids c = Some k -> nth_error jsorted k = Some j ->
       (~ carries (r_joints R) (as_added s) j n -> column c J = zeros (jac_rows rt)) /\
       (carries (r_joints R) (as_added s) j n ->
          exists C, pose_at R root jsorted s (uj_child j) C /\ column c J = geometric_column rt j E C)) /\
    (wb = true -> forall b, b < 3 ->
       column (length jids + b) J = map (fun r => if Nat.eqb r b then n1 else n0) (seq 0 (jac_rows rt)) /\
       column (length jids + 3 + b) J = base_quotient rt b (as_base s) E).

End Jac.
