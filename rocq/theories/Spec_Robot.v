(** What a robot description means, in terms of names, independently of the data
    structures of the code. *)
From Coq Require Import QArith String List Arith.
From Verif Require Import Base Num Pose Urdf.
Import ListNotations.

Section Spec.
Context `{A : Arith}.

(** A robot description: links with their inertial data, and joints. *)
Record Robot := mkRobot { r_links : list (string * option Inertial); r_joints : list UJoint }.

Definition link_names (R : Robot) : list string := map fst (r_links R).

(** [n] is connected to [root] by joints *)
Inductive connected (js : list UJoint) (root : string) : string -> Prop :=
| conn_root : connected js root root
| conn_joint j : In j js -> connected js root (uj_parent j) -> connected js root (uj_child j).

(** The description is a tree with the given root. *)
Record is_tree (R : Robot) (root : string) : Prop := {
  tree_links : NoDup (link_names R);
  tree_joints : NoDup (map uj_name (r_joints R));
  tree_ends : forall j, In j (r_joints R) -> In (uj_parent j) (link_names R) /\ In (uj_child j) (link_names R);
  tree_root : In root (link_names R);
  tree_root_top : forall j, In j (r_joints R) -> uj_child j <> root;
  tree_one_parent : NoDup (map uj_child (r_joints R));
  tree_connected : forall n, In n (link_names R) -> connected (r_joints R) root n
}.

(** Pose of a joint's child link in its parent link, at joint angle (or displacement) [a]. *)
Definition motion (j : UJoint) (a : num) : Pose :=
  match uj_type j with
  | REVOLUTE | CONTINUOUS =>
      let s := nsin (mul a nhalf) in
      let c := ncos (mul a nhalf) in
      pose_transform (uj_origin j)
        (mkPose v_clear (Q4 (mul (vx (uj_axis j)) s) (mul (vy (uj_axis j)) s) (mul (vz (uj_axis j)) s) c))
  | PRISMATIC =>
      pose_transform (uj_origin j)
        (mkPose (V3 (mul (vx (uj_axis j)) a) (mul (vy (uj_axis j)) a) (mul (vz (uj_axis j)) a)) q_clear)
  | _ => uj_origin j
  end.

(** Links attached later: (name, parent, offset). *)
Definition Added := list (string * string * Pose).

(** Forward kinematics: the pose of a link, for joint angles given by joint name. *)
Inductive fk (js : list UJoint) (root : string) (added : Added) (q : string -> num) (base : Pose)
  : string -> Pose -> Prop :=
| fk_root : fk js root added q base root base
| fk_joint j P : In j js -> fk js root added q base (uj_parent j) P ->
    fk js root added q base (uj_child j) (pose_transform P (motion j (q (uj_name j))))
| fk_added n p T P : In (n, p, T) added -> fk js root added q base p P ->
    fk js root added q base n (pose_transform P T).

(** Joint [j] lies on the path from the root to link [n]. *)
Inductive carries (js : list UJoint) (added : Added) (j : UJoint) : string -> Prop :=
| carries_child : carries js added j (uj_child j)
| carries_joint j' : In j' js -> carries js added j (uj_parent j') -> carries js added j (uj_child j')
| carries_added n p T : In (n, p, T) added -> carries js added j p -> carries js added j n.

(** Number of joints (including fixed ones) between link [n] and the root. *)
Inductive levels (js : list UJoint) (root : string) (added : Added) : string -> nat -> Prop :=
| levels_root : levels js root added root 0
| levels_joint j d : In j js -> levels js root added (uj_parent j) d -> levels js root added (uj_child j) (S d)
| levels_added n p T d : In (n, p, T) added -> levels js root added p d -> levels js root added n (S d).

Definition is_movable (t : JType) : Prop := t = REVOLUTE \/ t = CONTINUOUS \/ t = PRISMATIC.
Definition is_supported (t : JType) : Prop := is_movable t \/ t = FIXED.

(** The names strictly increase in std::string order. *)
Definition name_lt (a b : string) : Prop := String.compare a b = Lt.

(** Massive links, in order of their names, give one centre-of-mass link each. *)
Definition com_links (sorted : list (string * option Inertial)) : Added :=
  flat_map (fun l => match snd l with
                     | None => []
                     | Some i => [((fst l ++ "_com")%string, fst l, mkPose (position (in_origin i)) q_clear)]
                     end) sorted.

(** The description given by the children of a <robot> element. *)
Fixpoint all_joints (l : list xml) : option (list UJoint) :=
  match l with
  | [] => Some []
  | x :: t => match parseJoint x, all_joints t with Some j, Some js => Some (j :: js) | _, _ => None end
  end.
Definition link_desc (x : xml) : string * option Inertial := (ul_name (parseLink x), ul_inertial (parseLink x)).
Definition robot_of_kids (kids : list xml) : option Robot :=
  option_map (mkRobot (map link_desc (children "link" kids))) (all_joints (children "joint" kids)).

(** The document (top-level nodes) is a robot element with acceptable name, version and
    materials, whose links and joints are [R]. *)
Definition describes (top : list xml) (R : Robot) : Prop :=
  exists robot name,
    hd_error (children "robot" top) = Some robot /\ attribute "name" robot = Some name /\
    version_ok (attribute "version" robot) = true /\
    materials_ok [] (children "material" (x_kids robot)) = true /\
    robot_of_kids (x_kids robot) = Some R.

End Spec.
