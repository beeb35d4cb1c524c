(** What a robot description looks like after being written with exportURDF and read again. *)
From Coq Require Import String Ascii List.
From Verif Require Import Base Num Pose DataStructure Urdf Kin Appear Export Spec_Str.
Import ListNotations.

Section SpecExport.
Context `{A : Arith}.
(** how the output stream prints a number *)
Context (show : num -> string).

(** The printed number is one word, and it is a number. *)
Definition printable (x : num) : Prop := show x <> EmptyString /\ no_space (show x) /\ str_to_double (show x) <> None.
(** The number that a printed number stands for. *)
Definition again (x : num) : num := match str_to_double (show x) with Some y => y | None => x end.

Definition again_vector (v : Vector3) : Vector3 := V3 (again (vx v)) (again (vy v)) (again (vz v)).
(** Rotations are written as three angles. *)
Definition again_rotation (q : Rotation) : Rotation :=
  setFromRPY (again (vx (getRPY q))) (again (vy (getRPY q))) (again (vz (getRPY q))).
Definition again_pose (p : Pose) : Pose := mkPose (again_vector (position p)) (again_rotation (rotation p)).
Definition again_inertial (i : Inertial) : Inertial :=
  mkInertial (again_pose (in_origin i)) (again (in_mass i)) (again (ixx i)) (again (ixy i)) (again (ixz i)) (again (iyy i)) (again (iyz i)) (again (izz i)).
Definition again_limits (l : JointLimits) : JointLimits := mkLimits (again (lower l)) (again (upper l)) (again (effort l)) (again (velocity l)).
Definition again_mimic (m : JointMimic) : JointMimic := mkMimic (mimic_joint m) (again (multiplier m)) (again (offset m)).
Definition again_dynamics (d : JointDynamics) : JointDynamics := mkDynamics (again (damping d)) (again (friction d)).
Definition again_safety (s : JointSafety) : JointSafety :=
  mkSafety (again (soft_upper s)) (again (soft_lower s)) (again (k_position s)) (again (k_velocity s)).
Definition again_calibration (c : JointCalibration) : JointCalibration := mkCalibration (option_map again (rising c)) (option_map again (falling c)).

(** A joint read again: its name, type, links, limits, mimic, dynamics, safety and calibration
    data are kept.  Its origin is [o].  A mimic element that names no joint and a
    calibration without any value are dropped. *)
Definition again_ujoint (o : Pose) (u : UJoint) : UJoint :=
  mkUJoint (uj_name u) (uj_type u)
    (match uj_type u with FLOATING | FIXED => v_clear | _ => again_vector (uj_axis u) end)
    (uj_parent u) (uj_child u) o (option_map again_limits (uj_limits u))
    (match uj_mimic u with
     | Some m => if String.eqb (mimic_joint m) EmptyString then None else Some (again_mimic m)
     | None => None
     end).
Definition again_joint (o : Pose) (j : FJoint) : FJoint :=
  mkFJoint (again_ujoint o (fj_joint j)) (option_map again_dynamics (fj_dynamics j)) (option_map again_safety (fj_safety j))
    (match fj_calibration j with Some (mkCalibration None None) => None | Some c => Some (again_calibration c) | None => None end).
Definition again_ulink (l : ULink) : ULink :=
  mkULink (ul_name l) (option_map again_inertial (ul_inertial l)) (ul_parent l) (ul_pjoint l) (ul_children l).

(** The kinematic part of a description, every joint origin replaced by [o j]. *)
Definition again_robot (o : UJoint -> Pose) (mi : ModelInterface) : ModelInterface :=
  mkMI (mi_name mi) (map (fun kl => (fst kl, again_ulink (snd kl))) (mi_links mi))
       (map (fun kj => (fst kj, again_ujoint (o (snd kj)) (snd kj))) (mi_joints mi)) (mi_root mi).

(** The numbers that are printed. *)
Definition vector_numbers (v : Vector3) : list num := [vx v; vy v; vz v].
Definition pose_numbers (p : Pose) : list num := vector_numbers (position p) ++ vector_numbers (getRPY (rotation p)).
Definition of_option {B C} (f : B -> list C) (o : option B) : list C := match o with Some b => f b | None => [] end.
Definition inertial_numbers (i : Inertial) : list num := pose_numbers (in_origin i) ++ [in_mass i; ixx i; ixy i; ixz i; iyy i; iyz i; izz i].
Definition joint_numbers (j : FJoint) : list num :=
  vector_numbers (uj_axis (fj_joint j)) ++ pose_numbers (uj_origin (fj_joint j)) ++
  of_option (fun l => [lower l; upper l; effort l; velocity l]) (uj_limits (fj_joint j)) ++
  of_option (fun m => [multiplier m; offset m]) (uj_mimic (fj_joint j)) ++
  of_option (fun d => [damping d; friction d]) (fj_dynamics j) ++
  of_option (fun s => [soft_upper s; soft_lower s; k_position s; k_velocity s]) (fj_safety j) ++
  of_option (fun c => of_option (fun x => [x]) (rising c) ++ of_option (fun x => [x]) (falling c)) (fj_calibration j).
Definition kinematic_numbers (X : XModel) : list num :=
  flat_map (fun kl => of_option inertial_numbers (ul_inertial (snd kl))) (mi_links (fm_mi (xm_model X))) ++
  flat_map (fun kj => joint_numbers (snd kj)) (xm_joints X).

(** Looks.  Visuals and collisions are written without their names; a visual's reference to
    a material that was never defined is not written. *)
Definition again_color (c : Color) : Color := mkColor (again (c_r c)) (again (c_g c)) (again (c_b c)) (again (c_a c)).
Definition again_material (m : Material) : Material := mkMaterial (mat_name m) (mat_texture m) (again_color (mat_color m)).
Definition again_geometry (g : Geometry) : Geometry :=
  match g with
  | Sphere r => Sphere (again r)
  | Box d => Box (again_vector d)
  | Cylinder l r => Cylinder (again l) (again r)
  | Mesh f s => Mesh f (again_vector s)
  end.
Definition again_visual (v : Visual) : Visual :=
  mkVisual (again_pose (vis_origin v)) (again_geometry (vis_geometry v)) EmptyString
    (match vis_material v with Some _ => vis_material_name v | None => EmptyString end) (option_map again_material (vis_material v)).
Definition again_collision (c : Collision) : Collision := mkCollision (again_pose (col_origin c)) (again_geometry (col_geometry c)) EmptyString.
Definition some_left {B} (l : list B) : bool := match l with [] => false | _ => true end.
Definition again_link (f : FLink) : FLink :=
  mkFLink (again_ulink (fl_link f)) (some_left (fl_visuals f)) (map again_visual (fl_visuals f))
    (some_left (fl_collisions f)) (map again_collision (fl_collisions f)).

Definition geometry_numbers (g : Geometry) : list num :=
  match g with Sphere r => [r] | Box d => vector_numbers d | Cylinder l r => [l; r] | Mesh _ s => vector_numbers s end.
Definition color_numbers (m : Material) : list num := [c_r (mat_color m); c_g (mat_color m); c_b (mat_color m); c_a (mat_color m)].
Definition look_numbers (X : XModel) : list num :=
  flat_map (fun kl => flat_map (fun v => pose_numbers (vis_origin v) ++ geometry_numbers (vis_geometry v)) (fl_visuals (snd kl)) ++
                      flat_map (fun c => pose_numbers (col_origin c) ++ geometry_numbers (col_geometry c)) (fl_collisions (snd kl))) (fm_links (xm_model X)).
Definition colors (X : XModel) : list num :=
  flat_map (fun km => color_numbers (snd km)) (fm_materials (xm_model X)) ++
  flat_map (fun kl => flat_map (fun v => of_option color_numbers (vis_material v)) (fl_visuals (snd kl))) (fm_links (xm_model X)).
(** The printed number is still a colour. *)
Definition color_printable (x : num) : Prop := printable x /\ nlt (again x) n0 = false /\ nlt n1 (again x) = false.
Definition named_meshes (X : XModel) : Prop :=
  forall n f, In (n, f) (fm_links (xm_model X)) ->
    (forall v fn sc, In v (fl_visuals f) -> vis_geometry v = Mesh fn sc -> fn <> EmptyString) /\
    (forall c fn sc, In c (fl_collisions f) -> col_geometry c = Mesh fn sc -> fn <> EmptyString).

(** [robot_of X], what the library computes with. *)
Definition robot_of (X : XModel) : ModelInterface := fm_mi (xm_model X).
(** Writing and reading again. *)
Definition again_file (X : XModel) : option XModel := parseURDF_all (Some (exportURDF show X)).
End SpecExport.

(** Real numbers of the size of doubles. *)
From Coq Require Import Reals.
Definition size_ok (x : R) : Prop := x = 0%R \/ (powerRZ 10 (-900) <= Rabs x <= powerRZ 10 308)%R.
(** Numbers that can be written with six significant digits. *)
Definition six_digit (x : R) : Prop := exists m e : Z, (Z.abs m < 10 ^ 6)%Z /\ x = (IZR m * powerRZ 10 e)%R.
