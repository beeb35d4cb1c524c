(** Model of the URDF writer: exportURDF and the functions it calls
    (urdf_parser/src/{model,link,joint,pose}.cpp), from the reader's data structures back to
    TinyXML's document object model.  Also the parts of joints that Urdf.v only checks:
    dynamics, safety controllers and calibration. *)
From Coq Require Import QArith ZArith String Ascii List.
From Verif Require Import Base Num Pose DataStructure Urdf Kin Appear.
Import ListNotations.
Local Open Scope num_scope.

Section Export.
Context `{A : Arith}.

(** ** What is kept of joints *)

(** joint.h:52-65, JointDynamics *)
Record JointDynamics := mkDynamics { damping : num; friction : num }.
(** joint.h:85-134, JointSafety *)
Record JointSafety := mkSafety { soft_upper : num; soft_lower : num; k_position : num; k_velocity : num }.
(** joint.h:137-148, JointCalibration; reference_position is never read or written *)
Record JointCalibration := mkCalibration { rising : option num; falling : option num }.

(** joint.cpp:50-95, parseJointDynamics; [None] = returns false *)
Definition readJointDynamics (x : xml) : option JointDynamics :=
  match num_attr "damping" n0 x with None => None | Some d =>
  match num_attr "friction" n0 x with None => None | Some f =>
  match attribute "damping" x, attribute "friction" x with
  | None, None => None
  | _, _ => Some (mkDynamics d f)
  end end end.
(** joint.cpp:168-240, parseJointSafety *)
Definition readJointSafety (x : xml) : option JointSafety :=
  match num_attr "soft_lower_limit" n0 x with None => None | Some lo =>
  match num_attr "soft_upper_limit" n0 x with None => None | Some up =>
  match num_attr "k_position" n0 x with None => None | Some kp =>
  match req_num_attr "k_velocity" x with None => None | Some kv =>
  Some (mkSafety up lo kp kv) end end end end.
(** joint.cpp:242-281, parseJointCalibration *)
Definition opt_num_attr (name : string) (x : xml) : option (option num) :=
  match attribute name x with None => Some None | Some s => option_map Some (str_to_double s) end.
Definition readJointCalibration (x : xml) : option JointCalibration :=
  match opt_num_attr "rising" x with None => None | Some r =>
  match opt_num_attr "falling" x with None => None | Some f =>
  Some (mkCalibration r f) end end.

(** joint.h:167-277, Joint with all its members *)
Record FJoint := mkFJoint {
  fj_joint : UJoint; fj_dynamics : option JointDynamics;
  fj_safety : option JointSafety; fj_calibration : option JointCalibration }.

(** joint.cpp:470-494, 509-520: an optional child; outer [None] = malformed *)
Definition read_child {B} (tag : string) (f : xml -> option B) (x : xml) : option (option B) :=
  match first_child tag x with None => Some None | Some e => option_map Some (f e) end.

(** joint.cpp:337-523, parseJoint; [None] = returns false *)
Definition parseJoint_full (x : xml) : option FJoint :=
  match parseJoint x with None => None | Some j =>
  match read_child "safety_controller" readJointSafety x with None => None | Some s =>
  match read_child "calibration" readJointCalibration x with None => None | Some c =>
  match read_child "dynamics" readJointDynamics x with None => None | Some d =>
  Some (mkFJoint j d s c) end end end end.

(** model.cpp:211-237, the loop over joint elements *)
Fixpoint parse_joints_full (l : list xml) (acc : list (string * FJoint)) : option (list (string * FJoint)) :=
  match l with
  | [] => Some acc
  | x :: t =>
      match parseJoint_full x with
      | None => None
      | Some j => match assoc (uj_name (fj_joint j)) acc with
                  | Some _ => None
                  | None => parse_joints_full t (map_insert (uj_name (fj_joint j)) j acc)
                  end
      end
  end.

(** model.h:186-200, ModelInterface with everything in it *)
Record XModel := mkX { xm_model : FModel; xm_joints : list (string * FJoint) }.

(** model.cpp:91-270, parseURDF: as [parseURDF_full], with the joints in full *)
Definition parseURDF_all (doc : option (list xml)) : option XModel :=
  match doc with None => None | Some top =>
  match parseURDF_full (Some top), hd_error (children "robot" top) with
  | Some F, Some robot =>
      match parse_joints_full (children "joint" (x_kids robot)) [] with
      | None => None
      | Some js => Some (mkX F js)
      end
  | _, _ => None
  end end.

(** ** The writer *)

(** How a stream prints a double (pose.cpp:54, operator<<). *)
Context (show : num -> string).

(** pose.cpp:48-58 and 82-85, values2str *)
Fixpoint values2str (l : list num) : string :=
  match l with
  | [] => EmptyString
  | [x] => show x
  | x :: t => append (show x) (String " " (values2str t))
  end.
(** pose.cpp:59-66 *)
Definition vec2str (v : Vector3) : string := values2str [vx v; vy v; vz v].
(** pose.cpp:67-72 *)
Definition rot2str (q : Rotation) : string := vec2str (getRPY q).
(** pose.cpp:73-81 *)
Definition color2str (c : Color) : string := values2str [c_r c; c_g c; c_b c; c_a c].

(** pose.cpp:128-137, exportPose *)
Definition exportPose (P : Pose) : xml :=
  XElem "origin" [("xyz", vec2str (position P)); ("rpy", rot2str (rotation P))]%string [].

(** link.cpp:491-506, exportMaterial *)
Definition exportMaterial (m : Material) : xml :=
  XElem "material" [("name", mat_name m)]%string
    [XElem "texture" (match mat_texture m with EmptyString => [] | f => [("filename", f)]%string end) [];
     XElem "color" [("rgba", color2str (mat_color m))]%string []].

(** link.cpp:508-577, exportSphere, exportBox, exportCylinder, exportMesh, exportGeometry.
    A visual or collision that was read has a geometry, so that the last branch of
    exportGeometry (a sphere of radius 0.03 for a null pointer) is not modelled. *)
Definition exportGeometry (g : Geometry) : xml :=
  XElem "geometry" []
    [match g with
     | Sphere r => XElem "sphere" [("radius", show r)]%string []
     | Box d => XElem "box" [("size", vec2str d)]%string []
     | Cylinder l r => XElem "cylinder" [("radius", show r); ("length", show l)]%string []
     | Mesh f s => XElem "mesh" (match f with EmptyString => [] | _ => [("filename", f)]%string end ++ [("scale", vec2str s)]%string)%list []
     end].

(** link.cpp:579-606, exportInertial *)
Definition exportInertial (i : Inertial) : xml :=
  XElem "inertial" []
    [XElem "mass" [("value", show (in_mass i))]%string [];
     exportPose (in_origin i);
     XElem "inertia" [("ixx", show (ixx i)); ("ixy", show (ixy i)); ("ixz", show (ixz i));
                      ("iyy", show (iyy i)); ("iyz", show (iyz i)); ("izz", show (izz i))]%string []].

(** link.cpp:608-629, exportVisual *)
Definition exportVisual (v : Visual) : xml :=
  XElem "visual" []
    ([exportPose (vis_origin v); exportGeometry (vis_geometry v)] ++
     match vis_material v with Some m => [exportMaterial m] | None => [] end).
(** link.cpp:631-649, exportCollision *)
Definition exportCollision (c : Collision) : xml :=
  XElem "collision" [] [exportPose (col_origin c); exportGeometry (col_geometry c)].

(** link.cpp:651-668, exportLink *)
Definition exportLink (l : FLink) : xml :=
  XElem "link" [("name", ul_name (fl_link l))]%string
    (match ul_inertial (fl_link l) with Some i => [exportInertial i] | None => [] end ++
     map exportVisual (fl_visuals l) ++ map exportCollision (fl_collisions l)).

(** joint.cpp:529-536, exportJointDynamics *)
Definition exportJointDynamics (d : JointDynamics) : xml :=
  XElem "dynamics" [("damping", show (damping d)); ("friction", show (friction d))]%string [].
(** joint.cpp:538-547, exportJointLimits *)
Definition exportJointLimits (l : JointLimits) : xml :=
  XElem "limit" [("effort", show (effort l)); ("velocity", show (velocity l)); ("lower", show (lower l)); ("upper", show (upper l))]%string [].
(** joint.cpp:549-558, exportJointSafety *)
Definition exportJointSafety (s : JointSafety) : xml :=
  XElem "safety_controller" [("k_position", show (k_position s)); ("k_velocity", show (k_velocity s));
                             ("soft_lower_limit", show (soft_lower s)); ("soft_upper_limit", show (soft_upper s))]%string [].
(** joint.cpp:560-573, exportJointCalibration *)
Definition exportJointCalibration (c : JointCalibration) : list xml :=
  match falling c, rising c with
  | None, None => []
  | f, r => [XElem "calibration" (match f with Some x => [("falling", show x)]%string | None => [] end ++
                                  match r with Some x => [("rising", show x)]%string | None => [] end)%list []]
  end.
(** joint.cpp:575-586, exportJointMimic *)
Definition exportJointMimic (m : JointMimic) : list xml :=
  match mimic_joint m with
  | EmptyString => []
  | n => [XElem "mimic" [("offset", show (offset m)); ("multiplier", show (multiplier m)); ("joint", n)]%string []]
  end.

(** joint.cpp:592-603, the type attribute *)
Definition type_name (t : JType) : option string :=
  match t with
  | PLANAR => Some "planar" | FLOATING => Some "floating" | REVOLUTE => Some "revolute"
  | CONTINUOUS => Some "continuous" | PRISMATIC => Some "prismatic" | FIXED => Some "fixed"
  | UNKNOWN => None
  end%string.

(** joint.cpp:588-638, exportJoint.  The message of line 605 is commented out, so that the
    statement after it, exportPose of line 608, is the body of the last [else]: the origin is
    written for joints of unknown type only. *)
Definition exportJoint (j : FJoint) : xml :=
  let u := fj_joint j in
  XElem "joint"
    (("name", uj_name u)%string :: match type_name (uj_type u) with Some t => [("type", t)]%string | None => [] end)
    (match type_name (uj_type u) with Some _ => [] | None => [exportPose (uj_origin u)] end ++
     [XElem "axis" [("xyz", vec2str (uj_axis u))]%string [];
      XElem "parent" [("link", uj_parent u)]%string [];
      XElem "child" [("link", uj_child u)]%string []] ++
     match fj_dynamics j with Some d => [exportJointDynamics d] | None => [] end ++
     match uj_limits u with Some l => [exportJointLimits l] | None => [] end ++
     match fj_safety j with Some s => [exportJointSafety s] | None => [] end ++
     match fj_calibration j with Some c => exportJointCalibration c | None => [] end ++
     match uj_mimic u with Some m => exportJointMimic m | None => [] end).

(** model.cpp:275-303, exportURDF: the top-level nodes of the document *)
Definition exportURDF (X : XModel) : list xml :=
  [XElem "robot" [("name", mi_name (fm_mi (xm_model X)))]%string
     (map (fun e => exportMaterial (snd e)) (fm_materials (xm_model X)) ++
      map (fun e => exportLink (snd e)) (fm_links (xm_model X)) ++
      map (fun e => exportJoint (snd e)) (xm_joints X))].

End Export.
