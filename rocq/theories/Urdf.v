(** Model of the URDF reader: urdf_parser/src/{model,joint,link}.cpp,
    urdf_parser/include/urdf_model/{model,joint,link}.h and
    urdf_parser/include/urdf_parser/urdf_parser.h, from the XML document object
    model to [ModelInterface].

    Left to Appear.v: visual and collision elements and materials' colours (they have
    no effect on kinematics: parseLink's result is ignored by parseURDF, and a
    link's name and inertial data are stored before visuals are read; C81 proves it). *)
From Coq Require Import QArith ZArith String Ascii List.
From Verif Require Import Base Num Pose.
Import ListNotations.
Local Open Scope num_scope.

(** TinyXML's document object model as seen by the reader: elements, and nodes
    that are not elements (text, comments, declarations, unknown). *)
Inductive xml :=
| XElem (tag : string) (attrs : list (string * string)) (kids : list xml)
| XOther.

Definition x_kids (x : xml) : list xml := match x with XElem _ _ k => k | XOther => [] end.

(** TiXmlNode::FirstChildElement(name) + NextSiblingElement(name): all child
    elements with that tag, in document order (tinyxml.cpp). *)
Definition children (tag : string) (l : list xml) : list xml :=
  filter (fun x => match x with XElem t _ _ => String.eqb t tag | XOther => false end) l.

(** TiXmlNode::FirstChildElement(name) *)
Definition first_child (tag : string) (x : xml) : option xml := hd_error (children tag (x_kids x)).

(** TiXmlElement::Attribute(name); [None] = NULL *)
Definition attribute (name : string) (x : xml) : option string :=
  match x with XElem _ a _ => assoc name a | XOther => None end.

Section Urdf.
Context `{A : Arith}.

(** joint.h:172-175, the enum Joint::type *)
Inductive JType := UNKNOWN | REVOLUTE | CONTINUOUS | PRISMATIC | FLOATING | PLANAR | FIXED.

(** joint.h:66-82, JointLimits *)
Record JointLimits := mkLimits { lower : num; upper : num; effort : num; velocity : num }.
(** joint.h:150-165, JointMimic *)
Record JointMimic := mkMimic { mimic_joint : string; multiplier : num; offset : num }.
(** link.h:131-145, Inertial *)
Record Inertial := mkInertial {
  in_origin : Pose; in_mass : num;
  ixx : num; ixy : num; ixz : num; iyy : num; iyz : num; izz : num }.

(** joint.h:167-277, Joint as produced by parseJoint.  Dynamics, safety and
    calibration only matter for whether parsing succeeds and are not stored. *)
Record UJoint := mkUJoint {
  uj_name : string; uj_type : JType; uj_axis : Vector3;
  uj_parent : string; uj_child : string; uj_origin : Pose;
  uj_limits : option JointLimits; uj_mimic : option JointMimic }.

(** link.h:188-243, Link after parseLink and initTree.  Links and joints are
    referred to by name (they are keys of maps in ModelInterface). *)
Record ULink := mkULink {
  ul_name : string;
  ul_inertial : option Inertial;
  ul_parent : option string;        (* parent_link_ *)
  ul_pjoint : option string;        (* parent_joint *)
  ul_children : list string }.      (* child_links *)

(** model.h:186-200, ModelInterface.  std::map is a list sorted by key. *)
Record ModelInterface := mkMI {
  mi_name : string;
  mi_links : list (string * ULink);
  mi_joints : list (string * UJoint);
  mi_root : string }.

(** std::map::insert: keys in std::string order; an existing key is kept. *)
Fixpoint map_insert {B} (k : string) (b : B) (l : list (string * B)) : list (string * B) :=
  match l with
  | [] => [(k, b)]
  | (k', b') :: t =>
      match String.compare k k' with
      | Lt => (k, b) :: l
      | Eq => l
      | Gt => (k', b') :: map_insert k b t
      end
  end.

(** Change the value stored under a key of a std::map (through its pointer). *)
Fixpoint map_update {B} (k : string) (f : B -> B) (l : list (string * B)) : list (string * B) :=
  match l with
  | [] => []
  | (k', b) :: t => if String.eqb k k' then (k', f b) :: t else (k', b) :: map_update k f t
  end.

(** src/pose.cpp:96-126, parsePose: result and the pose as left behind *)
Definition parsePose (x : xml) : bool * Pose :=
  match attribute "xyz" x with
  | Some s =>
      match v_init s with
      | None => (false, pose_clear)
      | Some p =>
          match attribute "rpy" x with
          | Some r => match q_init r with
                      | None => (false, mkPose p q_clear)
                      | Some q => (true, mkPose p q)
                      end
          | None => (true, mkPose p q_clear)
          end
      end
  | None =>
      match attribute "rpy" x with
      | Some r => match q_init r with
                  | None => (false, pose_clear)
                  | Some q => (true, mkPose v_clear q)
                  end
      | None => (true, pose_clear)
      end
  end.

(** An optional number attribute with a default: the pattern of joint.cpp:102-116
    etc.; [None] = not a valid number, parsing fails. *)
Definition num_attr (name : string) (d : num) (x : xml) : option num :=
  match attribute name x with None => Some d | Some s => str_to_double s end.

(** A mandatory number attribute, joint.cpp:134-149 etc. *)
Definition req_num_attr (name : string) (x : xml) : option num :=
  match attribute name x with None => None | Some s => str_to_double s end.

(** joint.cpp:97-166, parseJointLimits; [None] = returns false *)
Definition parseJointLimits (x : xml) : option JointLimits :=
  match num_attr "lower" n0 x with None => None | Some lo =>
  match num_attr "upper" n0 x with None => None | Some up =>
  match req_num_attr "effort" x with None => None | Some ef =>
  match req_num_attr "velocity" x with None => None | Some ve =>
  Some (mkLimits lo up ef ve) end end end end.

(** joint.cpp:168-240, parseJointSafety (result only) *)
Definition parseJointSafety (x : xml) : bool :=
  match num_attr "soft_lower_limit" n0 x, num_attr "soft_upper_limit" n0 x,
        num_attr "k_position" n0 x, req_num_attr "k_velocity" x with
  | Some _, Some _, Some _, Some _ => true
  | _, _, _, _ => false
  end.

(** joint.cpp:242-281, parseJointCalibration (result only) *)
Definition parseJointCalibration (x : xml) : bool :=
  match num_attr "rising" n0 x, num_attr "falling" n0 x with
  | Some _, Some _ => true
  | _, _ => false
  end.

(** joint.cpp:50-95, parseJointDynamics (result only) *)
Definition parseJointDynamics (x : xml) : bool :=
  match num_attr "damping" n0 x, num_attr "friction" n0 x with
  | Some _, Some _ =>
      match attribute "damping" x, attribute "friction" x with
      | None, None => false
      | _, _ => true
      end
  | _, _ => false
  end.

(** joint.cpp:283-335, parseJointMimic *)
Definition parseJointMimic (x : xml) : option JointMimic :=
  match attribute "joint" x with None => None | Some j =>
  match num_attr "multiplier" n1 x with None => None | Some m =>
  match num_attr "offset" n0 x with None => None | Some o =>
  Some (mkMimic j m o) end end end.

(** joint.cpp:397-423, joint type names *)
Definition joint_type_of_string (s : string) : option JType :=
  if String.eqb s "planar" then Some PLANAR
  else if String.eqb s "floating" then Some FLOATING
  else if String.eqb s "revolute" then Some REVOLUTE
  else if String.eqb s "continuous" then Some CONTINUOUS
  else if String.eqb s "prismatic" then Some PRISMATIC
  else if String.eqb s "fixed" then Some FIXED
  else None.

(** joint.cpp:350-365, origin; [None] = malformed *)
Definition parse_joint_origin (x : xml) : option Pose :=
  match first_child "origin" x with
  | None => Some pose_clear
  | Some o => let (ok, p) := parsePose o in if ok then Some p else None
  end.

(** joint.cpp:367-393, link name of the <parent> or <child> element; "" if absent *)
Definition link_ref (tag : string) (x : xml) : string :=
  match first_child tag x with
  | None => EmptyString
  | Some p => match attribute "link" p with None => EmptyString | Some s => s end
  end.

(** joint.cpp:425-446, axis; an <axis> element without xyz leaves the axis zero *)
Definition parse_axis (ty : JType) (x : xml) : option Vector3 :=
  match ty with
  | FLOATING | FIXED => Some v_clear
  | _ => match first_child "axis" x with
         | None => Some (V3 n1 n0 n0)
         | Some a => match attribute "xyz" a with
                     | None => Some v_clear
                     | Some s => v_init s
                     end
         end
  end.

(** joint.cpp:447-468, limit; outer [None] = failure *)
Definition parse_limit (ty : JType) (x : xml) : option (option JointLimits) :=
  match first_child "limit" x with
  | Some l => match parseJointLimits l with None => None | Some v => Some (Some v) end
  | None => match ty with REVOLUTE | PRISMATIC => None | _ => Some None end
  end.

(** Optional sub-element that must parse when present, joint.cpp:470-494,509-520 *)
Definition opt_child_ok (tag : string) (f : xml -> bool) (x : xml) : bool :=
  match first_child tag x with None => true | Some e => f e end.

(** joint.cpp:496-507, mimic; outer [None] = failure *)
Definition parse_mimic (x : xml) : option (option JointMimic) :=
  match first_child "mimic" x with
  | None => Some None
  | Some e => match parseJointMimic e with None => None | Some m => Some (Some m) end
  end.

(** joint.cpp:337-523, parseJoint; [None] = returns false *)
Definition parseJoint (x : xml) : option UJoint :=
  match attribute "name" x with None => None | Some name =>
  match parse_joint_origin x with None => None | Some o =>
  match attribute "type" x with None => None | Some ts =>
  match joint_type_of_string ts with None => None | Some ty =>
  match parse_axis ty x with None => None | Some ax =>
  match parse_limit ty x with None => None | Some lim =>
  if negb (opt_child_ok "safety_controller" parseJointSafety x) then None else
  if negb (opt_child_ok "calibration" parseJointCalibration x) then None else
  match parse_mimic x with None => None | Some mim =>
  if negb (opt_child_ok "dynamics" parseJointDynamics x) then None else
  Some (mkUJoint name ty ax (link_ref "parent" x) (link_ref "child" x) o lim mim)
  end end end end end end end.

(** link.cpp:269-347, parseInertial: result and the value left behind (parseLink
    keeps the partially filled object) *)
Definition parseInertial (x : xml) : bool * Inertial :=
  let blank o m := mkInertial o m n0 n0 n0 n0 n0 n0 in
  let (ok, o) := match first_child "origin" x with None => (true, pose_clear) | Some e => parsePose e end in
  if negb ok then (false, blank o n0) else
  match first_child "mass" x with None => (false, blank o n0) | Some mx =>
  match req_num_attr "value" mx with None => (false, blank o n0) | Some m =>
  match first_child "inertia" x with None => (false, blank o m) | Some ix =>
  match req_num_attr "ixx" ix, req_num_attr "ixy" ix, req_num_attr "ixz" ix,
        req_num_attr "iyy" ix, req_num_attr "iyz" ix, req_num_attr "izz" ix with
  | Some a, Some b, Some c, Some d, Some e, Some f => (true, mkInertial o m a b c d e f)
  | _, _, _, _, _, _ => (false, blank o m)
  end end end end.

(** link.cpp:415-486, parseLink up to the visuals: the link as left behind.  Its
    boolean result is ignored by parseURDF (model.cpp:175), so it is not returned;
    a missing name leaves the name empty. *)
Definition parseLink (x : xml) : ULink :=
  match attribute "name" x with
  | None => mkULink EmptyString None None None []
  | Some n =>
      mkULink n (match first_child "inertial" x with
                 | None => None
                 | Some i => Some (snd (parseInertial i))
                 end) None None []
  end.

(** model.cpp:139-166 with link.cpp:55-66: materials; only the names matter
    (a second material of the same name rejects the document; a missing name
    counts as the empty name).  Result: false = document rejected. *)
Fixpoint materials_ok (seen : list string) (l : list xml) : bool :=
  match l with
  | [] => true
  | m :: t =>
      let n := match attribute "name" m with None => EmptyString | Some s => s end in
      if existsb (String.eqb n) seen then false else materials_ok (n :: seen) t
  end.

(** model.cpp:168-204, the loop over link elements; [None] = name not unique *)
Fixpoint parse_links (l : list xml) (acc : list (string * ULink)) : option (list (string * ULink)) :=
  match l with
  | [] => Some acc
  | x :: t =>
      let lk := parseLink x in
      match assoc (ul_name lk) acc with
      | Some _ => None
      | None => parse_links t (map_insert (ul_name lk) lk acc)
      end
  end.

(** model.cpp:211-237, the loop over joint elements *)
Fixpoint parse_joints (l : list xml) (acc : list (string * UJoint)) : option (list (string * UJoint)) :=
  match l with
  | [] => Some acc
  | x :: t =>
      match parseJoint x with
      | None => None
      | Some j => match assoc (uj_name j) acc with
                  | Some _ => None
                  | None => parse_joints t (map_insert (uj_name j) j acc)
                  end
      end
  end.

(** urdf_parser.h:105-132 strToUnsigned with the C library's strtol (base 10:
    white space, sign, digits; clamped to long; converted to uint32_t) *)
Definition is_space (c : ascii) : bool :=
  let n := nat_of_ascii c in (Nat.eqb n 32) || (Nat.leb 9 n && Nat.leb n 13).
Definition is_digit (c : ascii) : bool :=
  let n := nat_of_ascii c in Nat.leb 48 n && Nat.leb n 57.
Definition digit_val (c : ascii) : Z := Z.of_nat (nat_of_ascii c) - 48.
Fixpoint skip_space (s : string) : string :=
  match s with String c t => if is_space c then skip_space t else s | EmptyString => s end.
Fixpoint digits (acc : Z) (s : string) : Z * string :=
  match s with
  | String c t => if is_digit c then digits (10 * acc + digit_val c)%Z t else (acc, s)
  | EmptyString => (acc, s)
  end.
(** value and the unread rest; [None] = no digits ([end == str]) *)
Definition strtol (s : string) : option (Z * string) :=
  let s := skip_space s in
  let (neg, s) := match s with
                  | String "-"%char t => (true, t)
                  | String "+"%char t => (false, t)
                  | _ => (false, s)
                  end in
  match s with
  | String c _ =>
      if is_digit c then
        let (v, rest) := digits 0 s in
        let v := if neg then (- v)%Z else v in
        Some (Z.max (- 2 ^ 63) (Z.min (2 ^ 63 - 1) v), rest)
      else None
  | EmptyString => None
  end.
Definition strToUnsigned (s : string) : option Z :=
  match s with
  | EmptyString => None
  | _ => match strtol s with
         | Some (v, EmptyString) => if (v <? 0)%Z then None else Some (v mod 2 ^ 32)%Z
         | _ => None
         end
  end.

(** urdf_parser.h:64-93 and model.cpp:124-137: is the version attribute accepted? *)
Definition version_ok (v : option string) : bool :=
  match v with
  | None => true
  | Some s =>
      match split_string "."%char s with
      | [a; b] => match strToUnsigned a, strToUnsigned b with
                  | Some x, Some y => (x =? 1)%Z && (y =? 0)%Z
                  | _, _ => false
                  end
      | _ => false
      end
  end.

Definition set_parent (p j : string) (l : ULink) : ULink :=
  mkULink (ul_name l) (ul_inertial l) (Some p) (Some j) (ul_children l).
Definition add_child (c : string) (l : ULink) : ULink :=
  mkULink (ul_name l) (ul_inertial l) (ul_parent l) (ul_pjoint l) (ul_children l ++ [c]).

(** model.h:113-156, initTree: joints in map order; [None] = ParseError.
    [parent_link_tree] has a key exactly for the links whose parent was set. *)
Fixpoint initTree (js : list (string * UJoint)) (links : list (string * ULink))
  : option (list (string * ULink)) :=
  match js with
  | [] => Some links
  | (jn, j) :: t =>
      if String.eqb (uj_parent j) "" || String.eqb (uj_child j) "" then None else
      match assoc (uj_child j) links with None => None | Some _ =>
      match assoc (uj_parent j) links with None => None | Some _ =>
      initTree t (map_update (uj_parent j) (add_child (uj_child j))
                   (map_update (uj_child j) (set_parent (uj_parent j) jn) links))
      end end
  end.

(** model.h:158-184, initRoot; [None] = ParseError (no root or two roots) *)
Definition initRoot (links : list (string * ULink)) : option string :=
  match filter (fun kl => match ul_parent (snd kl) with None => true | Some _ => false end) links with
  | [(n, _)] => Some n
  | _ => None
  end.

(** model.cpp:139-269: from the children of the robot element *)
Definition parse_robot_kids (name : string) (kids : list xml) : option ModelInterface :=
  if negb (materials_ok [] (children "material" kids)) then None else
  match parse_links (children "link" kids) [] with None => None | Some links =>
  match links with
  | [] => None
  | _ =>
  match parse_joints (children "joint" kids) [] with None => None | Some joints =>
  match initTree joints links with None => None | Some links' =>
  match initRoot links' with None => None | Some r =>
  Some (mkMI name links' joints r)
  end end end end end.

(** model.cpp:91-270, parseURDF from TinyXML's result: [None] = XML error,
    [Some kids] = top-level nodes of the document; result [None] = null pointer *)
Definition parseURDF_dom (doc : option (list xml)) : option ModelInterface :=
  match doc with None => None | Some top =>
  match hd_error (children "robot" top) with None => None | Some robot =>
  match attribute "name" robot with None => None | Some name =>
  if negb (version_ok (attribute "version" robot)) then None else
  parse_robot_kids name (x_kids robot)
  end end end.

End Urdf.
