(** What the elements of a URDF document mean, attribute by attribute, without reference to
    the reading functions. *)
From Coq Require Import ZArith String Ascii List.
From Verif Require Import Base Num Pose Urdf Spec_Str Spec_Robot.
Import ListNotations.
Local Open Scope string_scope.

Section Meaning.
Context `{A : Arith}.

(** ** Elements, their children and attributes *)

Definition tagged (tag : string) (x : xml) : Prop := exists attrs kids, x = XElem tag attrs kids.

(** [es] are the nodes of [kids] with that tag, in order *)
Inductive elements (tag : string) : list xml -> list xml -> Prop :=
| els_nil : elements tag [] []
| els_take x kids es : tagged tag x -> elements tag kids es -> elements tag (x :: kids) (x :: es)
| els_skip x kids es : ~ tagged tag x -> elements tag kids es -> elements tag (x :: kids) es.

Definition inside (x : xml) (kids : list xml) : Prop :=
  match x with XElem _ _ k => kids = k | XOther => kids = [] end.

(** [e] is the first child of [x] with that tag *)
Definition child (x : xml) (tag : string) (e : xml) : Prop := exists kids es, inside x kids /\ elements tag kids (e :: es).
(** [x] has no child with that tag *)
Definition no_child (x : xml) (tag : string) : Prop := exists kids, inside x kids /\ elements tag kids [].

(** [x] has the attribute [n] with the value [v] (the first one, should a name occur twice) *)
Definition has_attr (x : xml) (n v : string) : Prop :=
  exists tag before after kids, x = XElem tag (before ++ (n, v) :: after)%list kids /\ ~ In n (map fst before).
Definition no_attr (x : xml) (n : string) : Prop := forall tag attrs kids, x = XElem tag attrs kids -> ~ In n (map fst attrs).

(** an optional number attribute with a default value *)
Definition number_or (x : xml) (n : string) (default v : num) : Prop :=
  (no_attr x n /\ v = default) \/ (exists s, has_attr x n s /\ str_to_double s = Some v).
(** a required number attribute *)
Definition a_number (x : xml) (n : string) (v : num) : Prop := exists s, has_attr x n s /\ str_to_double s = Some v.

(** three numbers separated by spaces *)
Definition triple (s : string) (v : Vector3) : Prop :=
  exists a b c, words s [a; b; c] /\ str_to_double a = Some (vx v) /\ str_to_double b = Some (vy v) /\ str_to_double c = Some (vz v).

(** <origin xyz="x y z" rpy="r p y"/>, both attributes optional *)
Definition origin_reads (e : xml) (P : Pose) : Prop :=
  ((no_attr e "xyz" /\ position P = V3 n0 n0 n0) \/ (exists s, has_attr e "xyz" s /\ triple s (position P))) /\
  ((no_attr e "rpy" /\ rotation P = Q4 n0 n0 n0 n1) \/
   (exists s r, has_attr e "rpy" s /\ triple s r /\ rotation P = setFromRPY (vx r) (vy r) (vz r))).

(** ** Joints *)

Definition type_word (s : string) (t : JType) : Prop :=
  In (s, t) [("revolute", REVOLUTE); ("continuous", CONTINUOUS); ("prismatic", PRISMATIC);
             ("fixed", FIXED); ("floating", FLOATING); ("planar", PLANAR)].

(** the link named by the <parent> or <child> element of [x]; empty if there is none *)
Definition end_reads (x : xml) (tag name : string) : Prop :=
  (exists e, child x tag e /\ has_attr e "link" name) \/
  (((exists e, child x tag e /\ no_attr e "link") \/ no_child x tag) /\ name = "").

Definition limit_reads (e : xml) (l : JointLimits) : Prop :=
  number_or e "lower" n0 (lower l) /\ number_or e "upper" n0 (upper l) /\
  a_number e "effort" (effort l) /\ a_number e "velocity" (velocity l).

Definition mimic_reads (e : xml) (m : JointMimic) : Prop :=
  has_attr e "joint" (mimic_joint m) /\ number_or e "multiplier" n1 (multiplier m) /\ number_or e "offset" n0 (offset m).

(** <axis xyz="x y z"/>: the first axis if there is no such element; zero if it has no xyz *)
Definition axis_reads (x : xml) (v : Vector3) : Prop :=
  (no_child x "axis" /\ v = V3 n1 n0 n0) \/
  (exists e, child x "axis" e /\ no_attr e "xyz" /\ v = V3 n0 n0 n0) \/
  (exists e s, child x "axis" e /\ has_attr e "xyz" s /\ triple s v).

Definition well_formed (x : xml) (n : string) : Prop := exists v, number_or x n n0 v.

Record joint_reads (x : xml) (j : UJoint) : Prop := {
  jr_name : has_attr x "name" (uj_name j);
  jr_type : exists s, has_attr x "type" s /\ type_word s (uj_type j);
  jr_origin : (no_child x "origin" /\ uj_origin j = mkPose (V3 n0 n0 n0) (Q4 n0 n0 n0 n1)) \/
              (exists e, child x "origin" e /\ origin_reads e (uj_origin j));
  jr_parent : end_reads x "parent" (uj_parent j);
  jr_child : end_reads x "child" (uj_child j);
  jr_axis : if (match uj_type j with FLOATING | FIXED => true | _ => false end)
            then uj_axis j = V3 n0 n0 n0 else axis_reads x (uj_axis j);
  jr_limit : match uj_limits j with
             | Some l => exists e, child x "limit" e /\ limit_reads e l
             | None => no_child x "limit" /\ uj_type j <> REVOLUTE /\ uj_type j <> PRISMATIC
             end;
  jr_mimic : match uj_mimic j with
             | Some m => exists e, child x "mimic" e /\ mimic_reads e m
             | None => no_child x "mimic"
             end;
  (* ignored by the kinematics, but malformed ones make the document unreadable *)
  jr_safety : no_child x "safety_controller" \/
    (exists e v, child x "safety_controller" e /\ a_number e "k_velocity" v /\ well_formed e "soft_lower_limit" /\
      well_formed e "soft_upper_limit" /\ well_formed e "k_position");
  jr_calibration : no_child x "calibration" \/
    (exists e, child x "calibration" e /\ well_formed e "rising" /\ well_formed e "falling");
  jr_dynamics : no_child x "dynamics" \/
    (exists e, child x "dynamics" e /\ well_formed e "damping" /\ well_formed e "friction" /\
      ~ (no_attr e "damping" /\ no_attr e "friction"))
}.

(** ** Links *)

Definition origin_or_none (x : xml) (P : Pose) : Prop :=
  (no_child x "origin" /\ P = mkPose (V3 n0 n0 n0) (Q4 n0 n0 n0 n1)) \/ (exists e, child x "origin" e /\ origin_reads e P).

(** a well-formed <inertial> element *)
Definition inertial_reads (x : xml) (i : Inertial) : Prop :=
  origin_or_none x (in_origin i) /\
  (exists e, child x "mass" e /\ a_number e "value" (in_mass i)) /\
  (exists e, child x "inertia" e /\ a_number e "ixx" (ixx i) /\ a_number e "ixy" (ixy i) /\ a_number e "ixz" (ixz i) /\
     a_number e "iyy" (iyy i) /\ a_number e "iyz" (iyz i) /\ a_number e "izz" (izz i)).

(** What is kept of a malformed <inertial> element: the parts read before the mistake.  A
    malformed xyz leaves no origin; a malformed rpy leaves the position. *)
Definition inertial_keeps (x : xml) (i : Inertial) : Prop :=
  ixx i = n0 /\ ixy i = n0 /\ ixz i = n0 /\ iyy i = n0 /\ iyz i = n0 /\ izz i = n0 /\
  (** origin, mass *)
  ((exists e, child x "origin" e /\ (forall P, ~ origin_reads e P) /\ in_mass i = n0 /\ rotation (in_origin i) = Q4 n0 n0 n0 n1 /\
      ((exists s, has_attr e "xyz" s /\ triple s (position (in_origin i))) \/
       ((forall s v, has_attr e "xyz" s -> ~ triple s v) /\ position (in_origin i) = V3 n0 n0 n0))) \/
   (origin_or_none x (in_origin i) /\
     ((exists e, child x "mass" e /\ a_number e "value" (in_mass i)) \/
      ((forall e v, child x "mass" e -> ~ a_number e "value" v) /\ in_mass i = n0)))).

Definition malformed (x : xml) : Prop := forall i, ~ inertial_reads x i.

(** a <link> element: its name (empty if missing) and its inertial data *)
Inductive link_reads (x : xml) : string * option Inertial -> Prop :=
| lr_plain n : has_attr x "name" n -> no_child x "inertial" -> link_reads x (n, None)
| lr_mass n e i : has_attr x "name" n -> child x "inertial" e -> inertial_reads e i -> link_reads x (n, Some i)
| lr_malformed n e i : has_attr x "name" n -> child x "inertial" e -> malformed e -> inertial_keeps e i -> link_reads x (n, Some i)
| lr_nameless : no_attr x "name" -> link_reads x ("", None).

(** ** Documents *)

(** a version field: an integer, read as a 64-bit number and cut to 32 bits *)
Definition version_field (s : string) (n : Z) : Prop :=
  exists ws sg z ds, s = ws ++ sg ++ ds /\ all_white ws /\ sign sg z /\ ds <> "" /\ all_digits ds /\
    (0 <= z * number 0 ds)%Z /\ n = (Z.min (2 ^ 63 - 1) (z * number 0 ds) mod 2 ^ 32)%Z.

(** 1.0 (or no version); a final point is overlooked *)
Definition version_reads (x : xml) : Prop :=
  no_attr x "version" \/
  exists s a b, has_attr x "version" s /\ (s = a ++ "." ++ b \/ s = a ++ "." ++ b ++ ".") /\ version_field a 1 /\ version_field b 0.

(** the name of a material; empty if missing *)
Definition material_name (x : xml) (n : string) : Prop := has_attr x "name" n \/ (no_attr x "name" /\ n = "").

(** The document with these top-level nodes is about the robot [R]. *)
Definition document_reads (top : list xml) (R : Robot) : Prop :=
  exists robot rest kids materials mnames links joints,
    elements "robot" top (robot :: rest) /\ inside robot kids /\
    (exists name, has_attr robot "name" name) /\ version_reads robot /\
    elements "material" kids materials /\ Forall2 material_name materials mnames /\ NoDup mnames /\
    elements "link" kids links /\ Forall2 link_reads links (r_links R) /\
    elements "joint" kids joints /\ Forall2 joint_reads joints (r_joints R).



(** ** Nodes without meaning *)

(** tags of the children that are looked at inside an element (at the top of the document: "") *)
Definition used_inside (tag : string) : list string :=
  if String.eqb tag "" then ["robot"]
  else if String.eqb tag "robot" then ["material"; "link"; "joint"]
  else if String.eqb tag "link" then ["inertial"]
  else if String.eqb tag "inertial" then ["origin"; "mass"; "inertia"]
  else if String.eqb tag "joint" then ["origin"; "parent"; "child"; "axis"; "limit"; "safety_controller"; "calibration"; "mimic"; "dynamics"]
  else [].

Definition meaningless (tag : string) (x : xml) : Prop := forall t, In t (used_inside tag) -> ~ tagged t x.

(** [x] and [x'] differ only by nodes that are not looked at: comments, text, and elements such
    as <visual>, <collision>, <gazebo> or <transmission> *)
Inductive alike : xml -> xml -> Prop :=
| alike_elem tag attrs kids kids' : alike_kids tag kids kids' -> alike (XElem tag attrs kids) (XElem tag attrs kids')
with alike_kids : string -> list xml -> list xml -> Prop :=
| ak_nil tag : alike_kids tag [] []
| ak_both tag x x' k k' : alike x x' -> alike_kids tag k k' -> alike_kids tag (x :: k) (x' :: k')
| ak_left tag x k k' : meaningless tag x -> alike_kids tag k k' -> alike_kids tag (x :: k) k'
| ak_right tag x k k' : meaningless tag x -> alike_kids tag k k' -> alike_kids tag k (x :: k').

End Meaning.
