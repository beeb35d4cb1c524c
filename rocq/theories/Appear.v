(** Model of the parts of the URDF reader that Urdf.v leaves out: materials, visual and
    collision elements (link.cpp:55-267, 349-486, model.cpp:64-89, 139-204, color.h).
    The kinematic part of a link is the [ULink] of Urdf.v; its appearance is kept beside it. *)
From Coq Require Import QArith ZArith String Ascii List.
From Verif Require Import Base Num Pose DataStructure Urdf Kin.
Import ListNotations.
Local Open Scope num_scope.

Section Appear.
Context `{A : Arith}.

(** color.h:51-64, Color.  Simplification: components are stored without the narrowing to
    float of line 80. *)
Record Color := mkColor { c_r : num; c_g : num; c_b : num; c_a : num }.
Definition color_clear : Color := mkColor n0 n0 n0 n1.

(** color.h:65-99, Color::init: [None] = ParseError; otherwise the result and the colour
    as left behind.  The ParseError of line 79 is itself caught by line 82 and thrown anew. *)
Fixpoint conv_color (l : list string) : option (list num) :=
  match l with
  | [] => Some []
  | EmptyString :: t => conv_color t
  | p :: t => match str_to_double p with
              | None => None
              | Some d => if nlt d n0 || nlt n1 d then None else
                          match conv_color t with None => None | Some r => Some (d :: r) end
              end
  end.
Definition color_init (s : string) : option (bool * Color) :=
  match conv_color (split_string " "%char s) with
  | None => None
  | Some [r; g; b; a] => Some (true, mkColor r g b a)
  | Some _ => Some (false, color_clear)
  end.

(** link.h:115-129, Material *)
Record Material := mkMaterial { mat_name : string; mat_texture : string; mat_color : Color }.

(** link.cpp:55-107, parseMaterial: result and the material as left behind.  Its last
    argument only matters for messages. *)
Definition parseMaterial (x : xml) : bool * Material :=
  match attribute "name" x with
  | None => (false, mkMaterial EmptyString EmptyString color_clear)
  | Some n =>
      let file := match first_child "texture" x with None => None | Some t => attribute "filename" t end in
      let tex := match file with None => EmptyString | Some f => f end in
      let '(has_rgb, c) :=
        match first_child "color" x with
        | None => (false, color_clear)
        | Some c => match attribute "rgba" c with
                    | None => (false, color_clear)
                    | Some s => match color_init s with
                                | None => (false, color_clear)
                                | Some (_, col) => (true, col)
                                end
                    end
        end in
      (has_rgb || match file with None => false | Some _ => true end, mkMaterial n tex c)
  end.

(** link.h:50-113, the classes derived from Geometry *)
Inductive Geometry :=
| Sphere (radius : num)
| Box (dim : Vector3)
| Cylinder (length radius : num)
| Mesh (filename : string) (scale : Vector3).

(** link.cpp:110-131, parseSphere; [None] = returns false *)
Definition parseSphere (c : xml) : option Geometry :=
  match attribute "radius" c with None => None | Some s =>
  match str_to_double s with None => None | Some r => Some (Sphere r) end end.
(** link.cpp:133-154, parseBox *)
Definition parseBox (c : xml) : option Geometry :=
  match attribute "size" c with None => None | Some s =>
  match v_init s with None => None | Some d => Some (Box d) end end.
(** link.cpp:156-187, parseCylinder *)
Definition parseCylinder (c : xml) : option Geometry :=
  match attribute "length" c, attribute "radius" c with
  | Some l, Some r => match str_to_double l with None => None | Some l =>
                      match str_to_double r with None => None | Some r => Some (Cylinder l r) end end
  | _, _ => None
  end.
(** link.cpp:190-217, parseMesh *)
Definition parseMesh (c : xml) : option Geometry :=
  match attribute "filename" c with None => None | Some f =>
  match attribute "scale" c with
  | None => Some (Mesh f (V3 n1 n1 n1))
  | Some s => match v_init s with None => None | Some d => Some (Mesh f d) end
  end end.

(** TiXmlNode::FirstChildElement() without a name *)
Definition first_element (x : xml) : option xml :=
  hd_error (filter (fun e => match e with XElem _ _ _ => true | XOther => false end) (x_kids x)).
Definition tag_of (x : xml) : string := match x with XElem t _ _ => t | XOther => EmptyString end.

(** link.cpp:219-267, parseGeometry; [None] = null pointer *)
Definition parseGeometry (g : option xml) : option Geometry :=
  match g with None => None | Some g =>
  match first_element g with None => None | Some s =>
  if String.eqb (tag_of s) "sphere" then parseSphere s
  else if String.eqb (tag_of s) "box" then parseBox s
  else if String.eqb (tag_of s) "cylinder" then parseCylinder s
  else if String.eqb (tag_of s) "mesh" then parseMesh s
  else None
  end end.

(** link.h:147-167, Visual; [vis_material] = None is a null pointer *)
Record Visual := mkVisual {
  vis_origin : Pose; vis_geometry : Geometry; vis_name : string;
  vis_material_name : string; vis_material : option Material }.
(** link.h:169-185, Collision *)
Record Collision := mkCollision { col_origin : Pose; col_geometry : Geometry; col_name : string }.

(** link.cpp:354-358, 395-399: the origin; [None] = malformed *)
Definition parse_origin (x : xml) : option Pose :=
  match first_child "origin" x with
  | None => Some pose_clear
  | Some o => let (ok, p) := parsePose o in if ok then Some p else None
  end.
Definition name_or_empty (x : xml) : string := match attribute "name" x with None => EmptyString | Some n => n end.

(** link.cpp:349-389, parseVisual; [None] = returns false *)
Definition parseVisual (x : xml) : option Visual :=
  match parse_origin x with None => None | Some o =>
  match parseGeometry (first_child "geometry" x) with None => None | Some g =>
  match first_child "material" x with
  | None => Some (mkVisual o g (name_or_empty x) EmptyString None)
  | Some m =>
      match attribute "name" m with
      | None => None
      | Some n => let (ok, mat) := parseMaterial m in
                  Some (mkVisual o g (name_or_empty x) n (if ok then Some mat else None))
      end
  end end end.
(** link.cpp:391-413, parseCollision; [None] = returns false *)
Definition parseCollision (x : xml) : option Collision :=
  match parse_origin x with None => None | Some o =>
  match parseGeometry (first_child "geometry" x) with None => None | Some g =>
  Some (mkCollision o g (name_or_empty x))
  end end.

(** the loops of link.cpp:440-456 and 463-478: what was pushed, and whether the end was reached *)
Fixpoint parse_all {B} (f : xml -> option B) (l : list xml) : list B * bool :=
  match l with
  | [] => ([], true)
  | x :: t => match f x with
              | None => ([], false)
              | Some b => let (r, ok) := parse_all f t in (b :: r, ok)
              end
  end.

(** link.h:188-243, Link.  [fl_visual]: whether the member [visual] points to the first
    element of [visual_array] (otherwise it is null); [fl_collision] likewise. *)
Record FLink := mkFLink {
  fl_link : ULink; fl_visual : bool; fl_visuals : list Visual; fl_collision : bool; fl_collisions : list Collision }.

(** link.cpp:415-486, parseLink: result and the link as left behind *)
Definition parseLink_full (x : xml) : bool * FLink :=
  match attribute "name" x with
  | None => (false, mkFLink (mkULink EmptyString None None None []) false [] false [])
  | Some n =>
      let inertial := option_map parseInertial (first_child "inertial" x) in
      let lk := mkULink n (option_map snd inertial) None None [] in
      match inertial with
      | Some (false, _) => (false, mkFLink lk false [] false [])
      | _ =>
          let (vs, ok) := parse_all parseVisual (children "visual" (x_kids x)) in
          if negb ok then (false, mkFLink lk false vs false []) else
          let has_v := match vs with [] => false | _ => true end in
          let (cs, ok) := parse_all parseCollision (children "collision" (x_kids x)) in
          if negb ok then (false, mkFLink lk has_v vs false cs) else
          (true, mkFLink lk has_v vs (match cs with [] => false | _ => true end) cs)
      end
  end.

Definition set_material (m : Material) (v : Visual) : Visual :=
  mkVisual (vis_origin v) (vis_geometry v) (vis_name v) (vis_material_name v) (Some m).

(** model.cpp:64-89, assignMaterial: the visual, the materials of the model, and the result
    (which its callers ignore) *)
Definition assignMaterial (v : Visual) (ms : list (string * Material)) : Visual * list (string * Material) * bool :=
  match vis_material_name v with
  | EmptyString => (v, ms, true)
  | n => match assoc n ms with
         | Some m => (set_material m v, ms, true)
         | None => match vis_material v with
                   | Some m => (v, map_insert (mat_name m) m ms, true)
                   | None => (v, ms, false)
                   end
         end
  end.
Fixpoint assign_visuals (vs : list Visual) (ms : list (string * Material)) : list Visual * list (string * Material) :=
  match vs with
  | [] => ([], ms)
  | v :: t => let '(v', ms1, _) := assignMaterial v ms in
              let (t', ms2) := assign_visuals t ms1 in (v' :: t', ms2)
  end.
(** model.cpp:186-193: the visual that [link->visual] points to comes first, and again as
    part of the array *)
Definition assign_link (l : FLink) (ms : list (string * Material)) : FLink * list (string * Material) :=
  let '(vs, ms1) := match fl_visual l, fl_visuals l with
                    | true, v :: t => let '(v', ms1, _) := assignMaterial v ms in (v' :: t, ms1)
                    | _, vs => (vs, ms)
                    end in
  let (vs', ms2) := assign_visuals vs ms1 in
  (mkFLink (fl_link l) (fl_visual l) vs' (fl_collision l) (fl_collisions l), ms2).

(** model.cpp:139-166, the loop over material elements; [None] = a name occurs twice.
    parseMaterial catches every ParseError itself. *)
Fixpoint parse_materials (l : list xml) (acc : list (string * Material)) : option (list (string * Material)) :=
  match l with
  | [] => Some acc
  | x :: t => let (_, m) := parseMaterial x in
              match assoc (mat_name m) acc with
              | Some _ => None
              | None => parse_materials t (map_insert (mat_name m) m acc)
              end
  end.

(** model.cpp:168-204, the loop over link elements; [None] = name not unique.  parseLink's
    result is ignored. *)
Fixpoint parse_links_full (l : list xml) (acc : list (string * FLink)) (ms : list (string * Material))
  : option (list (string * FLink) * list (string * Material)) :=
  match l with
  | [] => Some (acc, ms)
  | x :: t =>
      let (_, lk) := parseLink_full x in
      let n := ul_name (fl_link lk) in
      match assoc n acc with
      | Some _ => None
      | None => let (lk', ms') := assign_link lk ms in parse_links_full t (map_insert n lk' acc) ms'
      end
  end.

(** model.h:186-200, ModelInterface with everything in it: the kinematic part (whose links
    have parents and children set by initTree) and the appearance of every link *)
Record FModel := mkFM { fm_mi : ModelInterface; fm_links : list (string * FLink); fm_materials : list (string * Material) }.

(** model.cpp:139-269 *)
Definition parse_robot_kids_full (name : string) (kids : list xml) : option FModel :=
  match parse_materials (children "material" kids) [] with None => None | Some ms =>
  match parse_links_full (children "link" kids) [] ms with None => None | Some (fls, ms') =>
  match fls with
  | [] => None
  | _ =>
  match parse_joints (children "joint" kids) [] with None => None | Some joints =>
  match initTree joints (map (fun kl => (fst kl, fl_link (snd kl))) fls) with None => None | Some links' =>
  match initRoot links' with None => None | Some r =>
  Some (mkFM (mkMI name links' joints r) fls ms')
  end end end end end end.

(** model.cpp:91-270, parseURDF; result [None] = null pointer *)
Definition parseURDF_full (doc : option (list xml)) : option FModel :=
  match doc with None => None | Some top =>
  match hd_error (children "robot" top) with None => None | Some robot =>
  match attribute "name" robot with None => None | Some name =>
  if negb (version_ok (attribute "version" robot)) then None else
  parse_robot_kids_full name (x_kids robot)
  end end end.

(** tinyfk.cpp:16-114, the constructor with the whole reader *)
Definition ctor_full (tinyxml : string -> option (list xml)) (xml_string : string) : res KM :=
  match xml_string with
  | EmptyString => Throw RuntimeError
  | _ => ctor_mi (option_map fm_mi (parseURDF_full (tinyxml xml_string)))
  end.

End Appear.
