(** What material, visual and collision elements mean, and which material a visual gets. *)
From Coq Require Import ZArith String Ascii List.
From Verif Require Import Base Num Pose Urdf Appear Spec_Str Spec_Robot Spec_Urdf.
Import ListNotations.
Local Open Scope string_scope.

Section Meaning.
Context `{A : Arith}.

(** ** Materials *)

Definition black : Color := mkColor n0 n0 n0 n1.

(** the numbers in a colour attribute: any amount of them, each between 0 and 1 *)
Definition shades (s : string) (l : list num) : Prop :=
  exists ws, words s ws /\ Forall2 (fun w d => str_to_double w = Some d /\ nlt d n0 = false /\ nlt n1 d = false) ws l.

(** the rgba attribute of the first <color> child *)
Definition rgba (x : xml) (s : string) : Prop := exists c, child x "color" c /\ has_attr c "rgba" s.
(** the filename of the first <texture> child *)
Definition texture (x : xml) (f : string) : Prop := exists t, child x "texture" t /\ has_attr t "filename" f.

(** The stored material: a missing name or texture is empty, a missing, malformed or
    incomplete colour is black. *)
Definition material_stored (x : xml) (m : Material) : Prop :=
  (no_attr x "name" /\ m = mkMaterial "" "" black) \/
  (has_attr x "name" (mat_name m) /\
   (texture x (mat_texture m) \/ (mat_texture m = "" /\ forall f, ~ texture x f)) /\
   ((exists s r g b a, rgba x s /\ shades s [r; g; b; a] /\ mat_color m = mkColor r g b a) \/
    (mat_color m = black /\ forall s r g b a, rgba x s -> ~ shades s [r; g; b; a]))).
(** a material element that says something about the looks *)
Definition material_defined (x : xml) : Prop :=
  (exists n, has_attr x "name" n) /\ ((exists f, texture x f) \/ (exists s l, rgba x s /\ shades s l)).

(** ** Shapes *)

(** the first child element, whatever its tag *)
Definition only_shape (x s : xml) : Prop :=
  exists kids before after, inside x kids /\ kids = (before ++ s :: after)%list /\ Forall (fun e => e = XOther) before /\ s <> XOther.

Inductive shape_reads (s : xml) : Geometry -> Prop :=
| sr_sphere r : tagged "sphere" s -> a_number s "radius" r -> shape_reads s (Sphere r)
| sr_box v str : tagged "box" s -> has_attr s "size" str -> triple str v -> shape_reads s (Box v)
| sr_cylinder l r : tagged "cylinder" s -> a_number s "length" l -> a_number s "radius" r -> shape_reads s (Cylinder l r)
| sr_mesh f v : tagged "mesh" s -> has_attr s "filename" f ->
    ((no_attr s "scale" /\ v = V3 n1 n1 n1) \/ (exists str, has_attr s "scale" str /\ triple str v)) -> shape_reads s (Mesh f v).

Definition geometry_reads (x : xml) (g : Geometry) : Prop := exists e s, child x "geometry" e /\ only_shape e s /\ shape_reads s g.
Definition name_of (x : xml) (n : string) : Prop := has_attr x "name" n \/ (no_attr x "name" /\ n = "").

(** ** Visuals and collisions *)
Definition visual_reads (x : xml) (v : Visual) : Prop :=
  origin_or_none x (vis_origin v) /\ geometry_reads x (vis_geometry v) /\ name_of x (vis_name v) /\
  ((no_child x "material" /\ vis_material_name v = "" /\ vis_material v = None) \/
   (exists m, child x "material" m /\ has_attr m "name" (vis_material_name v) /\
      ((material_defined m /\ exists d, material_stored m d /\ vis_material v = Some d) \/ (~ material_defined m /\ vis_material v = None)))).
Definition collision_reads (x : xml) (c : Collision) : Prop :=
  origin_or_none x (col_origin c) /\ geometry_reads x (col_geometry c) /\ name_of x (col_name c).

(** the elements up to the first one that cannot be read *)
Inductive read_until {B} (reads : xml -> B -> Prop) : list xml -> list B -> bool -> Prop :=
| ru_end : read_until reads [] [] true
| ru_bad x l : (forall b, ~ reads x b) -> read_until reads (x :: l) [] false
| ru_next x b l bs ok : reads x b -> read_until reads l bs ok -> read_until reads (x :: l) (b :: bs) ok.

(** ** Which material a visual gets *)

Fixpoint first_inline (n : string) (vs : list Visual) : option Material :=
  match vs with
  | [] => None
  | v :: t => if String.eqb (vis_material_name v) n then match vis_material v with Some m => Some m | None => first_inline n t end else first_inline n t
  end.
(** With the materials [defs] of the robot: a visual [v] that comes after the visuals
    [earlier].  Unnamed materials are kept as they are; a named one is looked up among the
    robot's, then among those given inside earlier visuals, then in the visual itself. *)
Definition resolved (defs : list (string * Material)) (earlier : list Visual) (v : Visual) : option Material :=
  if String.eqb (vis_material_name v) "" then vis_material v
  else match assoc (vis_material_name v) defs with
       | Some m => Some m
       | None => first_inline (vis_material_name v) (earlier ++ [v])
       end.
Definition with_material (m : option Material) (v : Visual) : Visual :=
  mkVisual (vis_origin v) (vis_geometry v) (vis_name v) (vis_material_name v) m.
Fixpoint painted (defs : list (string * Material)) (earlier vs : list Visual) : list Visual :=
  match vs with
  | [] => []
  | v :: t => with_material (resolved defs earlier v) v :: painted defs (earlier ++ [v]) t
  end.

(** ** Links *)

(** What a link element shows: its visuals and collisions as written, and whether the members
    for the first of them are set.  Nothing of a link without a name or with malformed
    inertial data; no collisions after a malformed visual. *)
Record Looks := mkLooks { lk_name : string; lk_visuals : list Visual; lk_first_visual : bool;
                          lk_collisions : list Collision; lk_first_collision : bool }.
Definition is_set {B} (l : list B) (b : bool) : Prop := b = true <-> l <> [].
Inductive link_looks (x : xml) : Looks -> Prop :=
| ll_nameless : no_attr x "name" -> link_looks x (mkLooks "" [] false [] false)
| ll_inertial n e : has_attr x "name" n -> child x "inertial" e -> malformed e -> link_looks x (mkLooks n [] false [] false)
| ll_visual n kids vx vs : has_attr x "name" n -> (forall e, child x "inertial" e -> exists i, inertial_reads e i) ->
    inside x kids -> elements "visual" kids vx -> read_until visual_reads vx vs false ->
    link_looks x (mkLooks n vs false [] false)
| ll_collision n kids vx vs bv cx cs : has_attr x "name" n -> (forall e, child x "inertial" e -> exists i, inertial_reads e i) ->
    inside x kids -> elements "visual" kids vx -> read_until visual_reads vx vs true -> is_set vs bv ->
    elements "collision" kids cx -> read_until collision_reads cx cs false ->
    link_looks x (mkLooks n vs bv cs false)
| ll_all n kids vx vs bv cx cs bc : has_attr x "name" n -> (forall e, child x "inertial" e -> exists i, inertial_reads e i) ->
    inside x kids -> elements "visual" kids vx -> read_until visual_reads vx vs true -> is_set vs bv ->
    elements "collision" kids cx -> read_until collision_reads cx cs true -> is_set cs bc ->
    link_looks x (mkLooks n vs bv cs bc).

(** ** Documents *)

(** [links] and [mats]: the appearance of the named links and the materials, of a document *)
Definition document_looks (top : list xml) (links : list (string * FLink)) (mats : list (string * Material)) : Prop :=
  exists robot rest kids mx lx defs shown,
    elements "robot" top (robot :: rest) /\ inside robot kids /\
    elements "material" kids mx /\ Forall2 (fun x d => fst d = mat_name (snd d) /\ material_stored x (snd d)) mx defs /\
    elements "link" kids lx /\ Forall2 link_looks lx shown /\
    (forall n, In n (map fst links) <-> In n (map lk_name shown)) /\
    (forall before l after, shown = (before ++ l :: after)%list ->
       exists f, assoc (lk_name l) links = Some f /\
         fl_visuals f = painted defs (concat (map lk_visuals before)) (lk_visuals l) /\
         fl_visual f = lk_first_visual l /\
         fl_collisions f = lk_collisions l /\ fl_collision f = lk_first_collision l) /\
    (forall n, n <> "" -> assoc n mats =
       match assoc n defs with Some m => Some m | None => first_inline n (concat (map lk_visuals shown)) end).
End Meaning.
