(** Which documents the constructor is expected to load, and the states reached from
    there by any history of calls. *)
From Coq Require Import String List Arith Permutation Sorted.
From Verif Require Import Base Num Pose DataStructure Urdf Kin Wrapper Spec_Robot Spec_Hist.
Import ListNotations.

Section Load.
Context `{A : Arith}.

(** joint angles by joint name *)
Definition jnames (jsorted : list UJoint) := map uj_name jsorted.
Definition by_name (jnames : list string) (angles : list num) (n : string) : num :=
  match assoc n (combine jnames angles) with Some a => a | None => n0 end.

(** links with inertial data *)
Definition massive (sorted : list (string * option Inertial)) : list (string * Inertial) :=
  flat_map (fun l => match snd l with None => [] | Some i => [(fst l, i)] end) sorted.
Definition mass_sum (ms : list (string * Inertial)) : num :=
  fold_left (fun acc ni => add acc (in_mass (snd ni))) ms n0.

(** joint elements that name both their ends *)
Definition ends_named (R : Robot) : Prop := forall j, In j (r_joints R) -> uj_parent j <> ""%string /\ uj_child j <> ""%string.

(** [sorted]: the links in order of their names; [jsorted]: the movable joints in order of
    their names *)
Record ordered (R : Robot) (sorted : list (string * option Inertial)) (jsorted : list UJoint) : Prop := {
  ord_links : Permutation sorted (r_links R);
  ord_links_lt : StronglySorted name_lt (map fst sorted);
  ord_joints : forall j, In j jsorted <-> In j (r_joints R) /\ is_movable (uj_type j);
  ord_joints_lt : StronglySorted name_lt (map uj_name jsorted)
}.

(** The document is a tree-shaped robot with supported joint types, in which no link is
    called like the centre-of-mass link of another one. *)
Record loadable (tinyxml : string -> option (list xml)) (text : string) (R : Robot) (root : string) : Prop := {
  ld_text : text <> ""%string;
  ld_xml : exists top, tinyxml text = Some top /\ describes top R;
  ld_tree : is_tree R root;
  ld_ends : ends_named R;
  ld_supported : forall j, In j (r_joints R) -> is_supported (uj_type j);
  ld_com : forall n i, In (n, Some i) (r_links R) -> ~ In (n ++ "_com")%string (link_names R)
}.

(** the abstract state after construction, and after a history *)
Definition initial (sorted : list (string * option Inertial)) (jsorted : list UJoint) : AState :=
  mkAS (com_links sorted) (repeat n0 (length jsorted)) pose_clear.
Definition after (sorted : list (string * option Inertial)) (jsorted : list UJoint) (ops : list op) : AState :=
  abs_run (map fst sorted) ops (initial sorted jsorted).

(** [m] is the model object after loading the document and running the history [ops] *)
Definition reached (tinyxml : string -> option (list xml)) (text : string) (R : Robot) (root : string)
           (sorted : list (string * option Inertial)) (jsorted : list UJoint) (ops : list op) (m : KM) : Prop :=
  loadable tinyxml text R root /\ ordered R sorted jsorted /\
  exists m0, ctor tinyxml text = Ok m0 /\ run ops m0 = Some m.

(** pose of the link named [n] in the abstract state [s] *)
Definition pose_at (R : Robot) (root : string) (jsorted : list UJoint) (s : AState) (n : string) (P : Pose) : Prop :=
  fk (r_joints R) root (as_added s) (by_name (jnames jsorted) (as_angles s)) (as_base s) n P.

(** names of all links of the state *)
Definition all_links (sorted : list (string * option Inertial)) (s : AState) : list string :=
  map fst sorted ++ map (fun a => fst (fst a)) (as_added s).

End Load.
