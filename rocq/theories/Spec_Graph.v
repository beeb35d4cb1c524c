(** Which descriptions the reader accepts, in terms of the joint graph. *)
From Coq Require Import String List.
From Verif Require Import Base Num Pose Urdf Spec_Robot Spec_Load.
Import ListNotations.

Section Graph.
Context `{A : Arith}.

(** Names are unique, every joint joins two links of the description, and [root] is the only
    link that is nobody's child.  (Weaker than [is_tree]: a link may have two parent joints,
    and links may be on a cycle away from the root.) *)
Record graph_ok (R : Robot) (root : string) : Prop := {
  g_links : NoDup (link_names R);
  g_joints : NoDup (map uj_name (r_joints R));
  g_named : ends_named R;
  g_ends : forall j, In j (r_joints R) -> In (uj_parent j) (link_names R) /\ In (uj_child j) (link_names R);
  g_root : In root (link_names R);
  g_roots : forall n, In n (link_names R) -> (n = root <-> forall j, In j (r_joints R) -> uj_child j <> n) }.

(** [m] is reached from [n] by one joint or more, going from parents to children. *)
Inductive leads_to (js : list UJoint) (n : string) : string -> Prop :=
| leads_one j : In j js -> uj_parent j = n -> leads_to js n (uj_child j)
| leads_more j : In j js -> leads_to js n (uj_parent j) -> leads_to js n (uj_child j).

(** No link is below itself. *)
Definition cycle_free (R : Robot) : Prop := forall n, ~ leads_to (r_joints R) n n.

End Graph.
