(** How far a link can be from the root link, and how far one joint moves it; for C107 and C108. *)
From Coq Require Import String List Reals.
From Verif Require Import Base Num Pose Urdf Spec_Robot Spec_Hist RealArith Spec_Rot Spec_Body.
Import ListNotations.
Local Open Scope R_scope.

(** Euclidean length *)
Definition vlen (v : @Vector3 RA) : R := sqrt (vdot v v).

(** The length of the chain from the root to a link: the offsets of the joints and of the links
    attached later, plus what the sliding joints are pulled out by. *)
Inductive chain_length (js : list (@UJoint RA)) (root : string) (added : @Added RA) (q : string -> R) : string -> R -> Prop :=
| cl_root : chain_length js root added q root 0
| cl_joint j L : In j js -> chain_length js root added q (uj_parent j) L ->
    chain_length js root added q (uj_child j)
      (L + vlen (position (uj_origin j)) + match uj_type j with PRISMATIC => Rabs (q (uj_name j)) * vlen (uj_axis j) | _ => 0 end)
| cl_added n p T L : In (n, p, T) added -> chain_length js root added q p L ->
    chain_length js root added q n (L + vlen (position T)).

(** The most that link [n] can move per unit of joint [j], when every joint [i] stays within [B i]: nothing if the joint
    does not carry the link, the length of the axis if it slides, the length of the chain beyond it if it turns. *)
Inductive gain (js : list (@UJoint RA)) (added : @Added RA) (B : string -> R) (n : string) (j : @UJoint RA) : R -> Prop :=
| gain_none : ~ carries js added j n -> gain js added B n j 0
| gain_slide : uj_type j = PRISMATIC -> gain js added B n j (vlen (uj_axis j))
| gain_turn L : uj_type j <> PRISMATIC -> chain_length js (uj_child j) added B n L -> gain js added B n j L.

(** the sum of the steps of the joints, each times its gain *)
Fixpoint travel (olds news gains : list R) : R :=
  match olds, news, gains with
  | a :: olds, b :: news, g :: gains => Rabs (b - a) * g + travel olds news gains
  | _, _, _ => 0
  end.
