(** What is left of a robot description in a file saved with exportURDF. *)
From Coq Require Import String List.
From Verif Require Import Base Num Pose DataStructure Urdf Kin Appear Export Spec_Export.
Import ListNotations.

Section SpecSaved.
Context `{A : Arith}.
(** how the output stream prints a number *)
Context (show : num -> string).
(** The child link of a joint without an origin coincides with its parent at angle zero. *)
Definition at_parent : Pose := mkPose (V3 n0 n0 n0) (Q4 n0 n0 n0 n1).
(** Links keep their names and inertial data, joints everything but their origins. *)
Definition saved_link (l : string * option Inertial) : string * option Inertial := (fst l, option_map (again_inertial show) (snd l)).
Definition saved_joint (j : UJoint) : UJoint := again_ujoint show at_parent j.
(** a limit as printed and read again *)
Definition saved_bound (e : ext) : ext := match e with Fin x => Fin (again show x) | NegInf => NegInf | PosInf => PosInf end.
Definition saved_bounds (b : ext * ext) : ext * ext := (saved_bound (fst b), saved_bound (snd b)).
End SpecSaved.
