(** The pose of one link in the frame of another. *)
From Coq Require Import String List Reals.
From Verif Require Import Base Num Pose Urdf Kin RealArith.

(** [P2] in the frame [P1] *)
Definition seen_from (P1 P2 : @Pose RA) : @Pose RA := pose_transform (pose_inverse P1) P2.
