(** What is assumed of the platform, and which documents and calls are the same for a program
    that computes with doubles and for one that computes exactly. *)
From Coq Require Import QArith Qreals Reals String Ascii List.
From Flocq Require Import Core BinarySingleNaN.
From Verif Require Import Base Num Pose Urdf Kin Decimal RealArith FloatArith Ieee Spec_Robot Spec_Hist Spec_Float.
Import ListNotations.
Local Open Scope R_scope.

(** Literals are correctly rounded (all in the source are below 4); sin and cos of a finite
    double are accurate up to [u] and do not depend on the sign of a zero; a numeral is read
    accurately up to [u] if it is below 2^1000, and what is not a numeral is refused. *)
Record platform_ok (pf : Platform) (u : R) : Prop := {
  pk_lit : forall q, Rabs (Q2R q) <= 4 -> finite (p_lit pf q) /\ value (p_lit pf q) = double_round (Q2R q);
  pk_sin : forall x, finite x -> finite (p_sin pf x) /\ rounds u (sin (value x)) (value (p_sin pf x));
  pk_cos : forall x, finite x -> finite (p_cos pf x) /\ rounds u (cos (value x)) (value (p_cos pf x));
  pk_zeros : value (p_sin pf (B754_zero true)) = value (p_sin pf (B754_zero false)) /\
             value (p_cos pf (B754_zero true)) = value (p_cos pf (B754_zero false));
  pk_parse : forall s q, strToDouble s = Some q -> Rabs (Q2R q) <= bpow radix2 1000 ->
             exists x, p_parse pf s = Some x /\ finite x /\ rounds u (Q2R q) (value x);
  pk_refuse : forall s, strToDouble s = None -> p_parse pf s = None }.

(** an attribute value somewhere in an element *)
Inductive occurs (s : string) : xml -> Prop :=
| occ_attr t attrs kids n : In (n, s) attrs -> occurs s (XElem t attrs kids)
| occ_kid t attrs kids k : In k kids -> occurs s k -> occurs s (XElem t attrs kids).
(** every numeral in the document is below 2^1000 *)
Definition numerals_fit (top : list xml) : Prop :=
  forall x s w q, In x top -> occurs s x -> w = s \/ In w (split_string " "%char s) -> strToDouble w = Some q -> Rabs (Q2R q) <= bpow radix2 1000.

Section Values.
Variable pf : Platform.

Definition finite_vector (v : @Vector3 (DA pf)) : Prop := finite (vx v) /\ finite (vy v) /\ finite (vz v).
Definition finite_rotation (r : @Rotation (DA pf)) : Prop := finite (qx r) /\ finite (qy r) /\ finite (qz r) /\ finite (qw r).
Definition finite_pose (p : @Pose (DA pf)) : Prop := finite_vector (position p) /\ finite_rotation (rotation p).

(** Euclidean distance between the numbers computed and exact ones *)
Definition v_error (a : @Vector3 (DA pf)) (b : @Vector3 RA) : R :=
  sqrt ((value (vx a) - vx b) ^ 2 + (value (vy a) - vy b) ^ 2 + (value (vz a) - vz b) ^ 2).
Definition q_error (a : @Rotation (DA pf)) (b : @Rotation RA) : R :=
  sqrt ((value (qx a) - qx b) ^ 2 + (value (qy a) - qy b) ^ 2 + (value (qz a) - qz b) ^ 2 + (value (qw a) - qw b) ^ 2).

(** the same number; the same list of numbers *)
Definition same_number (x : double) (r : R) : Prop := finite x /\ value x = r.
Definition same_numbers (l : list double) (l' : list R) : Prop := Forall2 same_number l l'.
Definition same_vec (a : @Vector3 (DA pf)) (b : @Vector3 RA) : Prop :=
  same_number (vx a) (vx b) /\ same_number (vy a) (vy b) /\ same_number (vz a) (vz b).

(** the same call, with moderate numbers (cf. [same_call] of Spec_Float.v) *)
Inductive double_call (e A L : R) : @op (DA pf) -> @op RA -> Prop :=
| dc_set_joint_angles jids a a' : same_numbers a a' -> double_call e A L (@Op_set_joint_angles (DA pf) jids a) (@Op_set_joint_angles RA jids a')
| dc_set_joint_angle j a a' : same_number a a' -> double_call e A L (@Op_set_joint_angle (DA pf) j a) (@Op_set_joint_angle RA j a')
| dc_set_base_pose p p' : finite_pose p -> qlen (rotation p') = 1 -> vlen (position p') <= L ->
    q_error (rotation p) (rotation p') <= e -> v_error (position p) (position p') <= e * L ->
    double_call e A L (Op_set_base_pose p) (Op_set_base_pose p')
| dc_set_base_xyzrpy v v' : same_numbers v v' -> base_within A L v' ->
    double_call e A L (@Op_set_base_xyzrpy (DA pf) v) (@Op_set_base_xyzrpy RA v')
| dc_set_init_angles : double_call e A L Op_set_init_angles Op_set_init_angles
| dc_add_new_link n k pos rpy pos' rpy' : same_vec pos pos' -> same_vec rpy rpy' -> vlen pos' <= L -> angles_within A rpy' ->
    double_call e A L (Op_add_new_link n k pos rpy) (Op_add_new_link n k pos' rpy')
| dc_clear_cache : double_call e A L Op_clear_cache Op_clear_cache
| dc_get_link_pose i : double_call e A L (Op_get_link_pose i) (Op_get_link_pose i)
| dc_get_jacobian i jids rt wb : double_call e A L (Op_get_jacobian i jids rt wb) (Op_get_jacobian i jids rt wb)
| dc_get_com : double_call e A L Op_get_com Op_get_com
| dc_get_com_jacobian jids wb : double_call e A L (Op_get_com_jacobian jids wb) (Op_get_com_jacobian jids wb)
| dc_get_inertia : double_call e A L Op_get_total_inertia_matrix Op_get_total_inertia_matrix
| dc_solve_fk qs qs' el jids rt wb wj uc : Forall2 same_numbers qs qs' -> bases_within A L wb qs' ->
    double_call e A L (@Op_solve_fk (DA pf) qs el jids rt wb wj uc) (@Op_solve_fk RA qs' el jids rt wb wj uc)
| dc_solve_com_fk qs qs' jids ac fo fo' wb wj : Forall2 same_numbers qs qs' -> same_numbers fo fo' -> bases_within A L wb qs' ->
    double_call e A L (@Op_solve_com_fk (DA pf) qs jids ac fo wb wj) (@Op_solve_com_fk RA qs' jids ac fo' wb wj)
| dc_compute_inertia q q' jids : same_numbers q q' ->
    double_call e A L (@Op_compute_inertia (DA pf) q jids) (@Op_compute_inertia RA q' jids)
| dc_sqdists qs qs' i1 i2 jids wb wg uc : Forall2 same_numbers qs qs' -> bases_within A L wb qs' ->
    double_call e A L (@Op_sqdists (DA pf) qs i1 i2 jids wb wg uc) (@Op_sqdists RA qs' i1 i2 jids wb wg uc).
End Values.
