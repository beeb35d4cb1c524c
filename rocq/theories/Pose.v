(** Model of urdf_parser/include/urdf_model/pose.h and of the numeric part of
    urdf_parser/src/pose.cpp. *)
From Coq Require Import QArith String Ascii List.
From Verif Require Import Base Num.
Import ListNotations.
Local Open Scope num_scope.

Section Pose.
Context `{A : Arith}.

(** pose.h:51-58, class Vector3 *)
Record Vector3 := V3 { vx : num; vy : num; vz : num }.
(** pose.h:118-121,218, class Rotation (quaternion x,y,z,w) *)
Record Rotation := Q4 { qx : num; qy : num; qz : num; qw : num }.
(** pose.h:315-321, class Pose *)
Record Pose := mkPose { position : Vector3; rotation : Rotation }.

(** pose.h:69, Vector3::clear *)
Definition v_clear : Vector3 := V3 n0 n0 n0.
(** pose.h:228, Rotation::clear *)
Definition q_clear : Rotation := Q4 n0 n0 n0 n1.
(** pose.h:318-327, Pose::Pose and Pose::clear *)
Definition pose_clear : Pose := mkPose v_clear q_clear.

(** pose.h:94-98, Vector3::inverse_inplace: each component [*= -1] *)
Definition v_inverse (v : Vector3) : Vector3 :=
  V3 (vx v * lit (-1#1)) (vy v * lit (-1#1)) (vz v * lit (-1#1)).
(** pose.h:100-103, operator+ *)
Definition v_add (a b : Vector3) : Vector3 := V3 (vx a + vx b) (vy a + vy b) (vz a + vz b).
(** pose.h:105-108, operator- *)
Definition v_sub (a b : Vector3) : Vector3 := V3 (vx a - vx b) (vy a - vy b) (vz a - vz b).

(** pose.h:60-67, Vector3::operator[] used as [v[i] += e] (kinematics.cpp:206);
    out of range throws std::out_of_range in C++ and is never reached. *)
Definition v_add_at (i : nat) (e : num) (v : Vector3) : Vector3 :=
  match i with
  | O => V3 (vx v + e) (vy v) (vz v)
  | 1%nat => V3 (vx v) (vy v + e) (vz v)
  | _ => V3 (vx v) (vy v) (vz v + e)
  end.

(** src/pose.cpp:90-94, cross_product *)
Definition cross_product (a b : Vector3) : Vector3 :=
  V3 (vy a * vz b - vz a * vy b) (vz a * vx b - vx a * vz b) (vx a * vy b - vy a * vx b).

(** pose.h:161-192, Rotation::getRPY() (lines 130-159 are the same code) *)
Definition getRPY (q : Rotation) : Vector3 :=
  let x := qx q in let y := qy q in let z := qz q in let w := qw q in
  let sqx := x * x in let sqy := y * y in let sqz := z * z in let sqw := w * w in
  let sarg := lit (-2#1) * (x * z - w * y) in
  let pi_2 := lit (157079632679489661923 # 100000000000000000000) in
  if nle sarg (lit (-99999#100000)) then
    V3 n0 (- pi_2) (n2 * natan2 x (- y))
  else if nle (lit (99999#100000)) sarg then
    V3 n0 pi_2 (n2 * natan2 (- x) y)
  else
    V3 (natan2 (n2 * (y * z + w * x)) (sqw - sqx - sqy + sqz))
       (nasin sarg)
       (natan2 (n2 * (x * y + w * z)) (sqw + sqx - sqy - sqz)).

(** pose.h:230-250, Rotation::normalize *)
Definition q_normalize (q : Rotation) : Rotation :=
  let s := nsqrt (qx q * qx q + qy q * qy q + qz q * qz q + qw q * qw q) in
  if neq s n0 then Q4 n0 n0 n0 n1
  else Q4 (qx q / s) (qy q / s) (qz q / s) (qw q / s).

(** pose.h:202-216, Rotation::setFromRPY *)
Definition setFromRPY (roll pitch yaw : num) : Rotation :=
  let phi := roll / n2 in
  let the := pitch / n2 in
  let psi := yaw / n2 in
  q_normalize
    (Q4 (nsin phi * ncos the * ncos psi - ncos phi * nsin the * nsin psi)
        (ncos phi * nsin the * ncos psi + nsin phi * ncos the * nsin psi)
        (ncos phi * ncos the * nsin psi - nsin phi * nsin the * ncos psi)
        (ncos phi * ncos the * ncos psi + nsin phi * nsin the * nsin psi)).

(** pose.h:253-263, operator* (quaternion product) *)
Definition q_mul (a b : Rotation) : Rotation :=
  Q4 (qw a * qx b + qx a * qw b + qy a * qz b - qz a * qy b)
     (qw a * qy b - qx a * qz b + qy a * qw b + qz a * qx b)
     (qw a * qz b + qx a * qy b - qy a * qx b + qz a * qw b)
     (qw a * qw b - qx a * qx b - qy a * qy b - qz a * qz b).

(** pose.h:288 *)
Definition q_norm2 (q : Rotation) : num := qw q * qw q + qx q * qx q + qy q * qy q + qz q * qz q.

(** pose.h:284-299, GetInverse *)
Definition q_GetInverse (q : Rotation) : Rotation :=
  let norm := q_norm2 q in
  if nlt n0 norm then Q4 (- qx q / norm) (- qy q / norm) (- qz q / norm) (qw q / norm)
  else q_clear.

(** pose.h:265-282, operator* (rotate a vector) *)
Definition q_rot (q : Rotation) (v : Vector3) : Vector3 :=
  let tmp := q_mul q (q_mul (Q4 (vx v) (vy v) (vz v) n0) (q_GetInverse q)) in
  V3 (qx tmp) (qy tmp) (qz tmp).

(** pose.h:301-312, inverse and inverse_inplace: no test for a zero norm *)
Definition q_inverse (q : Rotation) : Rotation :=
  let norm := q_norm2 q in
  Q4 (- qx q / norm) (- qy q / norm) (- qz q / norm) (qw q / norm).

(** pose.h:329-339, Pose::inverse *)
Definition pose_inverse (p : Pose) : Pose :=
  let r := q_inverse (rotation p) in
  mkPose (q_rot r (v_inverse (position p))) r.

(** src/pose.cpp:139-146, pose_transform *)
Definition pose_transform (p12 p23 : Pose) : Pose :=
  mkPose (v_add (q_rot (rotation p12) (position p23)) (position p12))
         (q_mul (rotation p12) (rotation p23)).

(** pose.h:44, utils.h:49-66, split_string with a single separator character:
    pieces between separators, empty pieces included except a last empty one. *)
Fixpoint split_go (sep : Ascii.ascii) (cur : string) (s : string) : list string :=
  match s with
  | EmptyString => match cur with EmptyString => [] | _ => [cur] end
  | String c t => if Ascii.eqb c sep then cur :: split_go sep EmptyString t
                  else split_go sep (cur ++ String c EmptyString)%string t
  end.
Definition split_string (sep : Ascii.ascii) (s : string) : list string := split_go sep EmptyString s.

(** pose.h:75-84: the non-empty pieces converted in order; [None] when some
    conversion throws *)
Fixpoint conv_pieces (l : list string) : option (list num) :=
  match l with
  | [] => Some []
  | EmptyString :: t => conv_pieces t
  | p :: t => match str_to_double p with
              | None => None
              | Some d => match conv_pieces t with None => None | Some r => Some (d :: r) end
              end
  end.

(** pose.h:70-92, Vector3::init; [None] = ParseError, in which case the vector is
    left cleared. *)
Definition v_init (s : string) : option Vector3 :=
  match conv_pieces (split_string " "%char s) with
  | Some [a; b; c] => Some (V3 a b c)
  | _ => None
  end.

(** pose.h:220-226, Rotation::init; [None] = ParseError, rotation left cleared *)
Definition q_init (s : string) : option Rotation :=
  match v_init s with
  | Some rpy => Some (setFromRPY (vx rpy) (vy rpy) (vz rpy))
  | None => None
  end.

End Pose.
