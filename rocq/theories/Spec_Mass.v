(** Centre of mass and inertia, in terms of poses of named links. *)
From Coq Require Import String List Arith.
From Verif Require Import Base Num Pose DataStructure Urdf Kin Wrapper Spec_Robot Spec_Hist Spec_Load Spec_Jac.
Import ListNotations.
Local Open Scope num_scope.

Section Mass.
Context `{A : Arith}.

(** where a link at pose [P] has its centre of mass: its inertial origin, in the world *)
Definition com_point (P : Pose) (i : Inertial) : Vector3 :=
  v_add (q_rot (rotation P) (position (in_origin i))) (position P).

(** sum of mass * point, from left to right *)
Definition weighted_sum (l : list (num * Vector3)) (acc : Vector3) : Vector3 :=
  fold_left (fun acc mp => V3 (vx acc + fst mp * vx (snd mp)) (vy acc + fst mp * vy (snd mp)) (vz acc + fst mp * vz (snd mp))) l acc.
Definition scaled_down (v : Vector3) (d : num) : Vector3 := V3 (vx v / d) (vy v / d) (vz v / d).

(** mass-weighted mean of the centres of mass of the massive links [ms] at poses [Ps] *)
Definition com_of (ms : list (string * Inertial)) (Ps : list Pose) : Vector3 :=
  scaled_down (weighted_sum (map (fun x => (in_mass (snd (fst x)), com_point (snd x) (snd (fst x)))) (combine ms Ps)) v_clear)
              (mass_sum ms).

Definition is_com (R : Robot) (root : string) (jsorted : list UJoint) (ms : list (string * Inertial)) (s : AState) (c : Vector3) : Prop :=
  exists Ps, Forall2 (fun ni P => pose_at R root jsorted s (fst ni) P) ms Ps /\ c = com_of ms Ps.

(** mass-weighted mean of matrices *)
Definition mean_mat (rows cols : nat) (ws : list (num * mat)) (total : num) : mat :=
  map (map (fun x => x / total))
    (fold_left (fun acc wj => mat_zip add acc (mat_map (mul (fst wj)) (snd wj))) ws (mat_zero rows cols)).

(** mean of the position Jacobians of the centre-of-mass links *)
Definition is_com_jacobian (R : Robot) (root : string) (jsorted : list UJoint) (ms : list (string * Inertial)) (s : AState)
           (jids : list nat) (wb : bool) (J : mat) : Prop :=
  exists Js, Forall2 (fun ni J => is_jacobian R root jsorted s IGNORE (fst ni ++ "_com")%string jids wb J) ms Js /\
    J = mean_mat 3 (length jids + if wb then 6 else 0)
          (map (fun x => (in_mass (snd (fst x)), snd x)) (combine ms Js)) (mass_sum ms).

(** one link's contribution to the total inertia about [c]: R I R^T and the parallel-axis term *)
Definition inertia_about (c : Vector3) (P : Pose) (i : Inertial) : mat :=
  let R := rot_mat (q_mul (rotation P) q_clear) in
  mat_zip add (mat3_mul (mat3_mul R [[ixx i; ixy i; ixz i]; [ixy i; iyy i; iyz i]; [ixz i; iyz i; izz i]]) (transpose3 R))
              (trans_term (in_mass i) (v_sub (com_point P i) c)).
Definition is_inertia (R : Robot) (root : string) (jsorted : list UJoint) (ms : list (string * Inertial)) (s : AState) (I : mat) : Prop :=
  exists Ps, Forall2 (fun ni P => pose_at R root jsorted s (fst ni) P) ms Ps /\
    I = fold_left (fun acc x => mat_zip add acc (inertia_about (com_of ms Ps) (snd x) (snd (fst x)))) (combine ms Ps) (mat_zero 3 3).

(** Action forces: with forces f_k (in units of weight) applied at points p_k, the point
    (com + sum f_k/M p_k) / (1 + sum f_k/M), M the total mass; likewise for its Jacobian.
    Without forces nothing is done. *)
Definition forced_point (M : num) (com : Vector3) (fps : list (num * Vector3)) : Vector3 :=
  match fps with
  | [] => com
  | _ => scaled_down (weighted_sum (map (fun fp => (fst fp / M, snd fp)) fps) com)
                     (fold_left (fun a fp => a + fst fp / M) fps n1)
  end.
Definition forced_mat (M : num) (J : mat) (fjs : list (num * mat)) : mat :=
  match fjs with
  | [] => J
  | _ => let total := fold_left (fun a fj => a + fst fj / M) fjs n1 in
         map (map (fun x => x / total))
           (fold_left (fun acc fj => mat_zip add acc (mat_map (mul (fst fj / M)) (snd fj))) fjs J)
  end.

End Mass.
