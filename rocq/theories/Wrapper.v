(** Model of src/wrapper.cpp: class KinematicsModelPyWrapper. *)
From Coq Require Import QArith String List Arith.
From Verif Require Import Base Num Pose DataStructure Urdf Kin.
Import ListNotations.
Local Open Scope num_scope.
Local Open Scope m_scope.

Section Wrapper.
Context `{A : Arith}.

(** wrapper.cpp:25-35, set_base_pose(iterator) on six numbers *)
Definition w_set_base_pose6 (b : list num) : M KM unit :=
  x <- lift (vget b 0) ;; y <- lift (vget b 1) ;; z <- lift (vget b 2) ;;
  r <- lift (vget b 3) ;; p <- lift (vget b 4) ;; w <- lift (vget b 5) ;;
  set_base_pose (mkPose (V3 x y z) (setFromRPY r p w)).

(** wrapper.cpp:37-42, set_base_pose(vector) *)
Definition w_set_base_pose (xyzrpy : list num) : M KM unit :=
  if Nat.eqb (List.length xyzrpy) 6 then w_set_base_pose6 xyzrpy else throw InvalidArgument.

(** wrapper.cpp:44-54, get_base_pose *)
Definition w_get_base_pose : M KM (list num) :=
  m <- get ;;
  ret (v_list (position (base_pose m)) ++ v_list (getRPY (rotation (base_pose m)))).

(** wrapper.cpp:56-58, get_root_link_name *)
Definition w_get_root_link_name : M KM string :=
  m <- get ;; l <- lift (vget (links m) (root_link_id m)) ;; ret (l_name l).

(** std::prev(v.end(), 6): undefined when the vector is shorter *)
Definition last6 (v : list num) : res (list num) :=
  if Nat.ltb (List.length v) 6 then UB OutOfBounds else Ok (skipn (List.length v - 6) v).

(** wrapper.cpp:85-92, 138-142, 206-213: moving the model to one waypoint;
    [clear] = false where the code has no [if (!use_cache) clear_cache()] or
    use_cache is set *)
Definition goto_waypoint (jids : list nat) (q : list num) (with_base clear : bool) : M KM unit :=
  set_joint_angles_nc jids q ;;;
  (if with_base then b <- lift (last6 q) ;; w_set_base_pose6 b else ret tt) ;;;
  (if clear then clear_cache else ret tt).

(** P(k, head) = v_k, for P stored transposed (wrapper.cpp:123 returns P.transpose()) *)
Fixpoint mat_set_row (r c0 : nat) (vs : list num) (P : mat) : res mat :=
  match vs with
  | [] => Ok P
  | v :: t => let? P' := mat_set r c0 v P in mat_set_row r (S c0) t P'
  end.

(** J.block(r0, 0, rows(B), cols(B)) = B.  Simplification: B is required to have the
    width of the block, as Eigen does (it always has). *)
Fixpoint mat_set_block (r0 : nat) (B : mat) (J : mat) : res mat :=
  match B with
  | [] => Ok J
  | row :: t => let? J' := vset J r0 row in mat_set_block (S r0) t J'
  end.

(** wrapper.cpp:98-112: the entries of P for one pose *)
Definition pose_entries (rt : RotationType) (p : Pose) : list num :=
  v_list (position p) ++
  match rt with
  | IGNORE => []
  | RPY => v_list (getRPY (rotation p))
  | XYZW => q_list (rotation p)
  end.

(** wrapper.cpp:94-113: the loop over links for one waypoint *)
Definition fk_poses (rt : RotationType) (i : nat) (elinks : list nat) (P : mat) : M KM mat :=
  for_each (enumerate elinks) P (fun je P =>
    p <- get_link_pose (snd je) ;;
    lift (mat_set_row (i * List.length elinks + fst je) 0 (pose_entries rt p) P)).

(** wrapper.cpp:114-121 *)
Definition fk_jacs (rt : RotationType) (i : nat) (elinks jids : list nat) (with_base : bool) (J : mat) : M KM mat :=
  for_each (enumerate elinks) J (fun je J =>
    B <- get_jacobian (snd je) jids rt with_base ;;
    lift (mat_set_block (i * (List.length elinks * dim_jacobi rt) + fst je * dim_jacobi rt) B J)).

(** wrapper.cpp:60-124, solve_forward_kinematics.  [joint_angles_sequence[0].size() - 6]
    wraps around when the size is below 6, and then differs from n_joints. *)
Definition solve_forward_kinematics (qs : list (list num)) (elinks jids : list nat) (rt : RotationType)
           (with_base with_jacobian use_cache : bool) : M KM (mat * mat) :=
  let n_wp := List.length qs in
  let n_link := List.length elinks in
  let n_joints := List.length jids in
  let n_dof := if with_base then (n_joints + 6)%nat else n_joints in
  (if with_base
   then q0 <- lift (vget qs 0) ;;
        if Nat.ltb (List.length q0) 6 || negb (Nat.eqb n_joints (List.length q0 - 6))
        then throw InvalidArgument else ret tt
   else ret tt) ;;;
  for_each (enumerate qs)
    (mat_zero (n_wp * n_link) (dim_jacobi rt), mat_zero (n_wp * n_link * dim_jacobi rt) n_dof)
    (fun iq PJ =>
       goto_waypoint jids (snd iq) with_base (negb use_cache) ;;;
       P <- fk_poses rt (fst iq) elinks (fst PJ) ;;
       J <- (if with_jacobian then fk_jacs rt (fst iq) elinks jids with_base (snd PJ) else ret (snd PJ)) ;;
       ret (P, J)).

Definition v_fma (f : num) (p v : Vector3) : Vector3 :=
  V3 (vx v + f * vx p) (vy v + f * vy p) (vz v + f * vz p).
Definition v_div (v : Vector3) (d : num) : Vector3 := V3 (vx v / d) (vy v / d) (vz v / d).

(** wrapper.cpp:153-176: action forces at one waypoint, on the values just written to
    coms and J *)
Definition apply_forces (jids actions : list nat) (forces : list num) (with_base with_jacobian : bool)
           (com : Vector3) (B : mat) : M KM (Vector3 * mat) :=
  match actions with
  | [] => ret (com, B)
  | _ =>
      r <- for_each (enumerate actions) (n1, com, B) (fun ja acc =>
             let '(fsum, com, B) := acc in
             m <- get ;;
             f <- lift (vget forces (fst ja)) ;;
             let force := f / total_mass m in
             p <- get_link_pose (snd ja) ;;
             B' <- (if with_jacobian
                    then jac <- get_jacobian (snd ja) jids IGNORE with_base ;;
                         ret (mat_zip add B (mat_map (mul force) jac))
                    else ret B) ;;
             ret (fsum + force, v_fma force (position p) com, B')) ;;
      let '(fsum, com, B) := r in
      ret (v_div com fsum, if with_jacobian then mat_map (fun x => x / fsum) B else B)
  end.

(** wrapper.cpp:126-179, solve_com_forward_kinematics.  The values of coms and J for a
    waypoint are written once, after the forces have been applied. *)
Definition solve_com_forward_kinematics (qs : list (list num)) (jids actions : list nat) (forces : list num)
           (with_base with_jacobian : bool) : M KM (mat * mat) :=
  let n_wp := List.length qs in
  let n_dof := (List.length jids + if with_base then 6 else 0)%nat in
  for_each (enumerate qs) (mat_zero n_wp 3, mat_zero (3 * n_wp) n_dof) (fun iq acc =>
    goto_waypoint jids (snd iq) with_base false ;;;
    com <- get_com ;;
    B <- (if with_jacobian then get_com_jacobian jids with_base else ret (mat_zero 3 n_dof)) ;;
    r <- apply_forces jids actions forces with_base with_jacobian com B ;;
    P <- lift (mat_set_row (fst iq) 0 (v_list (fst r)) (fst acc)) ;;
    J <- lift (mat_set_block (3 * fst iq) (snd r) (snd acc)) ;;
    ret (P, J)).

(** wrapper.cpp:181-187, compute_total_inertia_matrix *)
Definition compute_total_inertia_matrix (q : list num) (jids : list nat) : M KM mat :=
  set_joint_angles_nc jids q ;;; get_total_inertia_matrix.

(** wrapper.cpp:220-223, squaredNorm of the difference *)
Definition sq_norm (v : Vector3) : num := vx v * vx v + vy v * vy v + vz v * vz v.

(** wrapper.cpp:231: 2 * (jac1 - jac2)^T * diff, one entry per column *)
Definition grad_row (n : nat) (jac1 jac2 : mat) (d : Vector3) : list num :=
  let D := mat_zip sub jac1 jac2 in
  let at_ r c := nth c (nth r D []) n0 in
  map (fun c => n2 * at_ 0%nat c * vx d + n2 * at_ 1%nat c * vy d + n2 * at_ 2%nat c * vz d) (seq 0 n).

(** wrapper.cpp:189-237, compute_inter_link_squared_dists *)
Definition compute_inter_link_squared_dists (qs : list (list num)) (ids1 ids2 jids : list nat)
           (with_base with_grads use_cache : bool) : M KM (list num * mat) :=
  let n_wp := List.length qs in
  let n_joint := (List.length jids + if with_base then 6 else 0)%nat in
  let n_check := List.length ids1 in
  for_each (enumerate qs)
    (repeat n0 (n_check * n_wp), if with_grads then mat_zero (n_check * n_wp) n_joint else mat_zero 1 1)
    (fun iq acc =>
       goto_waypoint jids (snd iq) with_base (negb use_cache) ;;;
       for_each (enumerate ids1) acc (fun jl acc =>
         let head := (fst iq * n_check + fst jl)%nat in
         id2 <- lift (vget ids2 (fst jl)) ;;
         p1 <- get_link_pose (snd jl) ;;
         p2 <- get_link_pose id2 ;;
         let diff := v_sub (position p1) (position p2) in
         sd <- lift (vset (fst acc) head (sq_norm diff)) ;;
         if with_grads then
           jac1 <- get_jacobian (snd jl) jids IGNORE with_base ;;
           jac2 <- get_jacobian id2 jids IGNORE with_base ;;
           g <- lift (vset (snd acc) head (grad_row n_joint jac1 jac2 diff)) ;;
           ret (sd, g)
         else ret (sd, snd acc))).

(** wrapper.cpp:239-243, add_new_link *)
Definition w_add_new_link (name : string) (parent_id : nat) (pos rpy : Vector3) : M KM unit :=
  add_new_link name parent_id pos rpy ;;; ret tt.

End Wrapper.
