(** Model of include/tinyfk.hpp, src/tinyfk.cpp and src/kinematics.cpp.

    Pointers to links are indices into [links] (every LinkSharedPtr the code
    handles is an element of [links_]); joints do not change after the constructor
    and are stored by value.  int / size_t are [nat]. *)
From Coq Require Import QArith String Ascii List Arith.
From Verif Require Import Base Num Pose DataStructure Urdf.
Import ListNotations.
Local Open Scope num_scope.
Local Open Scope m_scope.

Section Kin.
Context `{A : Arith}.

(** urdf_model/joint.h:167-277 *)
Record Joint := mkJoint {
  j_name : string;
  j_type : JType;
  j_axis : Vector3;
  j_origin : Pose;                 (* parent_to_joint_origin_transform *)
  j_limits : option JointLimits;
  j_id : option nat;               (* None: never assigned (joint.h:189 has no initialiser) *)
  j_child : option nat }.          (* child_link_; None: null *)

(** urdf_model/link.h:188-243 *)
Record Link := mkLink {
  l_name : string;
  l_id : nat;
  l_inertial : option Inertial;
  l_parent : option nat;           (* parent_link_ *)
  l_pjoint : option Joint;         (* parent_joint *)
  l_children : list nat }.         (* child_links *)

(** tinyfk.hpp:53, RotationType *)
Inductive RotationType := IGNORE | RPY | XYZW.

(** tinyfk.hpp:55-75, the members of KinematicModel; [robot_urdf_interface_] is
    never assigned and left out.  unordered_map is an association list. *)
Record KM := mkKM {
  root_link_id : nat;
  links : list Link;
  link_ids : list (string * nat);
  com_dummy_links : list nat;
  joints : list Joint;
  joint_ids : list (string * nat);
  joint_angles : list num;
  base_pose : Pose;
  rptable : list (list bool);
  num_dof : nat;
  total_mass : num;
  tstack : SizedStack (nat * Pose);
  tcache : SizedCache Pose }.

Definition mat := list (list num).   (* Eigen::MatrixXd, as a list of rows *)
Definition mat_zero (r c : nat) : mat := repeat (repeat n0 c) r.
(** M(r,c) = v; Eigen's index checks are off in release builds *)
Definition mat_set (r c : nat) (v : num) (M : mat) : res mat :=
  let? row := vget M r in
  let? row' := vset row c v in
  vset M r row'.
(** M(r0,c) = v0; M(r0+1,c) = v1; ... *)
Fixpoint mat_set_col (r0 c : nat) (vs : list num) (M : mat) : res mat :=
  match vs with
  | [] => Ok M
  | v :: t => let? M' := mat_set r0 c v M in mat_set_col (S r0) c t M'
  end.
(** entrywise operations on matrices of the same shape *)
Definition zipw (f : num -> num -> num) (a b : list num) : list num :=
  map (fun xy => f (fst xy) (snd xy)) (combine a b).
Definition mat_zip (f : num -> num -> num) (P Q : mat) : mat :=
  map (fun xy => zipw f (fst xy) (snd xy)) (combine P Q).
Definition mat_map (f : num -> num) (P : mat) : mat := map (map f) P.

(* ---- record updates ---- *)
Definition set_angles (a : list num) (m : KM) : KM :=
  mkKM (root_link_id m) (links m) (link_ids m) (com_dummy_links m) (joints m) (joint_ids m) a
       (base_pose m) (rptable m) (num_dof m) (total_mass m) (tstack m) (tcache m).
Definition set_base (p : Pose) (m : KM) : KM :=
  mkKM (root_link_id m) (links m) (link_ids m) (com_dummy_links m) (joints m) (joint_ids m) (joint_angles m)
       p (rptable m) (num_dof m) (total_mass m) (tstack m) (tcache m).
Definition set_tcache (c : SizedCache Pose) (m : KM) : KM :=
  mkKM (root_link_id m) (links m) (link_ids m) (com_dummy_links m) (joints m) (joint_ids m) (joint_angles m)
       (base_pose m) (rptable m) (num_dof m) (total_mass m) (tstack m) c.
Definition set_scratch (s : SizedStack (nat * Pose)) (c : SizedCache Pose) (m : KM) : KM :=
  mkKM (root_link_id m) (links m) (link_ids m) (com_dummy_links m) (joints m) (joint_ids m) (joint_angles m)
       (base_pose m) (rptable m) (num_dof m) (total_mass m) s c.
Definition set_links (l : list Link) (ids : list (string * nat)) (m : KM) : KM :=
  mkKM (root_link_id m) l ids (com_dummy_links m) (joints m) (joint_ids m) (joint_angles m)
       (base_pose m) (rptable m) (num_dof m) (total_mass m) (tstack m) (tcache m).
Definition set_rptable (t : list (list bool)) (m : KM) : KM :=
  mkKM (root_link_id m) (links m) (link_ids m) (com_dummy_links m) (joints m) (joint_ids m) (joint_angles m)
       (base_pose m) t (num_dof m) (total_mass m) (tstack m) (tcache m).
Definition set_com_links (l : list nat) (m : KM) : KM :=
  mkKM (root_link_id m) (links m) (link_ids m) l (joints m) (joint_ids m) (joint_angles m)
       (base_pose m) (rptable m) (num_dof m) (total_mass m) (tstack m) (tcache m).

(* ---- forward kinematics ---- *)

(** urdf_model/joint.h:227-253, Joint::transform *)
Definition joint_transform (j : Joint) (angle : num) : res Pose :=
  match j_type j with
  | REVOLUTE | CONTINUOUS =>
      Ok (mkPose v_clear
           (Q4 (vx (j_axis j) * nsin (angle * nhalf)) (vy (j_axis j) * nsin (angle * nhalf))
               (vz (j_axis j) * nsin (angle * nhalf)) (ncos (angle * nhalf))))
  | PRISMATIC =>
      Ok (mkPose (V3 (vx (j_axis j) * angle) (vy (j_axis j) * angle) (vz (j_axis j) * angle)) q_clear)
  | FIXED => Ok pose_clear
  | _ => Throw RuntimeError
  end.

(** kinematics.cpp:68-82, the pose of a link in its parent *)
Definition tf_plink_to_hlink (m : KM) (pj : Joint) : res Pose :=
  match j_type pj with
  | FIXED => Ok (j_origin pj)
  | _ =>
      let? id := match j_id pj with Some i => Ok i | None => UB Uninitialised end in
      let? angle := vget (joint_angles m) id in
      let? t := joint_transform pj angle in
      Ok (pose_transform (j_origin pj) t)
  end.

(** kinematics.cpp:54-88, the loop towards the root.  Every turn pushes one
    element, and a push beyond the capacity is undefined, so capacity + 1 turns are
    enough: running out of fuel is impossible. *)
Fixpoint walk_up (fuel : nat) (m : KM) (hlink : nat) (stk : SizedStack (nat * Pose))
  : res (SizedStack (nat * Pose) * Pose) :=
  match fuel with
  | O => Diverge
  | S fuel' =>
      let? h := vget (links m) hlink in
      match l_parent h with
      | None => Ok (stk, base_pose m)
      | Some p =>
          let? c := get_cache (l_id h) (tcache m) in
          match c with
          | Some tf => Ok (stk, tf)
          | None =>
              let? pj := deref (l_pjoint h) in
              let? tf := tf_plink_to_hlink m pj in
              let? stk' := stack_push (l_id h, tf) stk in
              walk_up fuel' m p stk'
          end
      end
  end.

(** kinematics.cpp:90-102, composing while popping; one turn per stack element *)
Fixpoint unwind (n : nat) (stk : SizedStack (nat * Pose)) (c : SizedCache Pose) (tf : Pose)
  : res (SizedStack (nat * Pose) * SizedCache Pose * Pose) :=
  if stack_empty stk then Ok (stk, c, tf)
  else match n with
       | O => Diverge
       | S n' =>
           let? e := stack_top stk in
           let? stk' := stack_pop stk in
           let tf' := pose_transform tf (snd e) in
           let? c' := set_cache (fst e) tf' c in
           unwind n' stk' c' tf'
       end.

(** kinematics.cpp:47-103, get_link_pose_inner *)
Definition get_link_pose_inner (link_id : nat) : M KM Pose :=
  fun m =>
    let stk := stack_reset (tstack m) in
    match walk_up (S (List.length (stack_data stk))) m link_id stk with
    | Ok (stk', tf) =>
        match unwind (stack_size stk') stk' (tcache m) tf with
        | Ok (stk'', c, tf') => (set_scratch stk'' c m, Ok tf')
        | Throw e => (m, Throw e) | UB u => (m, UB u) | Diverge => (m, Diverge)
        end
    | Throw e => (m, Throw e) | UB u => (m, UB u) | Diverge => (m, Diverge)
    end.

(** kinematics.cpp:37-45, get_link_pose *)
Definition get_link_pose (link_id : nat) : M KM Pose :=
  m <- get ;;
  c <- lift (get_cache link_id (tcache m)) ;;
  match c with
  | Some p => ret p
  | None => get_link_pose_inner link_id
  end.

(* ---- Jacobians ---- *)

(** kinematics.cpp:14-23, rpy_derivative *)
Definition rpy_derivative (rpy axis : Vector3) : Vector3 :=
  let a2 := - vy rpy in
  let a3 := - vz rpy in
  V3 (ncos a3 / ncos a2 * vx axis - nsin a3 / ncos a2 * vy axis)
     (nsin a3 * vx axis + ncos a3 * vy axis)
     (- ncos a3 * nsin a2 / ncos a2 * vx axis + nsin a3 * nsin a2 / ncos a2 * vy axis + vz axis).

(** kinematics.cpp:25-35, q_derivative *)
Definition q_derivative (q : Rotation) (om : Vector3) : Rotation :=
  let x := qx q in let y := qy q in let z := qz q in let w := qw q in
  let dx := nhalf * (n0 * x + vz om * y - vy om * z + vx om * w) in
  let dy := nhalf * (- vz om * x + n0 * y + vx om * z + vy om * w) in
  let dz := nhalf * (vy om * x - vx om * y + n0 * z + vz om * w) in
  let dw := nhalf * (- vx om * x - vy om * y - vz om * z + n0 * w) in
  Q4 dx dy dz (- dw).

(** kinematics.cpp:109-110 *)
Definition dim_jacobi (rt : RotationType) : nat :=
  match rt with IGNORE => 3 | RPY => 6 | XYZW => 7 end.

(** tinyfk.hpp:43-45, RelevancePredicateTable::isRelevant *)
Definition isRelevant (t : list (list bool)) (link_id joint_id : nat) : res bool :=
  let? row := vget t link_id in vget row joint_id.

Definition v_list (v : Vector3) : list num := [vx v; vy v; vz v].
Definition q_list (q : Rotation) : list num := [qx q; qy q; qz q; qw q].

(** kinematics.cpp:147-178: the entries written into the column of one joint *)
Definition joint_column (rt : RotationType) (j : Joint) (epos erpy : Vector3) (erot_inverse : Rotation)
           (tf_rlink_to_clink : Pose) : list num :=
  let world_axis := q_rot (rotation tf_rlink_to_clink) (j_axis j) in
  let cpos := position tf_rlink_to_clink in
  let dpos := match j_type j with
              | PRISMATIC => world_axis
              | _ => cross_product world_axis
                       (V3 (vx epos - vx cpos) (vy epos - vy cpos) (vz epos - vz cpos))
              end in
  v_list dpos ++
  match j_type j with
  | PRISMATIC => []
  | _ => match rt with
         | IGNORE => []
         | RPY => v_list (rpy_derivative erpy world_axis)
         | XYZW => q_list (q_derivative erot_inverse world_axis)
         end
  end.

(** kinematics.cpp:131-180: one turn of the loop over joints *)
Definition jacobian_joint (rt : RotationType) (elink_id : nat) (epos erpy : Vector3)
           (erot_inverse : Rotation) (i jid : nat) (J : mat) : M KM mat :=
  m <- get ;;
  b <- lift (isRelevant (rptable m) elink_id jid) ;;
  if b : bool then
    hjoint <- lift (vget (joints m) jid) ;;
    c <- lift (deref (j_child hjoint)) ;;
    clink <- lift (vget (links m) c) ;;
    tf <- get_link_pose (l_id clink) ;;
    lift (mat_set_col 0 i (joint_column rt hjoint epos erpy erot_inverse tf) J)
  else ret J.

(** kinematics.cpp:201 *)
Definition fd_eps : num := lit (1 # 10000000).

(** kinematics.cpp:205-231: the entries of one base rotation column *)
Definition base_column (rt : RotationType) (rpy_idx : nat) (tf_r_b tf_b_e tf_r_e : Pose)
           (rpy_b erpy : Vector3) : list num :=
  let t := v_add_at rpy_idx fd_eps rpy_b in
  let tweaked := mkPose (position tf_r_b) (setFromRPY (vx t) (vy t) (vz t)) in
  let out := pose_transform tweaked tf_b_e in
  let d := v_sub (position out) (position tf_r_e) in
  let erot := rotation tf_r_e in
  [vx d / fd_eps; vy d / fd_eps; vz d / fd_eps] ++
  match rt with
  | IGNORE => []
  | RPY => let e := v_sub (getRPY (rotation out)) erpy in
           [vx e / fd_eps; vy e / fd_eps; vz e / fd_eps]
  | XYZW => [(qx (rotation out) - qx erot) / fd_eps; (qy (rotation out) - qy erot) / fd_eps;
             (qz (rotation out) - qz erot) / fd_eps; (qw (rotation out) - qw erot) / fd_eps]
  end.

(** kinematics.cpp:182-233: the six base columns, starting at column n *)
Definition jacobian_base (rt : RotationType) (n : nat) (tf_r_e : Pose) (erpy : Vector3) (J : mat) : M KM mat :=
  m <- get ;;
  tf_r_b <- get_link_pose (root_link_id m) ;;
  let tf_b_r := pose_inverse tf_r_b in
  let rpy_b := getRPY (rotation tf_r_b) in
  let tf_b_e := pose_transform tf_b_r tf_r_e in
  lift (let? J1 := mat_set 0 (n + 0) n1 J in
        let? J2 := mat_set 1 (n + 1) n1 J1 in
        let? J3 := mat_set 2 (n + 2) n1 J2 in
        rfor [0; 1; 2]%nat J3 (fun k J' =>
          mat_set_col 0 (n + 3 + k) (base_column rt k tf_r_b tf_b_e tf_r_e rpy_b erpy) J')).

(** kinematics.cpp:105-235, get_jacobian *)
Definition get_jacobian (elink_id : nat) (jids : list nat) (rt : RotationType) (with_base : bool) : M KM mat :=
  let n := List.length jids in
  let dim_dof := (n + if with_base then 6 else 0)%nat in
  tf_r_e <- get_link_pose elink_id ;;
  let epos := position tf_r_e in
  let erpy := match rt with RPY => getRPY (rotation tf_r_e) | _ => v_clear end in
  let erot_inverse := match rt with XYZW => q_inverse (rotation tf_r_e) | _ => q_clear end in
  J <- for_each (combine (seq 0 n) jids) (mat_zero (dim_jacobi rt) dim_dof)
         (fun ij J => jacobian_joint rt elink_id epos erpy erot_inverse (fst ij) (snd ij) J) ;;
  if with_base then jacobian_base rt n tf_r_e erpy J else ret J.

(* ---- centre of mass and inertia ---- *)

(** kinematics.cpp:237-253, get_com *)
Definition get_com : M KM Vector3 :=
  m <- get ;;
  r <- for_each (com_dummy_links m) (v_clear, n0) (fun id acc =>
         let '(com, mass_total) := acc in
         m <- get ;;
         lk <- lift (vget (links m) id) ;;
         ine <- lift (deref (l_inertial lk)) ;;
         tf <- get_link_pose (l_id lk) ;;
         ret (V3 (vx com + in_mass ine * vx (position tf))
                 (vy com + in_mass ine * vy (position tf))
                 (vz com + in_mass ine * vz (position tf)),
              mass_total + in_mass ine)) ;;
  let '(com, mass_total) := r in
  ret (V3 (vx com / mass_total) (vy com / mass_total) (vz com / mass_total)).

(** kinematics.cpp:255-270, get_com_jacobian *)
Definition get_com_jacobian (jids : list nat) (with_base : bool) : M KM mat :=
  let dim_dof := (List.length jids + if with_base then 6 else 0)%nat in
  m <- get ;;
  r <- for_each (com_dummy_links m) (mat_zero 3 dim_dof, n0) (fun id acc =>
         let '(J, mass_total) := acc in
         m <- get ;;
         lk <- lift (vget (links m) id) ;;
         ine <- lift (deref (l_inertial lk)) ;;
         jac <- get_jacobian (l_id lk) jids IGNORE with_base ;;
         ret (mat_zip add J (mat_map (mul (in_mass ine)) jac), mass_total + in_mass ine)) ;;
  let '(J, mass_total) := r in
  ret (mat_map (fun x => x / mass_total) J).

(** Eigen 3x3 products; summation left to right *)
Definition dot3 (a b : list num) : num :=
  match a, b with
  | [a0; a1; a2], [b0; b1; b2] => a0 * b0 + a1 * b1 + a2 * b2
  | _, _ => n0
  end.
Definition transpose3 (P : mat) : mat :=
  match P with
  | [[a; b; c]; [d; e; f]; [g; h; i]] => [[a; d; g]; [b; e; h]; [c; f; i]]
  | _ => P
  end.
Definition mat3_mul (P Q : mat) : mat :=
  map (fun row => map (fun col => dot3 row col) (transpose3 Q)) P.

(** kinematics.cpp:286-287 *)
Definition inertia_mat (i : Inertial) : mat :=
  [[ixx i; ixy i; ixz i]; [ixy i; iyy i; iyz i]; [ixz i; iyz i; izz i]].

(** kinematics.cpp:296-308 *)
Definition rot_mat (r : Rotation) : mat :=
  let x := qx r in let y := qy r in let z := qz r in let w := qw r in
  let xy2 := n2 * (x * y) in let xz2 := n2 * (x * z) in let xw2 := n2 * (x * w) in
  let yz2 := n2 * (y * z) in let yw2 := n2 * (y * w) in let zw2 := n2 * (z * w) in
  let xx2 := n2 * (x * x) in let yy2 := n2 * (y * y) in let zz2 := n2 * (z * z) in
  [[n1 - yy2 - zz2; xy2 - zw2; xz2 + yw2];
   [xy2 + zw2; n1 - xx2 - zz2; yz2 - xw2];
   [xz2 - yw2; yz2 + xw2; n1 - xx2 - yy2]].

(** kinematics.cpp:310-312 *)
Definition trans_term (mass : num) (v : Vector3) : mat :=
  let norm := nsqrt (vx v * vx v + vy v * vy v + vz v * vz v) in
  let nn := norm * norm in
  [[mass * (nn * n1 - vx v * vx v); mass * (nn * n0 - vx v * vy v); mass * (nn * n0 - vx v * vz v)];
   [mass * (nn * n0 - vy v * vx v); mass * (nn * n1 - vy v * vy v); mass * (nn * n0 - vy v * vz v)];
   [mass * (nn * n0 - vz v * vx v); mass * (nn * n0 - vz v * vy v); mass * (nn * n1 - vz v * vz v)]].

(** kinematics.cpp:272-317, get_total_inertia_matrix *)
Definition get_total_inertia_matrix : M KM mat :=
  com <- get_com ;;
  m <- get ;;
  for_each (com_dummy_links m) (mat_zero 3 3) (fun id acc =>
    m <- get ;;
    lk <- lift (vget (links m) id) ;;
    match l_inertial lk with
    | None => ret acc
    | Some ine =>
        tf <- get_link_pose (l_id lk) ;;
        let v := v_sub (position tf) com in
        let R := rot_mat (rotation tf) in
        ret (mat_zip add acc
               (mat_zip add (mat3_mul (mat3_mul R (inertia_mat ine)) (transpose3 R))
                            (trans_term (in_mass ine) v)))
    end).

(* ---- configuration ---- *)

(** tinyfk.cpp:132, clear_cache *)
Definition clear_cache : M KM unit :=
  m <- get ;; put (set_tcache (cache_clear (tcache m)) m).

(** tinyfk.cpp:122-128, _set_joint_angles *)
Definition set_joint_angles_nc (jids : list nat) (angles : list num) : M KM unit :=
  for_each (combine (seq 0 (List.length jids)) jids) tt (fun ij _ =>
    m <- get ;;
    a <- lift (vget angles (fst ij)) ;;
    v <- lift (vset (joint_angles m) (snd ij) a) ;;
    put (set_angles v m)).

(** tinyfk.cpp:116-120, set_joint_angles *)
Definition set_joint_angles (jids : list nat) (angles : list num) : M KM unit :=
  set_joint_angles_nc jids angles ;;; clear_cache.

(** tinyfk.hpp:146-148, set_joint_angle: no cache handling *)
Definition set_joint_angle (jid : nat) (a : num) : M KM unit :=
  m <- get ;; v <- lift (vset (joint_angles m) jid a) ;; put (set_angles v m).

(** tinyfk.hpp:90-93 and tinyfk.cpp:130, set_base_pose *)
Definition set_base_pose (p : Pose) : M KM unit :=
  m <- get ;; put (set_base p m) ;;; clear_cache.

(** tinyfk.cpp:134-138, set_init_angles *)
Definition set_init_angles : M KM unit :=
  m <- get ;; put (set_angles (repeat n0 (num_dof m)) m) ;;; clear_cache.

(** tinyfk.cpp:140-148, get_joint_angles *)
Definition get_joint_angles (jids : list nat) : M KM (list num) :=
  m <- get ;;
  lift (rfor jids [] (fun j acc => let? a := vget (joint_angles m) j in Ok (acc ++ [a]))).

(** tinyfk.cpp:150-162 and 203-215, get_joint_ids and get_link_ids *)
Definition ids_of_names (tbl : list (string * nat)) (names : list string) : res (list nat) :=
  rfor names [] (fun n acc => match assoc n tbl with
                              | None => Throw InvalidArgument
                              | Some i => Ok (acc ++ [i])
                              end).
Definition get_joint_ids (names : list string) : M KM (list nat) :=
  m <- get ;; lift (ids_of_names (joint_ids m) names).
Definition get_link_ids (names : list string) : M KM (list nat) :=
  m <- get ;; lift (ids_of_names (link_ids m) names).

(** tinyfk.hpp:114-130, get_joint_names, get_link_names *)
Definition get_joint_names (m : KM) : list string := map j_name (joints m).
Definition get_link_names (m : KM) : list string := map l_name (links m).

(** -infinity / +infinity / finite: strToDouble never yields an infinity (an
    overflowing literal makes the stream fail) *)
Inductive ext := NegInf | Fin (x : num) | PosInf.

(** tinyfk.cpp:164-179, get_joint_position_limits *)
Definition get_joint_position_limits (jids : list nat) : M KM (list (ext * ext)) :=
  m <- get ;;
  lift (rfor jids [] (fun j acc =>
    let? jt := vget (joints m) j in
    match j_type jt with
    | CONTINUOUS => Ok (acc ++ [(NegInf, PosInf)])
    | _ => let? l := deref (j_limits jt) in Ok (acc ++ [(Fin (lower l), Fin (upper l))])
    end)).

(** tinyfk.cpp:181-201, get_joint_velocity_limits, get_joint_effort_limits *)
Definition joint_limit_field (f : JointLimits -> num) (jids : list nat) : M KM (list num) :=
  m <- get ;;
  lift (rfor jids [] (fun j acc =>
    let? jt := vget (joints m) j in
    let? l := deref (j_limits jt) in
    Ok (acc ++ [f l]))).
Definition get_joint_velocity_limits := joint_limit_field velocity.
Definition get_joint_effort_limits := joint_limit_field effort.

(* ---- adding links ---- *)

(** table_[i][j] = true *)
Definition table_set (i j : nat) (t : list (list bool)) : res (list (list bool)) :=
  let? row := vget t i in
  let? row' := vset row j true in
  vset t i row'.

(** tinyfk.cpp:273-280, one turn of the traversal loop: the top of [link_stack] is
    marked, and its children are pushed in order (the last one ends on top) *)
Definition rp_step (ls : list Link) (joint_id : nat) (s : list nat * list (list bool))
  : (list nat * list (list bool)) + res (list (list bool)) :=
  match fst s with
  | [] => inr (Ok (snd s))
  | h :: rest =>
      match nth_error ls h with
      | None => inr (UB OutOfBounds)
      | Some l =>
          match table_set (l_id l) joint_id (snd s) with
          | Ok t' => inl (rev (l_children l) ++ rest, t')
          | Throw e => inr (Throw e) | UB u => inr (UB u) | Diverge => inr Diverge
          end
      end
  end.

Definition num_edges (ls : list Link) : nat := list_sum (map (fun l => List.length (l_children l)) ls).

(** tinyfk.cpp:268-281, marking the links below one joint.  Without a cycle the
    traversal makes at most 2^edges turns (one per path), so if it is still running
    after 2^(edges+1) turns it never ends. *)
Definition rp_joint (ls : list Link) (joint_id clink : nat) (t : list (list bool)) : res (list (list bool)) :=
  match loop2 (S (num_edges ls)) (rp_step ls joint_id) ([clink], t) with
  | inr r => r
  | inl _ => Diverge
  end.

(** tinyfk.cpp:260-283, update_rptable; [joint_ids_.at] throws std::out_of_range *)
Definition update_rptable : M KM unit :=
  m <- get ;;
  t <- lift (rfor (joints m) (repeat (repeat false (List.length (joint_ids m))) (List.length (link_ids m)))
         (fun j t =>
            let? jid := match assoc (j_name j) (joint_ids m) with Some i => Ok i | None => Throw OutOfRange end in
            let? c := deref (j_child j) in
            rp_joint (links m) jid c t)) ;;
  put (set_rptable t m).

(** Simplification: link_ids_[name] = id is only executed when the name is not yet
    a key (add_new_link tests it, the constructor runs over distinct map keys). *)
Definition ids_insert (n : string) (i : nat) (l : list (string * nat)) : list (string * nat) := l ++ [(n, i)].

Definition push_child (c : nat) (l : Link) : Link :=
  mkLink (l_name l) (l_id l) (l_inertial l) (l_parent l) (l_pjoint l) (l_children l ++ [c]).

(** tinyfk.cpp:238-241, the new fixed joint *)
Definition fixed_joint (pose : Pose) : Joint :=
  mkJoint EmptyString FIXED v_clear pose None None None.

(** tinyfk.cpp:229-258, add_new_link(name, parent_id, pose).  links_[parent_id] with
    an id out of range is undefined. *)
Definition add_new_link_pose (name : string) (parent_id : nat) (pose : Pose) : M KM nat :=
  m <- get ;;
  match assoc name (link_ids m) with
  | Some _ => throw InvalidArgument
  | None =>
      let link_id := List.length (links m) in
      _ <- lift (vget (links m) parent_id) ;;
      let new_link := mkLink name link_id None (Some parent_id) (Some (fixed_joint pose)) [] in
      let ls := links m ++ [new_link] in
      p <- lift (vget ls parent_id) ;;
      ls' <- lift (vset ls parent_id (push_child link_id p)) ;;
      put (set_tcache (cache_extend pose_clear (tcache m)) (set_links ls' (ids_insert name link_id (link_ids m)) m)) ;;;
      update_rptable ;;;
      ret link_id
  end.

(** tinyfk.cpp:217-227, add_new_link(name, parent_id, position, rpy) *)
Definition add_new_link (name : string) (parent_id : nat) (pos rpy : Vector3) : M KM nat :=
  add_new_link_pose name parent_id (mkPose pos (setFromRPY (vx rpy) (vy rpy) (vz rpy))).

(* ---- constructor ---- *)

Fixpoint pos_of (n : string) (l : list string) : option nat :=
  match l with
  | [] => None
  | x :: t => if String.eqb n x then Some O else option_map S (pos_of n t)
  end.

Definition movable (t : JType) : bool :=
  match t with REVOLUTE | CONTINUOUS | PRISMATIC => true | _ => false end.
Definition supported (t : JType) : bool := movable t || match t with FIXED => true | _ => false end.

(** tinyfk.cpp:45-72: ids by position among the movable joints, child link pointer
    only set for movable joints *)
Definition mk_joint (lnames jnames : list string) (j : UJoint) : Joint :=
  mkJoint (uj_name j) (uj_type j) (uj_axis j) (uj_origin j) (uj_limits j)
          (if movable (uj_type j) then pos_of (uj_name j) jnames else None)
          (if movable (uj_type j) then pos_of (uj_child j) lnames else None).

(** tinyfk.cpp:24-34: the links in map order with their ids; parent, parent joint and
    child pointers were set by initTree *)
Definition mk_link (mi : ModelInterface) (lnames jnames : list string) (i : nat) (kl : string * ULink) : Link :=
  let l := snd kl in
  mkLink (ul_name l) i (ul_inertial l)
         (match ul_parent l with None => None | Some p => pos_of p lnames end)
         (match ul_pjoint l with
          | None => None
          | Some j => option_map (mk_joint lnames jnames) (assoc j (mi_joints mi))
          end)
         (flat_map (fun c => match pos_of c lnames with Some k => [k] | None => [] end) (ul_children l)).

Definition enumerate {B} (l : list B) : list (nat * B) := combine (seq 0 (List.length l)) l.

Definition set_inertial (i : option Inertial) (l : Link) : Link :=
  mkLink (l_name l) (l_id l) i (l_parent l) (l_pjoint l) (l_children l).

Definition reset_origin (i : Inertial) : Inertial :=
  mkInertial pose_clear (in_mass i) (ixx i) (ixy i) (ixz i) (iyy i) (iyz i) (izz i).

(** tinyfk.cpp:93-109: the COM dummy link of one link.  The inertial object is shared
    by the two links, so resetting its origin is visible in both. *)
Definition add_com_link (id : nat) (acc : list nat) : M KM (list nat) :=
  m <- get ;;
  lk <- lift (vget (links m) id) ;;
  match l_inertial lk with
  | None => ret acc
  | Some ine =>
      nid <- add_new_link_pose (l_name lk ++ "_com")%string (l_id lk)
               (mkPose (V3 (vx (position (in_origin ine))) (vy (position (in_origin ine)))
                           (vz (position (in_origin ine)))) q_clear) ;;
      m <- get ;;
      nl <- lift (vget (links m) nid) ;;
      lk' <- lift (vget (links m) id) ;;
      ls1 <- lift (vset (links m) nid (set_inertial (Some (reset_origin ine)) nl)) ;;
      ls2 <- lift (vset ls1 id (set_inertial (Some (reset_origin ine)) lk')) ;;
      put (set_links ls2 (link_ids m) m) ;;;
      ret (acc ++ [nid])
  end.

(** tinyfk.cpp:23-86: the members before COM links are added *)
Definition ctor_members (mi : ModelInterface) : KM :=
  let lnames := map fst (mi_links mi) in
  let ujs := filter (fun kj => movable (uj_type (snd kj))) (mi_joints mi) in
  let jnames := map fst ujs in
  let ls := map (fun ik => mk_link mi lnames jnames (fst ik) (snd ik)) (enumerate (mi_links mi)) in
  let js := map (fun kj => mk_joint lnames jnames (snd kj)) ujs in
  let mass := fold_left (fun acc l => match l_inertial l with None => acc | Some i => acc + in_mass i end) ls n0 in
  let N := List.length ls in
  mkKM (match pos_of (mi_root mi) lnames with Some r => r | None => O end)
       ls (combine lnames (seq 0 N)) [] js (combine jnames (seq 0 (List.length js)))
       (repeat n0 (List.length js)) pose_clear [] (List.length js) mass
       (stack_new (O, pose_clear) N) (cache_new pose_clear N).

(** tinyfk.cpp:20-114, the constructor after parseURDF; [None] = null pointer, which
    line 27 dereferences *)
Definition ctor_mi (omi : option ModelInterface) : res KM :=
  match omi with
  | None => UB NullDeref
  | Some mi =>
      if negb (forallb (fun kj => supported (uj_type (snd kj))) (mi_joints mi)) then Throw InvalidArgument else
      let m0 := ctor_members mi in
      match (ids <- for_each (seq 0 (List.length (links m0))) [] add_com_link ;;
             m <- get ;;
             put (set_com_links ids m) ;;;
             set_base_pose pose_clear) m0 with
      | (m, Ok _) => Ok m
      | (_, Throw e) => Throw e | (_, UB u) => UB u | (_, Diverge) => Diverge
      end
  end.

(** tinyfk.cpp:16-19: the constructor, with TinyXML as a parameter *)
Definition ctor (tinyxml : string -> option (list xml)) (xml_string : string) : res KM :=
  match xml_string with
  | EmptyString => Throw RuntimeError
  | _ => ctor_mi (parseURDF_dom (tinyxml xml_string))
  end.

End Kin.
