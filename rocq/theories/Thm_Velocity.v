(** C110, C111 and C112: a Jacobian times the speeds of the joints is the velocity, along any path of the joints. *)
From Coq Require Import String List Arith Lia Bool Permutation Reals Lra.
From Coquelicot Require Import Coquelicot.
From Verif Require Import Base Num Pose DataStructure Urdf Kin Wrapper Spec_Robot Spec_Hist Spec_Load Spec_Jac Spec_Mass Spec_Rot Spec_Deriv Spec_Velocity RealArith
  Pf_Base Pf_Data Inv Rep Pf_Reach Pf_Jac Pf_Real Pf_Rot Pf_Unit Pf_Rpy Pf_Pose Pf_Local Pf_JacD Pf_ComD Pf_Velocity4 Pf_Velocity5 Pf_Velocity6 Ex_Robot Thm_Real.
Import ListNotations.
Local Open Scope m_scope.
Local Open Scope R_scope.

(** C110.  [q t] are the angles given to the joints [jids] at time [t], passing through the current ones at [t0] with speeds [v];
    [P t] is the pose then reported for link [i].  Each reported number changes, at [t0], at the rate given by its row of the Jacobian
    times the speeds. *)
Theorem C110_jacobian_times_speeds_is_link_velocity :
  forall tinyxml text R root sorted jsorted ops m,
    @reached RA tinyxml text R root sorted jsorted ops m -> clean ops = true -> unit_axes R -> unit_bases ops ->
    forall i jids rt wb m' J, NoDup jids -> (forall k, In k jids -> (k < length (get_joint_names m))%nat) ->
      get_jacobian i jids rt wb m = (m', Ok J) ->
    forall (q : Rdefinitions.R -> list Rdefinitions.R) t0 v P,
      angles_are m jids (q t0) -> speeds (length jids) q t0 v -> (forall t, pose_with_joints m jids i (q t) (P t)) ->
    forall r, (r < jac_rows rt)%nat ->
      (rt = RPY -> (3 <= r)%nat -> let o := rotation (P t0) in
         Rabs (2 * (qw o * qy o - qx o * qz o)) < 99999 / 100000 /\ vx (getRPY o) <> PI /\ vz (getRPY o) <> PI) ->
      derivative_at (fun t => reported rt r (P t)) t0 (row_times J r 0 v).
Proof.
  intros tinyxml text R root sorted jsorted ops m Hr Hc Hu Hb i jids rt wb m' J N Hk X q t0 v P Ha Hs HP r Lr Hreg.
  exact (jacobian_times_speeds _ _ _ _ _ _ _ _ Hr Hc Hu Hb jids N Hk q v t0 Ha Hs i rt wb m' J P r X HP Lr Hreg).
Qed.
Print Assumptions C110_jacobian_times_speeds_is_link_velocity.

(** C111.  Likewise for the centre of mass and its Jacobian. *)
Theorem C111_com_jacobian_times_speeds_is_com_velocity :
  forall tinyxml text R root sorted jsorted ops m,
    @reached RA tinyxml text R root sorted jsorted ops m -> clean ops = true -> unit_axes R -> unit_bases ops ->
    forall jids wb m' J, NoDup jids -> (forall k, In k jids -> (k < length (get_joint_names m))%nat) ->
      get_com_jacobian jids wb m = (m', Ok J) ->
    forall (q : Rdefinitions.R -> list Rdefinitions.R) t0 v C,
      angles_are m jids (q t0) -> speeds (length jids) q t0 v -> (forall t, com_with_joints m jids (q t) (C t)) ->
    forall r, (r < 3)%nat -> derivative_at (fun t => coord r (C t)) t0 (row_times J r 0 v).
Proof.
  intros tinyxml text R root sorted jsorted ops m Hr Hc Hu Hb jids wb m' J N Hk X q t0 v C Ha Hs HC r Lr.
  exact (com_times_speeds _ _ _ _ _ _ _ _ Hr Hc Hu Hb jids N Hk q v t0 Ha Hs wb m' J C r X HC Lr).
Qed.
Print Assumptions C111_com_jacobian_times_speeds_is_com_velocity.

Lemma pose_fun (m : @KM RA) jids i (q : R -> list R) : (forall t, exists m1 P, (set_joint_angles (A := RA) jids (q t) ;;; get_link_pose i) m = (m1, Ok P)) ->
  exists P, forall t, pose_with_joints m jids i (q t) (P t).
Proof.
  intros H. exists (fun t => match snd ((set_joint_angles (A := RA) jids (q t) ;;; get_link_pose i) m) with Ok P => P | _ => pose_clear end).
  intros t. destruct (H t) as (m1 & P & E). exists m1. rewrite E. reflexivity.
Qed.
Lemma centre_fun (m : @KM RA) jids (q : R -> list R) : (forall t, exists m1 c, (set_joint_angles (A := RA) jids (q t) ;;; get_com) m = (m1, Ok c)) ->
  exists C, forall t, com_with_joints m jids (q t) (C t).
Proof.
  intros H. exists (fun t => match snd ((set_joint_angles (A := RA) jids (q t) ;;; get_com) m) with Ok c => c | _ => v_clear end).
  intros t. destruct (H t) as (m1 & c & E). exists m1. rewrite E. reflexivity.
Qed.

(** both joints of the example start moving from where they are: one with speed 1 and acceleration, the other with speed 2 *)
Example C110_C111_example : exists m (q : R -> list R) (v : list R), reached ex_tinyxml ex_text ex_R "base" ex_sorted ex_jsorted ex_ops m /\ clean ex_ops = true /\ unit_axes ex_R /\ unit_bases ex_ops /\
  NoDup [1; 0]%nat /\ (forall k, In k [1; 0]%nat -> (k < length (get_joint_names m))%nat) /\
  (exists m' J, get_jacobian 3 [1; 0]%nat XYZW true m = (m', Ok J)) /\ (exists m' J, get_com_jacobian [1; 0]%nat true m = (m', Ok J)) /\
  angles_are m [1; 0]%nat (q 0) /\ speeds 2 q 0 v /\ v = [1; 2] /\
  (exists P, forall t, pose_with_joints m [1; 0]%nat 3 (q t) (P t)) /\ (exists C, forall t, com_with_joints m [1; 0]%nat (q t) (C t)).
Proof.
  destruct ex_run as (m & E). pose proof (ex_reached _ _ E) as Hr. destruct (reached_Rep _ _ _ _ _ _ _ _ Hr) as [HR _].
  assert (L : length (joint_angles m) = 2%nat).
  { rewrite (wf_angles m (rep_wf _ _ _ _ _ _ _ _ HR)). rewrite <- (Forall2_len _ _ _ (rep_joints _ _ _ _ _ _ _ _ HR)). reflexivity. }
  exists m, (fun t => [nth 1 (joint_angles m) n0 + (t + t * t); nth 0 (joint_angles m) n0 + 2 * t]), [1; 2].
  split; [exact Hr|]. split; [reflexivity|]. split; [exact ex_unit_axes|]. split; [exact ex_unit_bases|].
  split; [repeat constructor; simpl; intuition discriminate|].
  split; [rewrite (Pf_Pose.rep_joint_count _ _ _ _ _ _ _ _ HR); intros k [<-|[<-|[]]]; simpl; lia|].
  split; [apply (observe_answer ex_ops (get_jacobian 3 [1; 0]%nat XYZW true) m E); vm_compute; reflexivity|].
  split; [apply (observe_answer ex_ops (get_com_jacobian [1; 0]%nat true) m E); vm_compute; reflexivity|].
  split.
  { unfold angles_are. rewrite Pf_Local.get_angles_spec by (intros j [<-|[<-|[]]]; rewrite L; lia). cbn [map]. do 2 f_equal. change (@num RA) with R. f_equal; [ring|]. f_equal. ring. }
  split.
  { split; [reflexivity|]. split; [reflexivity|]. intros c Lc. apply is_derive_Reals. destruct c as [|[|c]]; [| |lia]; cbn [nth]; (auto_derive; [exact I|ring]). }
  split; [reflexivity|]. split.
  - apply pose_fun. intros t. generalize (nth 1 (joint_angles m) n0 + (t + t * t)) (nth 0 (joint_angles m) n0 + 2 * t). intros x y.
    apply (observe_answer ex_ops (set_joint_angles (A := RA) [1; 0]%nat [x; y] ;;; get_link_pose 3) m E). vm_compute. reflexivity.
  - apply centre_fun. intros t. generalize (nth 1 (joint_angles m) n0 + (t + t * t)) (nth 0 (joint_angles m) n0 + 2 * t). intros x y.
    apply (observe_answer ex_ops (set_joint_angles (A := RA) [1; 0]%nat [x; y] ;;; get_com) m E). vm_compute. reflexivity.
Qed.

(** C112.  [q t] followed by [rest], the base part, is a waypoint that moves with joint speeds [v]; waypoint [a] of the call is the one at [t0].
    The gradient row of pair [b] times the speeds is the rate of change of the squared distance reported for that pair. *)
Theorem C112_distance_gradient_times_speeds_is_rate :
  forall tinyxml text R root sorted jsorted ops m,
    @reached RA tinyxml text R root sorted jsorted ops m -> unit_axes R -> unit_bases ops ->
    forall (qs : list (list (@num RA))) ids1 ids2 jids (wb uc : bool) m' D G, (wb || negb uc)%bool = true -> NoDup jids ->
      (forall k, In k jids -> (k < length (get_joint_names m))%nat) ->
      compute_inter_link_squared_dists qs ids1 ids2 jids wb true uc m = (m', Ok (D, G)) ->
    forall a b (q : Rdefinitions.R -> list Rdefinitions.R) rest t0 v e1 e2 d, length rest = (if wb then 6 else 0)%nat -> speeds (length jids) q t0 v ->
      nth_error qs a = Some (q t0 ++ rest) -> nth_error ids1 b = Some e1 -> nth_error ids2 b = Some e2 ->
      (forall t, sqdist_with m jids wb uc e1 e2 (q t ++ rest) (d t)) ->
      derivative_at d t0 (row_times G (a * length ids1 + b) 0 v).
Proof.
  intros tinyxml text R root sorted jsorted ops m Hr Hu Hb qs ids1 ids2 jids wb uc m' D G Hcl N Hk X a b q rest t0 v e1 e2 d Lr Hs.
  exact (gradient_times_speeds _ _ _ _ _ _ _ _ Hr Hu Hb qs ids1 ids2 jids wb uc m' D G a b q rest t0 v e1 e2 d Hcl N Hk Lr Hs X).
Qed.
Print Assumptions C112_distance_gradient_times_speeds_is_rate.

Lemma moving_dist_fun (m : @KM RA) jids wb uc e1 e2 (q : R -> list R) rest :
  (forall t, exists m1 d, (r <- @compute_inter_link_squared_dists RA [q t ++ rest] [e1] [e2] jids wb false uc ;; ret (fst r)) m = (m1, Ok [d])) ->
  exists d, forall t, sqdist_with m jids wb uc e1 e2 (q t ++ rest) (d t).
Proof.
  intros H. exists (fun t => match snd ((r <- @compute_inter_link_squared_dists RA [q t ++ rest] [e1] [e2] jids wb false uc ;; ret (fst r)) m) with Ok [d] => d | _ => 0 end).
  intros t. destruct (H t) as (m1 & d & E). rewrite E. cbn [snd]. apply bind_inv_ok in E. destruct E as (m2 & [D G] & E & E2). cbn [fst] in E2. inversion E2; subst. exists m1, G. exact E.
Qed.

(** tool and base of the example; the second waypoint moves *)
Example C112_example : exists m (q : R -> list R) (v : list R), reached ex_tinyxml ex_text ex_R "base" ex_sorted ex_jsorted ex_ops m /\ unit_axes ex_R /\ unit_bases ex_ops /\
  (exists m' r, @compute_inter_link_squared_dists RA [[0; 1; 0; 0; 0; 0; 0; 0]; [1; 2; 3; 0; 0; 0; 0; 1]] [3; 2]%nat [0; 1]%nat [1; 0]%nat true true true m = (m', Ok r)) /\
  speeds 2 q 0 v /\ v = [1; 2] /\ q 0 ++ [3; 0; 0; 0; 0; 1] = [1; 2; 3; 0; 0; 0; 0; 1] /\
  (exists d, forall t, sqdist_with m [1; 0]%nat true true 2 1 (q t ++ [3; 0; 0; 0; 0; 1]) (d t)).
Proof.
  destruct ex_run as (m & E). exists m, (fun t => [1 + (t + t * t); 2 + 2 * t]), [1; 2].
  split; [exact (ex_reached _ _ E)|]. split; [exact ex_unit_axes|]. split; [exact ex_unit_bases|].
  split; [apply (observe_answer ex_ops (@compute_inter_link_squared_dists RA [[0; 1; 0; 0; 0; 0; 0; 0]; [1; 2; 3; 0; 0; 0; 0; 1]] [3; 2]%nat [0; 1]%nat [1; 0]%nat true true true) m E); vm_compute; reflexivity|].
  split.
  { split; [reflexivity|]. split; [reflexivity|]. intros c Lc. apply is_derive_Reals. destruct c as [|[|c]]; [| |lia]; cbn [nth]; (auto_derive; [exact I|ring]). }
  split; [reflexivity|]. split.
  { cbn [app]. f_equal; [ring|]. f_equal. ring. }
  apply moving_dist_fun. intros t. generalize (1 + (t + t * t)) (2 + 2 * t). intros x y.
  destruct (observe_answer ex_ops (r <- @compute_inter_link_squared_dists RA [[x; y] ++ [3; 0; 0; 0; 0; 1]] [2]%nat [1]%nat [1; 0]%nat true false true ;; (match fst r with [d] => ret d | _ => throw InvalidArgument end)) m E) as (m1 & d & X); [vm_compute; reflexivity|].
  exists m1, d. apply bind_inv_ok in X. destruct X as (m2 & [D G] & X & X2). cbn [fst] in X2. destruct D as [|d' [|d2 D]]; try discriminate X2. inversion X2; subst.
  rewrite (bind_ok _ _ _ _ _ X). reflexivity.
Qed.
