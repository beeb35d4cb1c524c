(** C19, C39: the centre-of-mass Jacobian and the gradient of inter-link squared distances
    are derivatives, in exact arithmetic. *)
From Coq Require Import String List Arith Lia Bool Permutation Reals Lra.
From Verif Require Import Base Num Pose DataStructure Urdf Kin Wrapper Spec_Robot Spec_Hist Spec_Load Spec_Jac Spec_Mass Spec_Rot Spec_Deriv RealArith
  Pf_Base Pf_Data Inv Rep Pf_Reach Pf_Jac Pf_Real Pf_Rot Pf_Unit Pf_JacD Pf_ComD Ex_Robot Thm_Real.
Import ListNotations.
Local Open Scope m_scope.
Local Open Scope R_scope.

(** C19.  [C t] is what get_com answers after setting joint [k] to [t].  (When the total mass
    is 0 the code divides by 0; the statement then says nothing about doubles.) *)
Theorem C19_com_jacobian_is_derivative :
  forall tinyxml text R root sorted jsorted ops m,
    @reached RA tinyxml text R root sorted jsorted ops m -> clean ops = true -> unit_axes R -> unit_bases ops ->
    forall jids wb m' J, (forall k, In k jids -> (k < length (get_joint_names m))%nat) ->
      get_com_jacobian jids wb m = (m', Ok J) ->
      forall c k q0 C, nth_error jids c = Some k -> angle_is m k q0 -> (forall t, com_with_joint m k t (C t)) ->
      derivative_at (fun t => vx (C t) : Rdefinitions.R) q0 (entry J 0 c) /\
      derivative_at (fun t => vy (C t) : Rdefinitions.R) q0 (entry J 1 c) /\
      derivative_at (fun t => vz (C t) : Rdefinitions.R) q0 (entry J 2 c).
Proof.
  intros tinyxml text R root sorted jsorted ops m Hr Hc Hu Hb jids wb m' J Hk X c k q0 C Ec Ha HC.
  pose proof (fun r => com_derives _ _ _ _ _ _ _ _ Hr Hu Hb jids wb m' J c k q0 C r Hc Hk X Ec Ha HC) as D.
  split; [|split]; [exact (D 0%nat ltac:(lia))|exact (D 1%nat ltac:(lia))|exact (D 2%nat ltac:(lia))].
Qed.
Print Assumptions C19_com_jacobian_is_derivative.

Lemma com_fun (m : @KM RA) k : (forall t, exists m1 c, (set_joint_angles [k] [t] ;;; get_com) m = (m1, Ok c)) ->
  exists C, forall t, com_with_joint m k t (C t).
Proof.
  intros H. exists (fun t => match snd ((set_joint_angles [k] [t] ;;; get_com) m) with Ok c => c | _ => v_clear end).
  intros t. destruct (H t) as (m1 & c & E). exists m1. rewrite E. reflexivity.
Qed.

Example C19_example : exists m, reached ex_tinyxml ex_text ex_R "base" ex_sorted ex_jsorted ex_ops m /\ clean ex_ops = true /\ unit_axes ex_R /\ unit_bases ex_ops /\
  (exists m' J, get_com_jacobian [1; 0]%nat true m = (m', Ok J)) /\ (exists q0, angle_is m 1 q0) /\
  (exists C, forall t, com_with_joint m 1 t (C t)).
Proof.
  destruct ex_run as (m & E). exists m. split; [exact (ex_reached _ _ E)|]. split; [reflexivity|]. split; [exact ex_unit_axes|]. split; [exact ex_unit_bases|].
  split; [apply (observe_answer ex_ops (get_com_jacobian [1; 0]%nat true) m E); vm_compute; reflexivity|].
  destruct (reached_Rep _ _ _ _ _ _ _ _ (ex_reached _ _ E)) as [HR _].
  assert (L : length (joint_angles m) = 2%nat).
  { rewrite (wf_angles m (rep_wf _ _ _ _ _ _ _ _ HR)). rewrite <- (Forall2_len _ _ _ (rep_joints _ _ _ _ _ _ _ _ HR)). reflexivity. }
  split; [exists (nth 1 (joint_angles m) n0); exact (Pf_Local.get_angles_spec [1]%nat m ltac:(intros j [<-|[]]; rewrite L; lia))|].
  apply com_fun; intros t. apply (observe_answer ex_ops (set_joint_angles [1]%nat [t] ;;; get_com) m E). vm_compute. reflexivity.
Qed.

(** C39.  The entry for waypoint [a], pair [b] in the column of a joint is the derivative, at
    the waypoint's value, of the squared distance reported when that one coordinate of the
    waypoint is varied (pairwise distinct joints; with use_cache = false or a base in the
    waypoints; after any history). *)
Theorem C39_distance_gradient_is_derivative :
  forall tinyxml text R root sorted jsorted ops m,
    @reached RA tinyxml text R root sorted jsorted ops m -> unit_axes R -> unit_bases ops ->
    forall (qs : list (list (@num RA))) ids1 ids2 jids (wb uc : bool) m' D G, (wb || negb uc)%bool = true -> NoDup jids ->
      (forall k, In k jids -> (k < length (get_joint_names m))%nat) ->
      (forall q, In q qs -> length q = (length jids + if wb then 6 else 0)%nat) ->
      compute_inter_link_squared_dists qs ids1 ids2 jids wb true uc m = (m', Ok (D, G)) ->
      forall a b q e1 e2 c x d, nth_error qs a = Some q -> nth_error ids1 b = Some e1 -> nth_error ids2 b = Some e2 ->
        (c < length jids)%nat -> nth_error q c = Some x ->
        (forall t, sqdist_with m jids wb uc e1 e2 (list_set q c t) (d t)) ->
        derivative_at d x (entry G (a * length ids1 + b) c).
Proof.
  intros tinyxml text R root sorted jsorted ops m Hr Hu Hb qs ids1 ids2 jids wb uc m' D G Hcl N Hk Hq X a b q e1 e2 c x d.
  exact (gradient_derives _ _ _ _ _ _ _ _ Hr Hu Hb qs ids1 ids2 jids wb uc m' D G a b q e1 e2 c x d Hcl N Hk Hq X).
Qed.
Print Assumptions C39_distance_gradient_is_derivative.

Lemma dist_fun (m : @KM RA) jids wb uc e1 e2 q c : (forall t, exists m1 d, (r <- compute_inter_link_squared_dists [list_set q c t] [e1] [e2] jids wb false uc ;; ret (fst r)) m = (m1, Ok [d])) ->
  exists d, forall t, sqdist_with m jids wb uc e1 e2 (list_set q c t) (d t).
Proof.
  intros H. exists (fun t => match snd ((r <- compute_inter_link_squared_dists [list_set q c t] [e1] [e2] jids wb false uc ;; ret (fst r)) m) with Ok [d] => d | _ => 0 end).
  intros t. destruct (H t) as (m1 & d & E). rewrite E. cbn [snd]. apply bind_inv_ok in E. destruct E as (m2 & [D G] & E & E2). cbn [fst] in E2. inversion E2; subst. exists m1, G. exact E.
Qed.

(** tool and base of the example, at two waypoints with a base *)
Example C39_example : exists m, reached ex_tinyxml ex_text ex_R "base" ex_sorted ex_jsorted ex_ops m /\ unit_axes ex_R /\ unit_bases ex_ops /\
  (exists m' r, @compute_inter_link_squared_dists RA [[0; 1; 0; 0; 0; 0; 0; 0]; [1; 2; 3; 0; 0; 0; 0; 1]] [3; 2]%nat [0; 1]%nat [1; 0]%nat true true true m = (m', Ok r)) /\
  (exists d, forall t, sqdist_with m [1; 0]%nat true true 2 1 (list_set [1; 2; 3; 0; 0; 0; 0; 1] 1 t) (d t)).
Proof.
  destruct ex_run as (m & E). exists m. split; [exact (ex_reached _ _ E)|]. split; [exact ex_unit_axes|]. split; [exact ex_unit_bases|].
  split; [apply (observe_answer ex_ops (@compute_inter_link_squared_dists RA [[0; 1; 0; 0; 0; 0; 0; 0]; [1; 2; 3; 0; 0; 0; 0; 1]] [3; 2]%nat [0; 1]%nat [1; 0]%nat true true true) m E); vm_compute; reflexivity|].
  apply dist_fun. intros t.
  destruct (observe_answer ex_ops (r <- @compute_inter_link_squared_dists RA [list_set [1; 2; 3; 0; 0; 0; 0; 1] 1 t] [2]%nat [1]%nat [1; 0]%nat true false true ;; (match fst r with [d] => ret d | _ => throw InvalidArgument end)) m E) as (m1 & d & X); [vm_compute; reflexivity|].
  exists m1, d. apply bind_inv_ok in X. destruct X as (m2 & [D G] & X & X2). cbn [fst] in X2. destruct D as [|d' [|d2 D]]; try discriminate X2. inversion X2; subst.
  rewrite (bind_ok _ _ _ _ _ X). reflexivity.
Qed.
