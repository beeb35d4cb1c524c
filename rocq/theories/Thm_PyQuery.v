(** C20, C21, C38, C44 at the level of the Python class. *)
From Coq Require Import String List Arith Lia Bool.
From Verif Require Import Base Num Pose DataStructure Urdf Kin Wrapper Py Spec_Robot Spec_Hist Spec_Load Spec_Jac Spec_Mass Spec_Py
  Pf_Base Inv Rep Pf_Ops Pf_Name Pf_Reach Pf_Jac Pf_Pose Pf_Local Pf_Hist Pf_Py Pf_Pickle Pf_PyCalls RealArith Ex_Robot Thm_Ids Thm_Fk Thm_Mass Thm_Py.
Import ListNotations.
Local Open Scope nat_scope.
Local Open Scope m_scope.

(** C20: for a floating base solve_com_fk reports the centre of mass of every waypoint. *)
Theorem C20_python_solve_com_fk_floating_partial :
  forall (A : Arith) tinyxml cs w i o m R root sorted jsorted,
    instance tinyxml cs w i o m -> loadable tinyxml (py_xml o) R root -> ordered R sorted jsorted ->
    exists ops, reached tinyxml (py_xml o) R root sorted jsorted ops m /\
    forall qs jids acts forces wj w' P J, well_formed qs -> (forall k, In k jids -> k < length (get_joint_names m)) ->
      (forall f, py_solve_com_fk i qs jids None f BFLOATING wj w = (w', Ok (P, J)) -> waypoints qs <> [] ->
         com_report R root sorted jsorted (after sorted jsorted ops) (get_link_names m) (waypoints qs) jids [] [] true wj P J) /\
      (py_solve_com_fk i qs jids (Some acts) (Some forces) BFLOATING wj w = (w', Ok (P, J)) -> waypoints qs <> [] ->
         com_report R root sorted jsorted (after sorted jsorted ops) (get_link_names m) (waypoints qs) jids acts forces true wj P J).
Proof.
  intros A tinyxml cs w i o m R root sorted jsorted I L O.
  destruct (instance_reached tinyxml _ _ _ _ _ _ _ _ _ I L O) as (ops & Hr). exists ops. split; [exact Hr|]. destruct I as (_ & Ho & Hm).
  intros qs jids acts forces wj w' P J Wf Hk.
  assert (G : forall ac fo a f, (ac = None /\ a = [] /\ f = []) \/ (ac = Some a /\ fo = Some f) ->
     py_solve_com_fk i qs jids ac fo BFLOATING wj w = (w', Ok (P, J)) -> waypoints qs <> [] ->
     com_report R root sorted jsorted (after sorted jsorted ops) (get_link_names m) (waypoints qs) jids a f true wj P J).
  { intros ac fo a f Haf E Ne. unfold py_solve_com_fk in E. destruct (norm_qs_com qs) as [[n rows]|] eqn:En; [|discriminate].
    assert (rows = waypoints qs).
    { destruct qs as [[|q0 l]|v|c l]; cbn [norm_qs_com waypoints] in *; [easy| |discriminate|congruence].
      unfold np_array in En. destruct (forallb _ (q0 :: l)); [congruence|discriminate]. }
    subst rows. destruct (bind_inv_ok _ _ _ _ _ E) as (w1 & rows' & Ec & E1). clear E.
    unfold check_dof in Ec. destruct (bind_inv_ok _ _ _ _ _ Ec) as (w3 & u & Eu & Er). unfold assert_ in Eu.
    destruct (Nat.eqb n (length jids + 6)); [|discriminate]. inversion Eu; subst w3. inversion Er; subst w1 rows'.
    assert (E2 : with_robot i (solve_com_forward_kinematics (waypoints qs) jids a f true wj) w = (w', Ok (P, J)))
      by (destruct Haf as [(-> & -> & ->)|(-> & ->)]; exact E1).
    clear E1. rename E2 into E1. rewrite (with_robot_eq i _ w o m Ho Hm) in E1.
    destruct (solve_com_forward_kinematics (waypoints qs) jids a f true wj m) as [m' r] eqn:Ef. cbn [fst snd] in E1. inversion E1; subst.
    destruct (C20_solve_com_fk_with_base_partial _ _ _ _ _ _ _ _ _ Hr (waypoints qs) jids a f wj Hk) as (H & _). exact (H m' P J Ef). }
  split.
  - intros f. apply (G None f [] []). left; auto.
  - apply (G (Some acts) (Some forces) acts forces). right; auto.
Qed.
Print Assumptions C20_python_solve_com_fk_floating_partial.

Example C20_python_example : exists w P J, py_solve_com_fk 0 (QsList [[n1; n2; n0; n0; n1; n0; nhalf; n0]]) [0; 1] (Some [3]) (Some [n1]) BFLOATING true ex_world = (w, Ok (P, J)).
Proof.
  assert (B : (match snd (py_solve_com_fk 0 (QsList [[n1; n2; n0; n0; n1; n0; nhalf; n0]]) [0; 1] (Some [3]) (Some [n1]) BFLOATING true ex_world) with Ok _ => true | _ => false end) = true)
    by (vm_compute; reflexivity).
  revert B. generalize (py_solve_com_fk 0 (QsList [[n1; n2; n0; n0; n1; n0; nhalf; n0]]) [0; 1] (Some [3]) (Some [n1]) BFLOATING true ex_world).
  intros [w [[P J]|e|u|]] B; try discriminate B. eauto.
Qed.

(** C21: the total_mass property. *)
Theorem C21_python_total_mass :
  forall (A : Arith) tinyxml cs w i o m R root sorted jsorted,
    instance tinyxml cs w i o m -> loadable tinyxml (py_xml o) R root -> ordered R sorted jsorted ->
    py_total_mass i w = (w, Ok (mass_sum (massive sorted))).
Proof.
  intros A tinyxml cs w i o m R root sorted jsorted I L O.
  destruct (instance_reached tinyxml _ _ _ _ _ _ _ _ _ I L O) as (ops & Hr). destruct I as (_ & Ho & Hm).
  destruct (C21_total_mass_is_constant_sum _ _ _ _ _ _ _ _ _ Hr) as (E & _). unfold py_total_mass.
  rewrite (with_robot_eq i _ w o m Ho Hm), bind_get. cbn [ret fst snd]. now rewrite (upd_same i o m w Ho Hm), E.
Qed.
Print Assumptions C21_python_total_mass.

(** C38: squared distances between pairs of links. *)
Theorem C38_python_squared_distances :
  forall (A : Arith) tinyxml cs w i o m R root sorted jsorted,
    instance tinyxml cs w i o m -> loadable tinyxml (py_xml o) R root -> ordered R sorted jsorted ->
    exists ops, reached tinyxml (py_xml o) R root sorted jsorted ops m /\
    let s := after sorted jsorted ops in
    forall l pairs jids bt wj uc w' D G, bt <> BPLANER -> bt = BFLOATING \/ uc = false -> (forall k, In k jids -> k < length (get_joint_names m)) ->
      py_compute_inter_link_sqdists i (QsList l) pairs jids bt wj uc w = (w', Ok (D, G)) ->
      length D = length l * length pairs /\
      forall a b q e1 e2 n1 n2, nth_error l a = Some q -> nth_error pairs b = Some (e1, e2) ->
        nth_error (get_link_names m) e1 = Some n1 -> nth_error (get_link_names m) e2 = Some n2 ->
        let floating := match bt with BFIXED => false | _ => true end in
        exists P1 P2, pose_at R root jsorted (at_waypoint jids floating q s) n1 P1 /\ pose_at R root jsorted (at_waypoint jids floating q s) n2 P2 /\
          nth_error D (a * length pairs + b) = Some (squared_distance (position P1) (position P2)).
Proof.
  intros A tinyxml cs w i o m R root sorted jsorted I L O.
  destruct (instance_reached tinyxml _ _ _ _ _ _ _ _ _ I L O) as (ops & Hr). exists ops. split; [exact Hr|]. destruct I as (_ & Ho & Hm).
  intros s l pairs jids bt wj uc w' D G Nb Hc Hk E. unfold py_compute_inter_link_sqdists in E.
  assert (En : norm_qs_dist bt (length jids) (QsList l) = Ok l) by (destruct bt; [reflexivity | easy | reflexivity]).
  rewrite En, (bind_lift_ok (Ok l) l _ _ eq_refl) in E. destruct pairs as [|pr pairs]; [discriminate|]. set (ps := pr :: pairs) in *.
  destruct (bind_inv_ok _ _ _ _ _ E) as (w1 & VJ & Ew & E1). clear E. rewrite (with_robot_eq i _ w o m Ho Hm) in Ew.
  destruct (compute_inter_link_squared_dists l (map fst ps) (map snd ps) jids (with_base_of bt) wj uc m) as [m' r] eqn:Ef. cbn [fst snd] in Ew. inversion Ew; subst r w1.
  destruct VJ as [V J]. cbn [fst snd] in E1. inversion E1; subst V. clear Ew E1.
  destruct (C38_inter_link_squared_distances _ _ _ _ _ _ _ _ _ Hr l (map fst ps) (map snd ps) jids (with_base_of bt) wj uc Hk) as (H & _).
  assert (Hb : (with_base_of bt || negb uc)%bool = true) by (destruct Hc as [-> | ->]; [reflexivity | apply orb_true_r]).
  destruct (H m' D J Hb Ef) as (L1 & L2). rewrite map_length in L1, L2. split; [exact L1|].
  intros a b q e1 e2 n1 n2 Ea Eb E1 E2 floating. replace floating with (with_base_of bt) by reflexivity.
  apply (L2 a b q e1 e2 n1 n2 Ea); auto; rewrite nth_error_map', Eb; reflexivity.
Qed.
Print Assumptions C38_python_squared_distances.

Example C38_python_example : exists w D G, py_compute_inter_link_sqdists 0 (QsList [[n1; n2]; [n0; n0]]) [(3, 0); (2, 1)] [0; 1] BFIXED true false ex_world = (w, Ok (D, G)).
Proof.
  assert (B : (match snd (py_compute_inter_link_sqdists 0 (QsList [[n1; n2]; [n0; n0]]) [(3, 0); (2, 1)] [0; 1] BFIXED true false ex_world) with Ok _ => true | _ => false end) = true)
    by (vm_compute; reflexivity).
  revert B. generalize (py_compute_inter_link_sqdists 0 (QsList [[n1; n2]; [n0; n0]]) [(3, 0); (2, 1)] [0; 1] BFIXED true false ex_world).
  intros [w [[P J]|e|u|]] B; try discriminate B. eauto.
Qed.

(** C44: get_joint_limits gives None for both limits of a continuous joint and the numbers
    in the document for the others. *)
Theorem C44_python_joint_limits :
  forall (A : Arith) tinyxml cs w i o m R root sorted jsorted,
    instance tinyxml cs w i o m -> loadable tinyxml (py_xml o) R root -> ordered R sorted jsorted ->
    forall jids, (forall k, In k jids -> k < length (get_joint_names m)) ->
      exists bounds, py_get_joint_limits i jids w = (w, Ok bounds) /\
        Forall2 (fun k b => exists x, joint_element tinyxml (py_xml o) m k x /\
          ((attribute "type" x = Some "continuous"%string /\ b = (None, None)) \/
           (attribute "type" x <> Some "continuous"%string /\ exists l lo up,
              first_child "limit" x = Some l /\ attr_value "lower" (Some n0) l lo /\ attr_value "upper" (Some n0) l up /\
              b = (Some (Fin lo), Some (Fin up))))) jids bounds.
Proof.
  intros A tinyxml cs w i o m R root sorted jsorted I L O jids Hk.
  destruct (instance_reached tinyxml _ _ _ _ _ _ _ _ _ I L O) as (ops & Hr). destruct I as (_ & Ho & Hm).
  destruct (C44_position_limits_are_those_of_the_document _ _ _ _ _ _ _ _ _ Hr jids Hk) as (bs & E & F).
  unfold py_get_joint_limits. unfold bind. rewrite (with_robot_eq i _ w o m Ho Hm), E. cbn [fst snd ret]. rewrite (upd_same i o m w Ho Hm).
  eexists. split; [reflexivity|]. clear E Hk. induction F as [|k b ks bs (x & Jx & H) F IH]; cbn [map]; constructor; [|exact IH].
  exists x. split; [exact Jx|]. destruct H as [(H1 & ->)|(H1 & l & lo & up & H2 & H3 & H4 & ->)]; [left; auto|]. right. split; [exact H1|]. exists l, lo, up. auto.
Qed.
Print Assumptions C44_python_joint_limits.

Example C44_python_example : forall k, In k [1; 0; 1] -> k < length (get_joint_names ex_m0).
Proof. rewrite ex_joint_count. intros k [<-|[<-|[<-|[]]]]; lia. Qed.
