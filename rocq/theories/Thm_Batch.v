(** C119, C120: splitting a batch of waypoints; rotation types. *)
From Coq Require Import String List Arith Lia Bool.
From Verif Require Import Base Num Pose DataStructure Urdf Kin Wrapper Spec_Robot Spec_Hist Spec_Load Spec_Jac Spec_Mass
  Pf_Base Pf_Data Inv Pf_FK Pf_Frame Pf_Rp Rep Pf_Ops Pf_Name Pf_Reach Pf_Jac Pf_Safe Pf_Pose Pf_Local Pf_Hist Pf_Wrap Pf_Mass Pf_Wrap2 Pf_Total Pf_Batch Pf_Rows Ex_Robot Thm_Fk.
Import ListNotations.
Local Open Scope m_scope.

(** C119.  A call with the waypoints [qs1 ++ qs2] answers, number for number and in any arithmetic, what a call with [qs1] and a call with [qs2] answer, one below the other.
    The second call is made on the model as it was before ([m]) or as the first call leaves it ([m1]).
    For a fixed base the calls do not use the cache, for the centre of mass the base is in the waypoints (C34 and C20 show that this is necessary). *)
Theorem C119_batches_can_be_split :
  forall (A : Arith) tinyxml text R root sorted jsorted ops m,
    reached tinyxml text R root sorted jsorted ops m ->
    forall (qs1 qs2 : list (list num)) jids wb, (forall k, In k jids -> k < length (get_joint_names m)) ->
      (forall q, In q (qs1 ++ qs2) -> length q = length jids + (if wb : bool then 6 else 0)) ->
    (forall elinks rt wj uc uc1 uc2 m' m1 m2 m3 P J P1 J1 P2 J2,
       (wb || negb uc)%bool = true -> (wb || negb uc1)%bool = true -> (wb || negb uc2)%bool = true ->
       solve_forward_kinematics (qs1 ++ qs2) elinks jids rt wb wj uc m = (m', Ok (P, J)) ->
       solve_forward_kinematics qs1 elinks jids rt wb wj uc1 m = (m1, Ok (P1, J1)) ->
       (m2 = m \/ m2 = m1) -> solve_forward_kinematics qs2 elinks jids rt wb wj uc2 m2 = (m3, Ok (P2, J2)) ->
       P = P1 ++ P2 /\ J = J1 ++ J2) /\
    (forall ids1 ids2 wg uc uc1 uc2 m' m1 m2 m3 D G D1 G1 D2 G2,
       (wb || negb uc)%bool = true -> (wb || negb uc1)%bool = true -> (wb || negb uc2)%bool = true ->
       compute_inter_link_squared_dists (qs1 ++ qs2) ids1 ids2 jids wb wg uc m = (m', Ok (D, G)) ->
       compute_inter_link_squared_dists qs1 ids1 ids2 jids wb wg uc1 m = (m1, Ok (D1, G1)) ->
       (m2 = m \/ m2 = m1) -> compute_inter_link_squared_dists qs2 ids1 ids2 jids wb wg uc2 m2 = (m3, Ok (D2, G2)) ->
       D = D1 ++ D2 /\ (wg = true -> G = G1 ++ G2)) /\
    (wb = true -> forall actions forces wj m' m1 m2 m3 P J P1 J1 P2 J2,
       solve_com_forward_kinematics (qs1 ++ qs2) jids actions forces wb wj m = (m', Ok (P, J)) ->
       solve_com_forward_kinematics qs1 jids actions forces wb wj m = (m1, Ok (P1, J1)) ->
       (m2 = m \/ m2 = m1) -> solve_com_forward_kinematics qs2 jids actions forces wb wj m2 = (m3, Ok (P2, J2)) ->
       P = P1 ++ P2 /\ (wj = true -> J = J1 ++ J2)).
Proof.
  intros A tinyxml text R root sorted jsorted ops m Hr qs1 qs2 jids wb Hk Lq.
  destruct (reached_Rep _ _ _ _ _ _ _ _ Hr) as [HR _]. rewrite (rep_joint_count _ _ _ _ _ _ _ _ HR) in Hk. split; [|split].
  - intros elinks rt wj uc uc1 uc2 m' m1 m2 m3 P J P1 J1 P2 J2 C C1 C2 X X1 Hm X2.
    apply (fk_splits _ _ _ _ _ _ _ _ Hr qs1 qs2 elinks jids rt wb wj uc uc1 uc2 m' m1 m2 m3 P J P1 J1 P2 J2 C C1 C2 Hk Lq X X1); [|exact X2].
    destruct Hm as [-> | ->]; [exact (not_moved _ _ _ _ _ _ _ _ Hr _ _ _)|]. apply (fk_moves _ _ _ _ _ _ _ _ Hr qs1 elinks jids rt wb wj uc1 m1 (P1, J1)); [|exact X1]. intros q I. apply Lq. apply in_or_app. now left.
  - intros ids1 ids2 wg uc uc1 uc2 m' m1 m2 m3 D G D1 G1 D2 G2 C C1 C2 X X1 Hm X2.
    apply (dists_split _ _ _ _ _ _ _ _ Hr qs1 qs2 ids1 ids2 jids wb wg uc uc1 uc2 m' m1 m2 m3 D G D1 G1 D2 G2 C C1 C2 Hk Lq X X1); [|exact X2].
    destruct Hm as [-> | ->]; [exact (not_moved _ _ _ _ _ _ _ _ Hr _ _ _)|]. exact (dists_move _ _ _ _ _ _ _ _ Hr qs1 ids1 ids2 jids wb wg uc1 m1 (D1, G1) X1).
  - intros -> actions forces wj m' m1 m2 m3 P J P1 J1 P2 J2 X X1 Hm X2.
    apply (com_splits _ _ _ _ _ _ _ _ Hr qs1 qs2 jids actions forces wj m' m1 m2 m3 P J P1 J1 P2 J2 Hk Lq (reached_has_com _ _ _) X X1); [|exact X2].
    destruct Hm as [-> | ->]; [exact (not_moved _ _ _ _ _ _ _ _ Hr _ _ _)|]. exact (com_moves _ _ _ _ _ _ _ _ Hr qs1 jids actions forces true wj m1 (P1, J1) X1).
Qed.
Print Assumptions C119_batches_can_be_split.

(** two waypoints with a base, then a third; after a history that leaves stale poses in the cache *)
Definition bt_q1 `{A : Arith} : list (list num) := [[n1; n0; n0; n0; n0; n0; n0; n0]; [n1; n0; n1; n0; n0; n0; n0; nhalf]].
Definition bt_q2 `{A : Arith} : list (list num) := [[n2; n1; n1; n1; n0; n0; n0; nhalf]].
Example C119_example : exists m m1, reached ex_tinyxml ex_text ex_R "base" ex_sorted ex_jsorted ex_stale m /\
  (forall k, In k [0; 1] -> k < length (get_joint_names m)) /\ (forall q, In q (bt_q1 ++ bt_q2) -> length q = 2 + 6) /\
  (exists m' PJ, solve_forward_kinematics (bt_q1 ++ bt_q2) [3; 1] [0; 1] RPY true true true m = (m', Ok PJ)) /\
  (exists PJ, solve_forward_kinematics bt_q1 [3; 1] [0; 1] RPY true true false m = (m1, Ok PJ)) /\
  (exists m' PJ, solve_forward_kinematics bt_q2 [3; 1] [0; 1] RPY true true true m1 = (m', Ok PJ)) /\
  (exists m' DG, compute_inter_link_squared_dists (bt_q1 ++ bt_q2) [3; 1] [0; 2] [0; 1] true true true m = (m', Ok DG)) /\
  (exists m' DG, compute_inter_link_squared_dists bt_q1 [3; 1] [0; 2] [0; 1] true true true m = (m', Ok DG)) /\
  (exists m' DG, compute_inter_link_squared_dists bt_q2 [3; 1] [0; 2] [0; 1] true true true m = (m', Ok DG)) /\
  (exists m' PJ, solve_com_forward_kinematics (bt_q1 ++ bt_q2) [0; 1] [3] [n2] true true m = (m', Ok PJ)) /\
  (exists m' PJ, solve_com_forward_kinematics bt_q1 [0; 1] [3] [n2] true true m = (m', Ok PJ)) /\
  (exists m' PJ, solve_com_forward_kinematics bt_q2 [0; 1] [3] [n2] true true m = (m', Ok PJ)).
Proof.
  assert (X : exists m, run ex_stale ex_m0 = Some m) by (apply is_some_ex; vm_compute; reflexivity).
  destruct X as (m & E). exists m.
  destruct (observe_answer ex_stale (solve_forward_kinematics bt_q1 [3; 1] [0; 1] RPY true true false) m E) as (m1 & PJ1 & X1); [vm_compute; reflexivity|]. exists m1.
  split; [exact (ex_reached _ _ E)|]. split.
  { destruct (reached_Rep _ _ _ _ _ _ _ _ (ex_reached _ _ E)) as [HR _]. rewrite (rep_joint_count _ _ _ _ _ _ _ _ HR). intros k [<-|[<-|[]]]; simpl; lia. }
  split; [intros q [<-|[<-|[<-|[]]]]; reflexivity|].
  split; [apply (observe_answer ex_stale _ m E); vm_compute; reflexivity|]. split; [eauto|]. split.
  { assert (E1 : run (ex_stale ++ [Op_solve_fk bt_q1 [3; 1] [0; 1] RPY true true false]) ex_m0 = Some m1).
    { rewrite run_app, E. cbn [run exec]. unfold drop. rewrite (bind_ok _ _ _ _ _ X1). reflexivity. }
    apply (observe_answer _ (solve_forward_kinematics bt_q2 [3; 1] [0; 1] RPY true true true) m1 E1). vm_compute. reflexivity. }
  repeat split; apply (observe_answer ex_stale _ m E); vm_compute; reflexivity.
Qed.

(** C120.  The rotation type only adds rows: the first three rows of a Jacobian, and the first three entries reported for a link, are the same number for number for every rotation type. *)
Theorem C120_rotation_type_only_adds_rows :
  forall (A : Arith) tinyxml text R root sorted jsorted ops m,
    reached tinyxml text R root sorted jsorted ops m ->
    forall jids wb rt rt', (forall k, In k jids -> k < length (get_joint_names m)) ->
    (clean ops = true -> forall i m1 m2 J J', get_jacobian i jids rt wb m = (m1, Ok J) -> get_jacobian i jids rt' wb m = (m2, Ok J') ->
       firstn 3 J = firstn 3 J' /\ length J = jac_rows rt /\ length J' = jac_rows rt') /\
    (forall qs elinks wj uc m1 m2 P J P' J', (wb || negb uc)%bool = true -> (forall q, In q qs -> length q = length jids + (if wb : bool then 6 else 0)) ->
       solve_forward_kinematics qs elinks jids rt wb wj uc m = (m1, Ok (P, J)) -> solve_forward_kinematics qs elinks jids rt' wb wj uc m = (m2, Ok (P', J')) ->
       map (firstn 3) P = map (firstn 3) P' /\
       (wj = true -> forall i, i < length qs * length elinks -> firstn 3 (skipn (i * jac_rows rt) J) = firstn 3 (skipn (i * jac_rows rt') J'))).
Proof.
  intros A tinyxml text R root sorted jsorted ops m Hr jids wb rt rt' Hk.
  destruct (reached_Rep _ _ _ _ _ _ _ _ Hr) as [HR HC]. pose proof Hk as Hk'. rewrite (rep_joint_count _ _ _ _ _ _ _ _ HR) in Hk. split.
  - intros Cl i m1 m2 J J' X X'. specialize (HC Cl). assert (G : Good m) by (split; auto; apply HR).
    destruct (jacobian_is _ _ _ _ _ _ _ _ _ _ _ _ _ _ HR G Hk X) as (n & En & HJ). destruct (jacobian_is _ _ _ _ _ _ _ _ _ _ _ _ _ _ HR G Hk X') as (n' & En' & HJ').
    assert (n' = n) by congruence. subst n'. split; [|split; [apply HJ | apply HJ']]. exact (jacobian_det _ _ _ _ _ _ _ _ HR IGNORE n jids wb _ _ Hk (jacobian_top _ _ _ _ _ _ _ _ _ HJ) (jacobian_top _ _ _ _ _ _ _ _ _ HJ')).
  - intros qs elinks wj uc m1 m2 P J P' J' Hc Lq X X'.
    pose proof (fk_values _ _ _ _ _ _ _ _ _ _ _ _ _ _ _ _ _ _ Hr Hc Hk' X) as (LP & H). pose proof (fk_values _ _ _ _ _ _ _ _ _ _ _ _ _ _ _ _ _ _ Hr Hc Hk' X') as (LP' & H').
    assert (At : forall i, i < length qs * length elinks -> exists a b q e, a < length qs /\ b < length elinks /\ i = a * length elinks + b /\ nth_error qs a = Some q /\ nth_error elinks b = Some e).
    { intros i L. assert (Hw : length elinks <> 0) by (intros Z; rewrite Z, Nat.mul_0_r in L; lia).
      assert (La : i / length elinks < length qs) by (apply Nat.div_lt_upper_bound; [exact Hw | rewrite Nat.mul_comm; exact L]). pose proof (Nat.mod_upper_bound i _ Hw) as Lb.
      destruct (lt_nth_error qs _ La) as (q & Eq). destruct (lt_nth_error elinks _ Lb) as (e & Ee). exists (i / length elinks), (i mod length elinks), q, e. repeat split; auto. rewrite Nat.mul_comm. now apply Nat.div_mod. }
    assert (Nm : forall b e, nth_error elinks b = Some e -> 0 < length qs -> exists n, nth_error (get_link_names m) e = Some n).
    { intros b e Ee L0. destruct (solve_fk_ok _ _ _ _ _ _ _ _ _ _ _ _ _ _ _ _ _ _ HR Hc Hk X) as ((ps & _ & Lp & Hp) & _). pose proof (nth_error_lt _ _ _ Ee) as Lb.
      destruct (lt_nth_error ps (0 * length elinks + b)) as (p & Ep); [rewrite Lp; nia|]. destruct (Hp 0 b p L0 Lb Ep) as (q & e' & _ & Ee' & n & En & _). assert (e' = e) by congruence. subst e'.
      exists n. rewrite (rep_all_links _ _ _ _ _ _ _ _ HR). exact En. }
    split.
    + apply nth_error_same. intros i. rewrite !nth_error_map'. destruct (Nat.lt_ge_cases i (length qs * length elinks)) as [L|L].
      * destruct (At i L) as (a & b & q & e & La & Lb & -> & Eq & Ee). destruct (Nm b e Ee ltac:(lia)) as (n & En).
        destruct (H a b q e n Eq Ee En) as ((E & HE & ->) & _). destruct (H' a b q e n Eq Ee En) as ((E' & HE' & ->) & _). cbn [option_map]. rewrite !link_row_top.
        destruct (waypoint_Rep _ _ _ _ _ _ _ _ Hr jids wb q Hk (Lq q (nth_error_In _ _ Eq))) as (mq & HRq). now rewrite (rep_pose_det _ _ _ _ _ _ _ _ HRq n _ _ HE HE').
      * rewrite (proj2 (nth_error_None P i)), (proj2 (nth_error_None P' i)) by lia. reflexivity.
    + intros W i L. destruct (At i L) as (a & b & q & e & La & Lb & -> & Eq & Ee). destruct (Nm b e Ee ltac:(lia)) as (n & En).
      destruct (H a b q e n Eq Ee En) as (_ & HJ). destruct (H' a b q e n Eq Ee En) as (_ & HJ'). specialize (HJ W). specialize (HJ' W). apply jacobian_top in HJ, HJ'.
      rewrite firstn_firstn in HJ, HJ'. rewrite (Nat.min_l 3) in HJ, HJ' by apply rows_3.
      destruct (waypoint_Rep _ _ _ _ _ _ _ _ Hr jids wb q Hk (Lq q (nth_error_In _ _ Eq))) as (mq & HRq). exact (jacobian_det _ _ _ _ _ _ _ _ HRq IGNORE n jids wb _ _ Hk HJ HJ').
Qed.
Print Assumptions C120_rotation_type_only_adds_rows.

(** Jacobians of the tool, and the two waypoints of C119 *)
Example C120_example : exists m, reached ex_tinyxml ex_text ex_R "base" ex_sorted ex_jsorted ex_ops m /\ clean ex_ops = true /\
  (forall k, In k [0; 1] -> k < length (get_joint_names m)) /\ (forall q, In q bt_q1 -> length q = 2 + 6) /\
  (forall rt, exists m' J, get_jacobian 3 [0; 1] rt true m = (m', Ok J)) /\ (forall rt, exists m' PJ, solve_forward_kinematics bt_q1 [3; 1] [0; 1] rt true true true m = (m', Ok PJ)).
Proof.
  destruct ex_run as (m & E). exists m. split; [exact (ex_reached _ _ E)|]. split; [reflexivity|]. split.
  { destruct (reached_Rep _ _ _ _ _ _ _ _ (ex_reached _ _ E)) as [HR _]. rewrite (rep_joint_count _ _ _ _ _ _ _ _ HR). intros k [<-|[<-|[]]]; simpl; lia. }
  split; [intros q [<-|[<-|[]]]; reflexivity|].
  split; intros rt; destruct rt; apply (observe_answer ex_ops _ m E); vm_compute; reflexivity.
Qed.
