(** C122: what is answered for one link at one waypoint does not depend on the rest of the call. *)
From Coq Require Import String List Arith Lia Bool.
From Verif Require Import Base Num Pose DataStructure Urdf Kin Wrapper Spec_Robot Spec_Hist Spec_Load Spec_Jac Spec_Mass
  Pf_Base Pf_Data Inv Pf_FK Pf_Frame Pf_Rp Rep Pf_Ops Pf_Name Pf_Reach Pf_Jac Pf_Safe Pf_Pose Pf_Local Pf_Hist Pf_Wrap Pf_Mass Pf_Wrap2 Pf_Total Pf_Batch Ex_Robot Thm_Fk.
Import ListNotations.
Local Open Scope m_scope.

(** C122.  Two calls of solve_fk that share the waypoint [q] and the link [e] answer the same row and the same Jacobian
    block for them, number for number and in any arithmetic, whatever other waypoints and links the calls contain.  The
    second call is made on the same model ([m]) or on the one the first call leaves behind ([m1]).  The same for a pair of
    links and compute_inter_link_squared_dists. *)
Theorem C122_links_are_answered_alike :
  forall (A : Arith) tinyxml text R root sorted jsorted ops m,
    reached tinyxml text R root sorted jsorted ops m ->
    forall (qs qs' : list (list num)) jids wb uc uc' a a' q, (forall k, In k jids -> k < length (get_joint_names m)) ->
      (forall q, In q (qs ++ qs') -> length q = length jids + (if wb : bool then 6 else 0)) ->
      (wb || negb uc)%bool = true -> (wb || negb uc')%bool = true ->
      nth_error qs a = Some q -> nth_error qs' a' = Some q ->
    (forall el el' rt wj m1 m2 m3 P J P' J' b b' e,
       solve_forward_kinematics qs el jids rt wb wj uc m = (m1, Ok (P, J)) ->
       (m2 = m \/ m2 = m1) -> solve_forward_kinematics qs' el' jids rt wb wj uc' m2 = (m3, Ok (P', J')) ->
       nth_error el b = Some e -> nth_error el' b' = Some e ->
       (exists row, nth_error P (a * length el + b) = Some row /\ nth_error P' (a' * length el' + b') = Some row) /\
       (wj = true -> firstn (jac_rows rt) (skipn ((a * length el + b) * jac_rows rt) J) = firstn (jac_rows rt) (skipn ((a' * length el' + b') * jac_rows rt) J'))) /\
    (forall ids1 ids2 ids1' ids2' wg m1 m2 m3 D G D' G' b b' e1 e2,
       compute_inter_link_squared_dists qs ids1 ids2 jids wb wg uc m = (m1, Ok (D, G)) ->
       (m2 = m \/ m2 = m1) -> compute_inter_link_squared_dists qs' ids1' ids2' jids wb wg uc' m2 = (m3, Ok (D', G')) ->
       nth_error ids1 b = Some e1 -> nth_error ids2 b = Some e2 -> nth_error ids1' b' = Some e1 -> nth_error ids2' b' = Some e2 ->
       (exists d, nth_error D (a * length ids1 + b) = Some d /\ nth_error D' (a' * length ids1' + b') = Some d) /\
       (wg = true -> exists g, nth_error G (a * length ids1 + b) = Some g /\ nth_error G' (a' * length ids1' + b') = Some g)).
Proof.
  intros A tinyxml text R root sorted jsorted ops m Hr qs qs' jids wb uc uc' a a' q Hk Lq C C' Eq Eq'.
  destruct (reached_Rep _ _ _ _ _ _ _ _ Hr) as [HR _]. rewrite (rep_joint_count _ _ _ _ _ _ _ _ HR) in Hk. set (s := after sorted jsorted ops) in *.
  assert (I : In q (qs ++ qs')) by (apply in_or_app; left; eapply nth_error_In; eauto).
  destruct (waypoint_Rep _ _ _ _ _ _ _ _ Hr jids wb q Hk (Lq q I)) as (mq & HRq). fold s in HRq.
  pose proof (nth_error_lt _ _ _ Eq) as La. pose proof (nth_error_lt _ _ _ Eq') as La'. split.
  - intros el el' rt wj m1 m2 m3 P J P' J' b b' e X Hm X' Ee Ee'.
    assert (Mv : moved_on R root sorted jsorted ops jids wb qs m2).
    { destruct Hm as [-> | ->]; [exact (not_moved _ _ _ _ _ _ _ _ Hr _ _ _)|]. apply (fk_moves _ _ _ _ _ _ _ _ Hr qs el jids rt wb wj uc m1 (P, J)); [|exact X]. intros q0 I0. apply Lq. apply in_or_app. now left. }
    destruct Mv as (s1 & HR2 & Hs).
    assert (SP : at_waypoint jids wb q s1 = at_waypoint jids wb q s) by (apply (same_place _ _ _ _ _ _ _ _ Hr jids wb qs); auto; rewrite (Lq q I); lia).
    destruct (solve_fk_ok _ _ _ _ _ _ _ _ _ _ _ _ _ _ _ _ _ _ HR C Hk X) as ((ps & -> & Lp & Hp) & HJ & _).
    destruct (solve_fk_ok _ _ _ _ _ _ _ _ _ _ _ _ _ _ _ _ _ _ HR2 C' Hk X') as ((ps' & -> & Lp' & Hp') & HJ' & _).
    pose proof (nth_error_lt _ _ _ Ee) as Lb. pose proof (nth_error_lt _ _ _ Ee') as Lb'.
    assert (Li : a * length el + b < length qs * length el) by now apply split_index. assert (Li' : a' * length el' + b' < length qs' * length el') by now apply split_index. split.
    + destruct (lt_nth_error ps (a * length el + b)) as (p & Ep); [lia|]. destruct (lt_nth_error ps' (a' * length el' + b')) as (p' & Ep'); [lia|].
      destruct (Hp a b p La Lb Ep) as (q1 & e1 & F1 & F2 & H). destruct (Hp' a' b' p' La' Lb' Ep') as (q2 & e2 & F3 & F4 & H').
      assert (q1 = q) by congruence. assert (q2 = q) by congruence. assert (e1 = e) by congruence. assert (e2 = e) by congruence. subst. rewrite SP in H'.
      rewrite (named_pose_det _ _ _ _ _ _ _ _ HRq e p' p H' H) in Ep'. exists (pose_entries rt p). rewrite !nth_error_map', Ep, Ep'. auto.
    + intros W. destruct (HJ W) as (Bs & -> & LB & Hd & HB). destruct (HJ' W) as (Bs' & -> & LB' & Hd' & HB'). rewrite dim_rows in Hd, Hd'.
      destruct (lt_nth_error Bs (a * length el + b)) as (B & EB); [lia|]. destruct (lt_nth_error Bs' (a' * length el' + b')) as (B' & EB'); [lia|].
      rewrite <- (app_nil_r (concat Bs)), <- (app_nil_r (concat Bs')), (concat_block Bs (jac_rows rt) Hd _ B [] EB), (concat_block Bs' (jac_rows rt) Hd' _ B' [] EB').
      destruct (HB a b B La Lb EB) as (q1 & e1 & F1 & F2 & H). destruct (HB' a' b' B' La' Lb' EB') as (q2 & e2 & F3 & F4 & H').
      assert (q1 = q) by congruence. assert (q2 = q) by congruence. assert (e1 = e) by congruence. assert (e2 = e) by congruence. subst. rewrite SP in H'.
      exact (named_jac_det _ _ _ _ _ _ _ _ HRq rt jids wb e B B' Hk H H').
  - intros ids1 ids2 ids1' ids2' wg m1 m2 m3 D G D' G' b b' e1 e2 X Hm X' E1 E2 E1' E2'.
    assert (Mv : moved_on R root sorted jsorted ops jids wb qs m2).
    { destruct Hm as [-> | ->]; [exact (not_moved _ _ _ _ _ _ _ _ Hr _ _ _)|]. exact (dists_move _ _ _ _ _ _ _ _ Hr qs ids1 ids2 jids wb wg uc m1 (D, G) X). }
    destruct Mv as (s1 & HR2 & Hs).
    assert (SP : at_waypoint jids wb q s1 = at_waypoint jids wb q s) by (apply (same_place _ _ _ _ _ _ _ _ Hr jids wb qs); auto; rewrite (Lq q I); lia).
    destruct (sqdists_ok _ _ _ _ _ _ _ _ _ _ _ _ _ _ _ _ _ _ HR C Hk X) as (_ & HD & HG).
    destruct (sqdists_ok _ _ _ _ _ _ _ _ _ _ _ _ _ _ _ _ _ _ HR2 C' Hk X') as (_ & HD' & HG'). split.
    + destruct (HD a b q e1 Eq E1) as (f & d & F & Fd & H). destruct (HD' a' b' q e1 Eq' E1') as (f' & d' & F' & Fd' & H').
      assert (f = e2) by congruence. assert (f' = e2) by congruence. subst. rewrite SP in H'. rewrite (sqdist_det _ _ _ _ _ _ _ _ HRq e1 e2 d' d H' H) in Fd'. eauto.
    + intros W. destruct (HG W) as (_ & Hg). destruct (HG' W) as (_ & Hg'). destruct (Hg a b q e1 Eq E1) as (f & d & F & Fd & H). destruct (Hg' a' b' q e1 Eq' E1') as (f' & d' & F' & Fd' & H').
      assert (f = e2) by congruence. assert (f' = e2) by congruence. subst. rewrite SP in H'. rewrite (grad_det _ _ _ _ _ _ _ _ HRq jids wb e1 e2 d' d Hk H' H) in Fd'. eauto.
Qed.
Print Assumptions C122_links_are_answered_alike.

(** the example robot after a history that leaves stale poses in the cache: different batches that share a waypoint and a link *)
Definition al_q1 `{A : Arith} : list (list num) := [[n1; n0]; [n2; n1]].
Definition al_q2 `{A : Arith} : list (list num) := [[n0; n0]; [n1; n1]; [n1; n0]].
Example C122_example : exists m m1, reached ex_tinyxml ex_text ex_R "base" ex_sorted ex_jsorted ex_stale m /\
  (forall k, In k [0; 1] -> k < length (get_joint_names m)) /\ (forall q, In q (al_q1 ++ al_q2) -> length q = 2 + 0) /\
  nth_error al_q1 0 = nth_error al_q2 2 /\
  (exists PJ, solve_forward_kinematics al_q1 [3; 1] [0; 1] XYZW false true false m = (m1, Ok PJ)) /\
  (exists m' PJ, solve_forward_kinematics al_q2 [0; 2; 3] [0; 1] XYZW false true false m1 = (m', Ok PJ)) /\
  (exists m' DG, compute_inter_link_squared_dists al_q1 [3; 1] [0; 2] [0; 1] false true false m = (m', Ok DG)) /\
  (exists m' DG, compute_inter_link_squared_dists al_q2 [2; 3] [1; 0] [0; 1] false true false m = (m', Ok DG)).
Proof.
  assert (X : exists m, run ex_stale ex_m0 = Some m) by (apply is_some_ex; vm_compute; reflexivity).
  destruct X as (m & E). exists m.
  destruct (observe_answer ex_stale (solve_forward_kinematics al_q1 [3; 1] [0; 1] XYZW false true false) m E) as (m1 & PJ1 & X1); [vm_compute; reflexivity|]. exists m1.
  split; [exact (ex_reached _ _ E)|]. split.
  { destruct (reached_Rep _ _ _ _ _ _ _ _ (ex_reached _ _ E)) as [HR _]. rewrite (rep_joint_count _ _ _ _ _ _ _ _ HR). intros k [<-|[<-|[]]]; simpl; lia. }
  split; [intros q [<-|[<-|[<-|[<-|[<-|[]]]]]]; reflexivity|]. split; [reflexivity|]. split; [eauto|]. split.
  { assert (E1 : run (ex_stale ++ [Op_solve_fk al_q1 [3; 1] [0; 1] XYZW false true false]) ex_m0 = Some m1).
    { rewrite run_app, E. cbn [run exec]. unfold drop. rewrite (bind_ok _ _ _ _ _ X1). reflexivity. }
    apply (observe_answer _ (solve_forward_kinematics al_q2 [0; 2; 3] [0; 1] XYZW false true false) m1 E1). vm_compute. reflexivity. }
  split; apply (observe_answer ex_stale _ m E); vm_compute; reflexivity.
Qed.

(** C122 for the centre of mass: two calls of solve_com_fk with the base in the waypoints that share a waypoint (and the
    action links and forces) answer the same point and the same three rows of the Jacobian for it. *)
Theorem C122_com_is_answered_alike :
  forall (A : Arith) tinyxml text R root sorted jsorted ops m,
    reached tinyxml text R root sorted jsorted ops m ->
    forall (qs qs' : list (list num)) jids actions forces wj m1 m2 m3 P J P' J' a a' q, (forall k, In k jids -> k < length (get_joint_names m)) ->
      (forall q, In q (qs ++ qs') -> length q = length jids + 6) ->
      solve_com_forward_kinematics qs jids actions forces true wj m = (m1, Ok (P, J)) ->
      (m2 = m \/ m2 = m1) -> solve_com_forward_kinematics qs' jids actions forces true wj m2 = (m3, Ok (P', J')) ->
      nth_error qs a = Some q -> nth_error qs' a' = Some q ->
      (exists row, nth_error P a = Some row /\ nth_error P' a' = Some row) /\
      (wj = true -> firstn 3 (skipn (a * 3) J) = firstn 3 (skipn (a' * 3) J')).
Proof.
  intros A tinyxml text R root sorted jsorted ops m Hr qs qs' jids actions forces wj m1 m2 m3 P J P' J' a a' q Hk Lq X Hm X' Eq Eq'.
  destruct (reached_Rep _ _ _ _ _ _ _ _ Hr) as [HR _]. rewrite (rep_joint_count _ _ _ _ _ _ _ _ HR) in Hk. set (s := after sorted jsorted ops) in *.
  assert (I : In q (qs ++ qs')) by (apply in_or_app; left; eapply nth_error_In; eauto).
  destruct (waypoint_Rep _ _ _ _ _ _ _ _ Hr jids true q Hk (Lq q I)) as (mq & HRq). fold s in HRq.
  pose proof (nth_error_lt _ _ _ Eq) as La. pose proof (nth_error_lt _ _ _ Eq') as La'.
  assert (HC : has_com (massive sorted) s) by exact (reached_has_com _ _ _).
  assert (Mv : moved_on R root sorted jsorted ops jids true qs m2).
  { destruct Hm as [-> | ->]; [exact (not_moved _ _ _ _ _ _ _ _ Hr _ _ _) | exact (com_moves _ _ _ _ _ _ _ _ Hr qs jids actions forces true wj m1 (P, J) X)]. }
  destruct Mv as (s1 & HR2 & Hs).
  assert (HC1 : has_com (massive sorted) s1).
  { destruct Hs as [->| ->]; [exact HC|]. fold s. unfold has_com in *. clear - HC. revert HC. generalize s. induction qs as [|q0 qs IH]; intros t HC; [exact HC|]. cbn [fold_left]. apply IH. exact HC. }
  assert (SP : at_waypoint jids true q s1 = at_waypoint jids true q s) by (apply (same_place _ _ _ _ _ _ _ _ Hr jids true qs); auto; rewrite (Lq q I); lia).
  destruct (solve_com_ok _ _ _ _ _ _ _ _ _ _ _ _ _ _ _ _ HR HC Hk X) as ((ps & -> & Lp & Hp) & HJ).
  destruct (solve_com_ok _ _ _ _ _ _ _ _ _ _ _ _ _ _ _ _ HR2 HC1 Hk X') as ((ps' & -> & Lp' & Hp') & HJ'). split.
  - destruct (lt_nth_error ps a) as (p & Ep); [lia|]. destruct (lt_nth_error ps' a') as (p' & Ep'); [lia|].
    destruct (Hp a q p Eq Ep) as (c & l & Hc & Hl & ->). destruct (Hp' a' q p' Eq' Ep') as (c' & l' & Hc' & Hl' & ->). rewrite SP in Hc', Hl'.
    rewrite (com_det _ _ _ _ _ _ _ _ HRq _ _ Hc' Hc) in Ep'.
    assert (E : l' = l) by (refine (Forall2_det _ _ _ _ _ Hl' Hl); intros u v v'; apply (named_pose_det _ _ _ _ _ _ _ _ HRq)). subst l'.
    eexists. rewrite !nth_error_map', Ep, Ep'. split; reflexivity.
  - intros W. destruct (HJ W) as (Bs & -> & LB & Hd & HB). destruct (HJ' W) as (Bs' & -> & LB' & Hd' & HB').
    destruct (lt_nth_error Bs a) as (B & EB); [lia|]. destruct (lt_nth_error Bs' a') as (B' & EB'); [lia|].
    rewrite <- (app_nil_r (concat Bs)), <- (app_nil_r (concat Bs')), (concat_block Bs 3 Hd _ B [] EB), (concat_block Bs' 3 Hd' _ B' [] EB').
    pose proof (HB' a' q B' Eq' EB') as H'. rewrite SP in H'. exact (forced_jac_det _ _ _ _ _ _ _ _ HRq jids actions forces true B B' Hk (HB a q B Eq EB) H').
Qed.
Print Assumptions C122_com_is_answered_alike.

Definition al_b1 `{A : Arith} : list (list num) := [[n1; n0; n1; n0; n0; n0; n0; nhalf]; [n1; n0; n1; n1; n0; n0; n0; nhalf]].
Definition al_b2 `{A : Arith} : list (list num) := [[n2; n0; n1; n1; n0; n0; n0; nhalf]; [n1; n0; n1; n0; n0; n0; n0; nhalf]].
Example C122_com_example : exists m, reached ex_tinyxml ex_text ex_R "base" ex_sorted ex_jsorted ex_stale m /\
  (forall k, In k [0; 1] -> k < length (get_joint_names m)) /\ (forall q, In q (al_b1 ++ al_b2) -> length q = 2 + 6) /\ nth_error al_b1 0 = nth_error al_b2 1 /\
  (exists m' PJ, solve_com_forward_kinematics al_b1 [0; 1] [3] [n2] true true m = (m', Ok PJ)) /\
  (exists m' PJ, solve_com_forward_kinematics al_b2 [0; 1] [3] [n2] true true m = (m', Ok PJ)).
Proof.
  assert (X : exists m, run ex_stale ex_m0 = Some m) by (apply is_some_ex; vm_compute; reflexivity).
  destruct X as (m & E). exists m. split; [exact (ex_reached _ _ E)|]. split.
  { destruct (reached_Rep _ _ _ _ _ _ _ _ (ex_reached _ _ E)) as [HR _]. rewrite (rep_joint_count _ _ _ _ _ _ _ _ HR). intros k [<-|[<-|[]]]; simpl; lia. }
  split; [intros q [<-|[<-|[<-|[<-|[]]]]]; reflexivity|]. split; [reflexivity|].
  split; apply (observe_answer ex_stale _ m E); vm_compute; reflexivity.
Qed.
