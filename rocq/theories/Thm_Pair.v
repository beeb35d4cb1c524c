(** C116-C118: squared distances between links and their gradients. *)
From Coq Require Import QArith String List Arith Lia Bool Permutation Reals Lra.
From Verif Require Import Base Num Pose DataStructure Urdf Kin Wrapper Spec_Robot Spec_Hist Spec_Load Spec_Jac Spec_Mass Spec_Rot Spec_Body Spec_Deriv Spec_Column
  RealArith Pf_Base Pf_Data Inv Pf_FK Pf_Frame Pf_Rp Rep Pf_Ops Pf_Name Pf_Reach Pf_Jac Pf_Safe Pf_Rpy Pf_Pose Pf_Local Pf_Hist Pf_Mass Pf_Wrap Pf_Wrap2 Pf_Total
  Pf_Real Pf_Rot Pf_Unit Pf_ComD Pf_Column Pf_BaseTurn Pf_Pair Ex_Robot Ex_Slider Ex_Wheel Thm_Fk Thm_Real Thm_Rigid Thm_Deriv Thm_Relative Thm_BaseTurn.
Import ListNotations.
Local Open Scope m_scope.
Local Open Scope R_scope.

(** C116.  Waypoints [q ++ base] and [q ++ base'] set the joints alike and the base differently: distances and the joint columns of gradients are the same.
    The second part is the same for a fixed base that was set beforehand. *)
Theorem C116_distances_do_not_depend_on_base :
  forall tinyxml text R root sorted jsorted ops m,
    @reached RA tinyxml text R root sorted jsorted ops m -> unit_axes R ->
    forall jids ids1 ids2, (forall k, In k jids -> (k < length (get_joint_names m))%nat) ->
    (forall (qs qs' : list (list (@num RA))) uc uc' m1 m2 D D' G G' a a' b q base base' e1,
       compute_inter_link_squared_dists qs ids1 ids2 jids true true uc m = (m1, Ok (D, G)) ->
       compute_inter_link_squared_dists qs' ids1 ids2 jids true true uc' m = (m2, Ok (D', G')) ->
       nth_error qs a = Some (q ++ base) -> nth_error qs' a' = Some (q ++ base') -> length q = length jids -> length base = 6%nat -> length base' = 6%nat ->
       nth_error ids1 b = Some e1 ->
       nth_error D (a * length ids1 + b) = nth_error D' (a' * length ids1 + b) /\
       forall c, (c < length jids)%nat -> entry G (a * length ids1 + b) c = entry G' (a' * length ids1 + b) c) /\
    (forall (B B' : Pose) m1 m2, unit_quaternion (rotation B) -> unit_quaternion (rotation B') -> set_base_pose B m = (m1, Ok tt) -> set_base_pose B' m = (m2, Ok tt) ->
       forall (qs : list (list (@num RA))) m1' m2' D D' G G', (forall q, In q qs -> length q = length jids) ->
       compute_inter_link_squared_dists qs ids1 ids2 jids false true false m1 = (m1', Ok (D, G)) ->
       compute_inter_link_squared_dists qs ids1 ids2 jids false true false m2 = (m2', Ok (D', G')) ->
       D = D' /\ forall a b c, (a < length qs)%nat -> (b < length ids1)%nat -> (c < length jids)%nat -> entry G (a * length ids1 + b) c = entry G' (a * length ids1 + b) c).
Proof.
  intros tinyxml text R root sorted jsorted ops m Hr Hu jids ids1 ids2 Hk.
  destruct (reached_Rep _ _ _ _ _ _ _ _ Hr) as [HR _]. rewrite (rep_joint_count _ _ _ _ _ _ _ _ HR) in Hk.
  pose proof (loaded_axes_ok _ _ _ _ (proj1 Hr) Hu) as AX. pose proof (after_ok sorted jsorted ops) as AD.
  assert (Cl : forall ops' m', reached tinyxml text R root sorted jsorted ops' m' ->
     exists m0, Rep R root sorted jsorted (massive sorted) (mass_sum (massive sorted)) (mkAS (as_added (after sorted jsorted ops')) (as_angles (after sorted jsorted ops')) pose_clear) m0).
  { intros ops' m' Hr'. destruct (based_set m' pose_clear) as (m0 & E0).
    assert (Hr0 : reached tinyxml text R root sorted jsorted (ops' ++ [Op_set_base_pose pose_clear]) m0) by (apply (reached_run _ _ _ _ _ _ _ _ _ _ Hr'); cbn [run exec]; rewrite E0; reflexivity).
    destruct (reached_Rep _ _ _ _ _ _ _ _ Hr0) as [HR0 _]. rewrite after_app in HR0. exists m0. exact HR0. }
  split.
  - intros qs qs' uc uc' m1 m2 D D' G G' a a' b q base base' e1 X X' Eq Eq' Lq Lb Lb' E1.
    destruct (sqdists_ok _ _ _ _ _ _ _ _ _ _ _ _ _ _ _ _ _ _ HR (eq_refl : (true || negb uc)%bool = true) Hk X) as (_ & HD & HG). destruct (HG eq_refl) as (_ & HG1). clear HG.
    destruct (sqdists_ok _ _ _ _ _ _ _ _ _ _ _ _ _ _ _ _ _ _ HR (eq_refl : (true || negb uc')%bool = true) Hk X') as (_ & HD' & HG). destruct (HG eq_refl) as (_ & HG2). clear HG.
    destruct (HD a b _ e1 Eq E1) as (e2 & d & E2 & Ed & Hd). destruct (HD' a' b _ e1 Eq' E1) as (y & d' & Y & Ed' & Hd'). assert (y = e2) by congruence. subst y.
    destruct (HG1 a b _ e1 Eq E1) as (y & g & Y1 & Eg & Hg). assert (y = e2) by congruence. subst y. destruct (HG2 a' b _ e1 Eq' E1) as (y & g' & Y2 & Eg' & Hg'). assert (y = e2) by congruence. subst y.
    destruct (waypoint_reached _ _ _ _ _ _ _ _ Hr jids true (q ++ base) Hk) as (mq & Hrq & Ea); [rewrite app_length; change (@num RA) with Rdefinitions.R in *; lia|].
    destruct (waypoint_reached _ _ _ _ _ _ _ _ Hr jids true (q ++ base') Hk) as (mq' & Hrq' & Ea'); [rewrite app_length; change (@num RA) with Rdefinitions.R in *; lia|].
    destruct (reached_Rep _ _ _ _ _ _ _ _ Hrq) as [HRq _]. destruct (reached_Rep _ _ _ _ _ _ _ _ Hrq') as [HRq' _]. destruct (Cl _ _ Hrq) as (m0 & HR0). rewrite Ea in HRq, HR0. rewrite Ea' in HRq'.
    unfold at_waypoint in *. cbn [as_added as_angles as_base] in *. rewrite (assign_prefix jids q) in * by exact Lq.
    set (s := mkAS (as_added (after sorted jsorted ops)) (assign jids q (as_angles (after sorted jsorted ops))) pose_clear).
    split; [rewrite Ed, Ed'; f_equal; exact (distance_base R root sorted jsorted _ _ s AX AD m0 _ _ e1 e2 d d' HR0 (pose6_unit _) (pose6_unit _) Hd Hd')|].
    intros c Lc. unfold entry. rewrite (nth_error_nth _ _ [] Eg), (nth_error_nth _ _ [] Eg').
    destruct (lt_nth_error jids c Lc) as (k & Ek). destruct (lt_nth_error jsorted k (Hk k (nth_error_In _ _ Ek))) as (j & Ej).
    exact (gradient_base R root sorted jsorted _ _ s AX AD m0 _ _ mq mq' e1 e2 jids true g g' c k j HR0 HRq HRq' (pose6_unit _) (pose6_unit _) Hg Hg' Ek Ej).
  - intros B B' m1 m2 UB UB' S1 S2 qs m1' m2' D D' G G' Hq X X'. apply unit_quaternion_q in UB. apply unit_quaternion_q in UB'.
    assert (Hr1 : reached tinyxml text R root sorted jsorted (ops ++ [Op_set_base_pose B]) m1) by (apply (reached_run _ _ _ _ _ _ _ _ _ _ Hr); cbn [run exec]; rewrite S1; reflexivity).
    assert (Hr2 : reached tinyxml text R root sorted jsorted (ops ++ [Op_set_base_pose B']) m2) by (apply (reached_run _ _ _ _ _ _ _ _ _ _ Hr); cbn [run exec]; rewrite S2; reflexivity).
    destruct (reached_Rep _ _ _ _ _ _ _ _ Hr1) as [HR1 _]. destruct (reached_Rep _ _ _ _ _ _ _ _ Hr2) as [HR2 _].
    destruct (sqdists_ok _ _ _ _ _ _ _ _ _ _ _ _ _ _ _ _ _ _ HR1 (eq_refl : (false || negb false)%bool = true) Hk X) as (LD & HD & HG). destruct (HG eq_refl) as (_ & HG1). clear HG.
    destruct (sqdists_ok _ _ _ _ _ _ _ _ _ _ _ _ _ _ _ _ _ _ HR2 (eq_refl : (false || negb false)%bool = true) Hk X') as (LD' & HD' & HG). destruct (HG eq_refl) as (_ & HG2). clear HG.
    assert (W : forall a q, nth_error qs a = Some q -> let s := mkAS (as_added (after sorted jsorted ops)) (assign jids q (as_angles (after sorted jsorted ops))) pose_clear in
       (exists m0, Rep R root sorted jsorted (massive sorted) (mass_sum (massive sorted)) s m0) /\
       (exists mq, Rep R root sorted jsorted (massive sorted) (mass_sum (massive sorted)) (mkAS (as_added s) (as_angles s) B) mq) /\
       (exists mq, Rep R root sorted jsorted (massive sorted) (mass_sum (massive sorted)) (mkAS (as_added s) (as_angles s) B') mq) /\
       at_waypoint jids false q (after sorted jsorted (ops ++ [Op_set_base_pose B])) = mkAS (as_added s) (as_angles s) B /\
       at_waypoint jids false q (after sorted jsorted (ops ++ [Op_set_base_pose B'])) = mkAS (as_added s) (as_angles s) B').
    { intros a q Eq s. assert (Lq : length q = (length jids + if false then 6 else 0)%nat) by (rewrite Nat.add_0_r; apply Hq; eapply nth_error_In; eauto).
      destruct (waypoint_reached _ _ _ _ _ _ _ _ Hr1 jids false q Hk Lq) as (mq & Hrq & Ea). destruct (waypoint_reached _ _ _ _ _ _ _ _ Hr2 jids false q Hk Lq) as (mq' & Hrq' & Ea').
      destruct (reached_Rep _ _ _ _ _ _ _ _ Hrq) as [HRq _]. destruct (reached_Rep _ _ _ _ _ _ _ _ Hrq') as [HRq' _]. destruct (Cl _ _ Hrq) as (m0 & HR0). rewrite Ea in HRq, HR0. rewrite Ea' in HRq'.
      assert (AF : forall p, after sorted jsorted (ops ++ [Op_set_base_pose p]) = mkAS (as_added (after sorted jsorted ops)) (as_angles (after sorted jsorted ops)) p) by (intros p; rewrite after_app; reflexivity).
      rewrite !AF in *. unfold at_waypoint in HRq, HRq', HR0. cbn [as_added as_angles as_base] in HRq, HRq', HR0. split; [exists m0; exact HR0|]. split; [exists mq; exact HRq|]. split; [exists mq'; exact HRq'|]. split; reflexivity. }
    split.
    + apply nth_error_ext. intros i. destruct (Nat.lt_ge_cases i (length qs * length ids1)) as [L|L].
      * assert (Lw : length ids1 <> 0%nat) by (intros Z; rewrite Z, Nat.mul_0_r in L; lia).
        assert (La : (i / length ids1 < length qs)%nat) by (apply Nat.div_lt_upper_bound; lia). pose proof (Nat.mod_upper_bound i _ Lw) as Lb.
        destruct (lt_nth_error qs _ La) as (q & Eq). destruct (lt_nth_error ids1 _ Lb) as (e1 & E1).
        destruct (HD _ _ q e1 Eq E1) as (e2 & d & E2 & Ed & Hd). destruct (HD' _ _ q e1 Eq E1) as (y & d' & Y & Ed' & Hd'). assert (y = e2) by congruence. subst y.
        replace (i / length ids1 * length ids1 + i mod length ids1)%nat with i in Ed, Ed' by (rewrite Nat.mul_comm; exact (Nat.div_mod i _ Lw)).
        rewrite Ed, Ed'. f_equal. destruct (W _ q Eq) as ((m0 & HR0) & _ & _ & A1 & A2). rewrite A1 in Hd. rewrite A2 in Hd'.
        exact (distance_base R root sorted jsorted _ _ (mkAS (as_added (after sorted jsorted ops)) (assign jids q (as_angles (after sorted jsorted ops))) pose_clear) AX AD m0 B B' e1 e2 d d' HR0 UB UB' Hd Hd').
      * rewrite (proj2 (nth_error_None D i)), (proj2 (nth_error_None D' i)) by lia. reflexivity.
    + intros a b c La Lb Lc. destruct (lt_nth_error qs _ La) as (q & Eq). destruct (lt_nth_error ids1 _ Lb) as (e1 & E1).
      destruct (HG1 a b _ e1 Eq E1) as (e2 & g & E2 & Eg & Hg). destruct (HG2 a b _ e1 Eq E1) as (y & g' & Y2 & Eg' & Hg'). assert (y = e2) by congruence. subst y.
      unfold entry. rewrite (nth_error_nth _ _ [] Eg), (nth_error_nth _ _ [] Eg').
      destruct (lt_nth_error jids c Lc) as (k & Ek). destruct (lt_nth_error jsorted k (Hk k (nth_error_In _ _ Ek))) as (j & Ej).
      destruct (W _ q Eq) as ((m0 & HR0) & (mq & HRq) & (mq' & HRq') & A1 & A2). rewrite A1 in Hg. rewrite A2 in Hg'.
      exact (gradient_base R root sorted jsorted _ _ (mkAS (as_added (after sorted jsorted ops)) (assign jids q (as_angles (after sorted jsorted ops))) pose_clear) AX AD m0 B B' mq mq' e1 e2 jids false g g' c k j HR0 HRq HRq' UB UB' Hg Hg' Ek Ej).
Qed.
Print Assumptions C116_distances_do_not_depend_on_base.

(** C117.  A joint that carries both links of a pair, or neither of them, has the entry 0. *)
Theorem C117_gradient_needs_only_joints_between :
  forall tinyxml text R root sorted jsorted ops m,
    @reached RA tinyxml text R root sorted jsorted ops m ->
    let added := as_added (after sorted jsorted ops) in
    forall (qs : list (list (@num RA))) ids1 ids2 jids (wb uc : bool) m' D G, (wb || negb uc)%bool = true ->
      (forall k, In k jids -> (k < length (get_joint_names m))%nat) -> (forall q, In q qs -> length q = (length jids + if wb then 6 else 0)%nat) ->
      compute_inter_link_squared_dists qs ids1 ids2 jids wb true uc m = (m', Ok (D, G)) ->
    forall a b e1 e2 n1 n2 c k j, (a < length qs)%nat -> nth_error ids1 b = Some e1 -> nth_error ids2 b = Some e2 ->
      nth_error (get_link_names m) e1 = Some n1 -> nth_error (get_link_names m) e2 = Some n2 ->
      nth_error jids c = Some k -> nth_error jsorted k = Some j -> (carries (r_joints R) added j n1 <-> carries (r_joints R) added j n2) ->
      entry G (a * length ids1 + b) c = 0.
Proof.
  intros tinyxml text R root sorted jsorted ops m Hr added qs ids1 ids2 jids wb uc m' D G Hcl Hk Hq X a b e1 e2 n1 n2 c k j La E1 E2 N1 N2 Ek Ej Hc.
  destruct (reached_Rep _ _ _ _ _ _ _ _ Hr) as [HR _]. rewrite (rep_joint_count _ _ _ _ _ _ _ _ HR) in Hk. rewrite (rep_all_links _ _ _ _ _ _ _ _ HR) in N1, N2.
  destruct (lt_nth_error qs a La) as (q & Eq).
  destruct (sqdists_ok _ _ _ _ _ _ _ _ _ _ _ _ _ _ _ _ _ _ HR Hcl Hk X) as (_ & _ & HG). destruct (HG eq_refl) as (_ & HG'). destruct (HG' a b q e1 Eq E1) as (e2' & g & E2' & Eg & Hg).
  assert (e2' = e2) by congruence. subst e2'. unfold entry. rewrite (nth_error_nth _ _ [] Eg).
  destruct (waypoint_reached _ _ _ _ _ _ _ _ Hr jids wb q Hk (Hq q (nth_error_In _ _ Eq))) as (mq & Hrq & Ea). destruct (reached_Rep _ _ _ _ _ _ _ _ Hrq) as [HRq _]. rewrite Ea in HRq.
  exact (gradient_zero _ _ _ _ _ _ _ _ _ _ _ _ _ _ _ c k j HRq Hg N1 N2 Ek Ej Hc).
Qed.
Print Assumptions C117_gradient_needs_only_joints_between.

(** C118.  Two calls on the same model have a waypoint in common and a pair of links in common, perhaps the other way round:
    the distance and the whole gradient row of that pair are the same, whatever else the two calls ask for. *)
Theorem C118_pairs_are_answered_alike :
  forall tinyxml text R root sorted jsorted ops m,
    @reached RA tinyxml text R root sorted jsorted ops m ->
    forall (qs qs' : list (list (@num RA))) ids1 ids2 ids1' ids2' jids (wb uc uc' : bool) m1 m2 D D' G G', (wb || negb uc)%bool = true -> (wb || negb uc')%bool = true ->
      (forall k, In k jids -> (k < length (get_joint_names m))%nat) ->
      compute_inter_link_squared_dists qs ids1 ids2 jids wb true uc m = (m1, Ok (D, G)) ->
      compute_inter_link_squared_dists qs' ids1' ids2' jids wb true uc' m = (m2, Ok (D', G')) ->
    forall a a' b b' q e1 e2 x1 x2, nth_error qs a = Some q -> nth_error qs' a' = Some q -> length q = (length jids + if wb then 6 else 0)%nat ->
      nth_error ids1 b = Some e1 -> nth_error ids2 b = Some e2 -> nth_error ids1' b' = Some x1 -> nth_error ids2' b' = Some x2 ->
      (x1 = e1 /\ x2 = e2 \/ x1 = e2 /\ x2 = e1) ->
      nth_error D (a * length ids1 + b) = nth_error D' (a' * length ids1' + b') /\
      forall c, (c < length jids + if wb then 6 else 0)%nat -> entry G (a * length ids1 + b) c = entry G' (a' * length ids1' + b') c.
Proof.
  intros tinyxml text R root sorted jsorted ops m Hr qs qs' ids1 ids2 ids1' ids2' jids wb uc uc' m1 m2 D D' G G' Hcl Hcl' Hk X X' a a' b b' q e1 e2 x1 x2 Eq Eq' Lq E1 E2 F1 F2 Hx.
  destruct (reached_Rep _ _ _ _ _ _ _ _ Hr) as [HR _]. rewrite (rep_joint_count _ _ _ _ _ _ _ _ HR) in Hk.
  destruct (sqdists_ok _ _ _ _ _ _ _ _ _ _ _ _ _ _ _ _ _ _ HR Hcl Hk X) as (_ & HD & HG). destruct (HG eq_refl) as (_ & HG1). clear HG.
  destruct (sqdists_ok _ _ _ _ _ _ _ _ _ _ _ _ _ _ _ _ _ _ HR Hcl' Hk X') as (_ & HD' & HG). destruct (HG eq_refl) as (_ & HG2). clear HG.
  destruct (HD a b q e1 Eq E1) as (y & d & Y & Ed & Hd). assert (y = e2) by congruence. subst y. destruct (HD' a' b' q x1 Eq' F1) as (y & d' & Y' & Ed' & Hd'). assert (y = x2) by congruence. subst y.
  destruct (HG1 a b q e1 Eq E1) as (y & g & Y1 & Eg & Hg). assert (y = e2) by congruence. subst y. destruct (HG2 a' b' q x1 Eq' F1) as (y & g' & Y2 & Eg' & Hg'). assert (y = x2) by congruence. subst y.
  destruct (waypoint_reached _ _ _ _ _ _ _ _ Hr jids wb q Hk Lq) as (mq & Hrq & Ea). destruct (reached_Rep _ _ _ _ _ _ _ _ Hrq) as [HRq _]. rewrite Ea in HRq.
  split; [rewrite Ed, Ed'; f_equal; exact (distance_pair _ _ _ _ _ _ _ _ _ _ _ _ _ _ HRq Hx Hd Hd')|].
  intros c Lc. unfold entry. rewrite (nth_error_nth _ _ [] Eg), (nth_error_nth _ _ [] Eg'). exact (gradient_pair _ _ _ _ _ _ _ _ _ _ _ _ _ _ _ _ c HRq Hk Hx Hg Hg' Lc).
Qed.
Print Assumptions C118_pairs_are_answered_alike.

(** the example robot: tool and base, twice with the joints at 1 and 2, the base elsewhere; and the same with a fixed base *)
Example C116_example : exists m m1 m2, reached ex_tinyxml ex_text ex_R "base" ex_sorted ex_jsorted ex_ops m /\ unit_axes ex_R /\ (forall k, In k [1; 0]%nat -> (k < length (get_joint_names m))%nat) /\
  (exists m' r, @compute_inter_link_squared_dists RA [[0; 1; 0; 0; 0; 0; 0; 0]; [1; 2; 3; 0; 0; 0; 0; 1]] [3; 2]%nat [0; 1]%nat [1; 0]%nat true true true m = (m', Ok r)) /\
  (exists m' r, @compute_inter_link_squared_dists RA [[1; 2; 0; 5; 0; 1; 2; 1]] [3; 2]%nat [0; 1]%nat [1; 0]%nat true true false m = (m', Ok r)) /\
  unit_quaternion (rotation pose_clear) /\ unit_quaternion (rotation rg_base) /\ set_base_pose pose_clear m = (m1, Ok tt) /\ set_base_pose rg_base m = (m2, Ok tt) /\
  (exists m' r, @compute_inter_link_squared_dists RA [[1; 2]; [3; 4]] [3; 2]%nat [0; 1]%nat [1; 0]%nat false true false m1 = (m', Ok r)) /\
  (exists m' r, @compute_inter_link_squared_dists RA [[1; 2]; [3; 4]] [3; 2]%nat [0; 1]%nat [1; 0]%nat false true false m2 = (m', Ok r)).
Proof.
  destruct ex_run as (m & E). destruct (based_run _ _ m pose_clear E) as (m1 & S1 & R1). destruct (based_run _ _ m rg_base E) as (m2 & S2 & R2). exists m, m1, m2.
  pose proof (ex_reached _ _ E) as Hr. destruct (reached_Rep _ _ _ _ _ _ _ _ Hr) as [HR _].
  split; [exact Hr|]. split; [exact ex_unit_axes|]. split; [rewrite (rep_joint_count _ _ _ _ _ _ _ _ HR); intros k [<-|[<-|[]]]; cbn; lia|].
  split; [apply (answer_at ex_m0 _ _ m E); vm_compute; reflexivity|]. split; [apply (answer_at ex_m0 _ _ m E); vm_compute; reflexivity|].
  split; [apply unit_quaternion_q; exact unit_clear|]. split; [apply unit_quaternion_q; apply (rpy_unit n1 n0 n0)|]. split; [exact S1|]. split; [exact S2|].
  split; [apply (answer_at ex_m0 _ _ m1 R1); vm_compute; reflexivity | apply (answer_at ex_m0 _ _ m2 R2); vm_compute; reflexivity].
Qed.

(** the slider carries both the car and the tip that was added to it *)
Example C117_example : exists m, reached sl_tinyxml ex_text sl_R "base" sl_sorted sl_jsorted rl_ops m /\ (forall k, In k [0%nat] -> (k < length (get_joint_names m))%nat) /\
  (exists m' r, @compute_inter_link_squared_dists RA [[1]; [2]] [0; 1]%nat [1; 4]%nat [0%nat] false true false m = (m', Ok r)) /\
  nth_error (get_link_names m) 1 = Some "car"%string /\ nth_error (get_link_names m) 4 = Some "tip"%string /\
  (exists j, nth_error sl_jsorted 0 = Some j /\
     (carries (r_joints sl_R) (as_added (after sl_sorted sl_jsorted rl_ops)) j "car" <-> carries (r_joints sl_R) (as_added (after sl_sorted sl_jsorted rl_ops)) j "tip")).
Proof.
  destruct (rel_go sl_m0 rl_ops [0%nat] [n2] rg_base 1 4 ltac:(vm_compute; reflexivity)) as (m & ma & mb & m1 & m2 & m3 & m4 & P1 & P2 & P1' & P2' & E & _).
  exists m. pose proof (sl_reached _ _ E) as Hr. split; [exact Hr|]. destruct (reached_Rep _ _ _ _ _ _ _ _ Hr) as [HR _].
  split; [rewrite (rep_joint_count _ _ _ _ _ _ _ _ HR); intros k [<-|[]]; cbn; lia|].
  split; [apply (answer_at sl_m0 _ _ m E); vm_compute; reflexivity|].
  rewrite (rep_all_links _ _ _ _ _ _ _ _ HR). split; [reflexivity|]. split; [reflexivity|].
  exists sl_j. split; [reflexivity|]. rewrite <- sl_child. split; intros _; [|constructor].
  apply (carries_added _ _ _ _ (uj_child sl_j) (mkPose (@V3 RA n0 n1 n0) (setFromRPY n0 n0 n0))); [|constructor].
  rewrite sl_child. cbn. auto.
Qed.

(** one call for tool and base among others, one for base and tool alone *)
Example C118_example : exists m, reached ex_tinyxml ex_text ex_R "base" ex_sorted ex_jsorted ex_ops m /\ (forall k, In k [1; 0]%nat -> (k < length (get_joint_names m))%nat) /\
  (exists m' r, @compute_inter_link_squared_dists RA [[0; 1; 0; 0; 0; 0; 0; 0]; [1; 2; 3; 0; 0; 0; 0; 1]] [3; 2]%nat [0; 1]%nat [1; 0]%nat true true true m = (m', Ok r)) /\
  (exists m' r, @compute_inter_link_squared_dists RA [[1; 2; 3; 0; 0; 0; 0; 1]] [1]%nat [2]%nat [1; 0]%nat true true false m = (m', Ok r)).
Proof.
  destruct ex_run as (m & E). exists m. pose proof (ex_reached _ _ E) as Hr. destruct (reached_Rep _ _ _ _ _ _ _ _ Hr) as [HR _].
  split; [exact Hr|]. split; [rewrite (rep_joint_count _ _ _ _ _ _ _ _ HR); intros k [<-|[<-|[]]]; cbn; lia|].
  split; apply (answer_at ex_m0 _ _ m E); vm_compute; reflexivity.
Qed.
