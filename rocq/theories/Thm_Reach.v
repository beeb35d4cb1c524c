(** C107, C108 and C109: how far links are from the root and how far joints move them. *)
From Coq Require Import QArith String List Arith Lia Bool Permutation Reals Lra.
From Verif Require Import Base Num Pose DataStructure Urdf Kin Wrapper Spec_Robot Spec_Hist Spec_Load Spec_Jac Spec_Mass Spec_Rot Spec_Body Spec_Reach
  RealArith Pf_Base Pf_Data Inv Pf_FK Pf_Frame Pf_Rp Rep Pf_Ops Pf_Name Pf_Reach Pf_Jac Pf_Safe Pf_Pose Pf_Local Pf_Hist Pf_Wrap Pf_Mass Pf_Wrap2 Pf_Total
  Pf_Stale Pf_Real Pf_Rot Pf_Unit Pf_Rpy Pf_Chain Pf_Deriv Pf_BaseD Pf_Body Pf_Rigid Pf_Reach2 Ex_Robot Ex_Slider Ex_Wheel Thm_Fk Thm_Ids Thm_Real Thm_Deriv Thm_Rigid Thm_Relative.
Import ListNotations.
Local Open Scope m_scope.
Local Open Scope R_scope.

Lemma angle_nth tinyxml text R root sorted jsorted ops m k j a : @reached RA tinyxml text R root sorted jsorted ops m -> nth_error jsorted k = Some j ->
  angle_of k m = Ok [a] -> nth k (as_angles (after sorted jsorted ops)) n0 = a.
Proof.
  intros Hr Ej E. destruct (reached_Rep _ _ _ _ _ _ _ _ Hr) as [HR _]. rewrite <- (rep_angles _ _ _ _ _ _ _ _ HR).
  unfold angle_of in E. rewrite get_angles_spec in E.
  - cbn [map snd] in E. injection E as E. exact E.
  - intros i [<-|[]]. rewrite (rep_angles _ _ _ _ _ _ _ _ HR), (rep_angles_length _ _ _ _ _ _ _ _ HR). unfold jnames. rewrite map_length. eapply nth_error_lt; eauto.
Qed.

(** C107.  No link is farther from the root link than the chain between them is long. *)
Theorem C107_links_stay_within_reach :
  forall tinyxml text R root sorted jsorted ops m,
    @reached RA tinyxml text R root sorted jsorted ops m -> clean ops = true -> unit_axes R -> unit_bases ops ->
    forall i0 i n, nth_error (get_link_names m) i0 = Some root -> nth_error (get_link_names m) i = Some n ->
    forall q : string -> Rdefinitions.R, (forall k j a, nth_error jsorted k = Some j -> angle_of k m = Ok [a] -> q (uj_name j) = a) ->
    forall m0 m' P0 P, get_link_pose i0 m = (m0, Ok P0) -> get_link_pose i m = (m', Ok P) ->
    (exists L, chain_length (r_joints R) root (as_added (after sorted jsorted ops)) q n L) /\
    (forall L, chain_length (r_joints R) root (as_added (after sorted jsorted ops)) q n L -> vlen (v_sub (position P) (position P0)) <= L).
Proof.
  intros tinyxml text R root sorted jsorted ops m Hr Hc Hu Hb i0 i n En0 En q Hq m0 m' P0 P X0 X.
  destruct (reached_Rep _ _ _ _ _ _ _ _ Hr) as [HR HC]. specialize (HC Hc). assert (G : Good m) by (split; auto; apply HR).
  pose proof (after_ok sorted jsorted ops) as AD. pose proof (after_base_unit sorted jsorted ops Hb) as UB. set (s := after sorted jsorted ops) in *.
  pose proof (loaded_axes_ok _ _ _ _ (proj1 Hr) Hu) as AX.
  rewrite (rep_all_links _ _ _ _ _ _ _ _ HR) in En0, En. destruct (get_link_pose_ok m i0 m0 P0 G X0) as [Y0 _]. destruct (get_link_pose_ok m i m' P G X) as [Y _].
  pose proof (rep_pose_of' _ _ _ _ _ _ _ _ HR i0 _ P0 En0 Y0) as F0. pose proof (rep_pose_of' _ _ _ _ _ _ _ _ HR i n P En Y) as F.
  rewrite (rep_pose_det _ _ _ _ _ _ _ _ HR _ _ _ F0 (fk_root _ _ _ _ _)) in *.
  pose proof (jn_nodup _ _ _ _ _ _ _ _ HR) as JN. pose proof (rep_angles_length _ _ _ _ _ _ _ _ HR) as LA.
  assert (HQ : forall j, In j (r_joints R) -> uj_type j = PRISMATIC -> by_name (jnames jsorted) (as_angles s) (uj_name j) = q (uj_name j)).
  { intros j I T. assert (Mj : In j jsorted) by (apply (rep_jsorted _ _ _ _ _ _ _ _ HR); split; [exact I | now rewrite T]). apply In_nth_error in Mj. destruct Mj as (k & Ek).
    rewrite (by_name_nth _ _ k (uj_name j) JN LA) by (unfold jnames; rewrite nth_error_map', Ek; reflexivity). symmetry. apply (Hq k j _ Ek).
    unfold angle_of. rewrite get_angles_spec.
    - cbn [map snd]. now rewrite (rep_angles _ _ _ _ _ _ _ _ HR).
    - intros i' [<-|[]]. rewrite (rep_angles _ _ _ _ _ _ _ _ HR), LA. unfold jnames. rewrite map_length. eapply nth_error_lt; eauto. }
  split.
  - destruct (fk_reach _ _ _ _ _ _ _ AX AD UB F) as (L & HL & _). clear - HL HQ.
    assert (K : forall n L, chain_length (r_joints R) root (as_added s) (by_name (jnames jsorted) (as_angles s)) n L -> chain_length (r_joints R) root (as_added s) q n L); [|eauto].
    intros n' L' H. induction H as [|j L' I H IH|n' p T L' I H IH]; [constructor| |eapply cl_added; eauto].
    pose proof (cl_joint _ _ _ q j L' I IH) as H'. specialize (HQ j I). destruct (uj_type j); try exact H'. now rewrite (HQ eq_refl).
  - intros L HL. destruct (lever (r_joints R) root (as_added s) (by_name (jnames jsorted) (as_angles s)) (as_base s) root (as_base s) q n L AX AD UB) as (P2 & F2 & B2); auto.
    + intros j I T. rewrite (HQ j I T). apply Rle_refl.
    + apply fk_root.
    + now rewrite (rep_pose_det _ _ _ _ _ _ _ _ HR _ _ _ F F2).
Qed.
Print Assumptions C107_links_stay_within_reach.

(** C108.  Changing one joint from [a] to [b]: a link beyond a sliding joint keeps its orientation and is shifted by [b - a] along the
    axis; a link beyond a turning joint keeps its distance to the joint's child link, and moves no more than the arc. *)
Theorem C108_one_joint_moves_along_its_axis :
  forall tinyxml text R root sorted jsorted ops m,
    @reached RA tinyxml text R root sorted jsorted ops m -> clean ops = true -> unit_axes R -> unit_bases ops ->
    forall k j a b ma, nth_error jsorted k = Some j -> angle_of k m = Ok [a] -> set_joint_angles [k] [b] m = (ma, Ok tt) ->
    forall i n c, nth_error (get_link_names m) i = Some n -> nth_error (get_link_names m) c = Some (uj_child j) ->
      carries (r_joints R) (as_added (after sorted jsorted ops)) j n ->
    forall m1 m2 m3 P C P', get_link_pose i m = (m1, Ok P) -> get_link_pose c m = (m2, Ok C) -> get_link_pose i ma = (m3, Ok P') ->
      match uj_type j with
      | PRISMATIC => rotation P' = rotation P /\
          let w := q_rot (rotation C) (uj_axis j) in v_sub (position P') (position P) = @V3 RA (vx w * (b - a)) (vy w * (b - a)) (vz w * (b - a))
      | _ => vlen (v_sub (position P') (position C)) = vlen (v_sub (position P) (position C)) /\
             vlen (v_sub (position P') (position P)) <= Rabs (b - a) * vlen (v_sub (position P) (position C))
      end.
Proof.
  intros tinyxml text R root sorted jsorted ops m Hr Hc Hu Hb k j a b ma Ej Ea Eb i n c En Ec Hcj m1 m2 m3 P C P' X1 X2 X3.
  assert (Hra : reached tinyxml text R root sorted jsorted (ops ++ [Op_set_joint_angles [k] [b]]) ma)
    by (apply (reached_run _ _ _ _ _ _ _ _ _ _ Hr); cbn [run exec]; rewrite Eb; reflexivity).
  pose proof (angle_nth _ _ _ _ _ _ _ _ _ _ _ Hr Ej Ea) as Na.
  destruct (reached_Rep _ _ _ _ _ _ _ _ Hr) as [HR HC]. specialize (HC Hc). assert (G : Good m) by (split; auto; apply HR).
  destruct (reached_Rep _ _ _ _ _ _ _ _ Hra) as [HRa HCa]. specialize (HCa ltac:(unfold clean; rewrite fold_left_app; reflexivity)). assert (Ga : Good ma) by (split; auto; apply HRa).
  rewrite after_app in HRa. unfold abs_run in HRa. cbn [fold_left abs_step] in HRa.
  pose proof (after_ok sorted jsorted ops) as AD. pose proof (after_base_unit sorted jsorted ops Hb) as UB. set (s := after sorted jsorted ops) in *.
  pose proof (loaded_axes_ok _ _ _ _ (proj1 Hr) Hu) as AX.
  rewrite (rep_all_links _ _ _ _ _ _ _ _ HR) in En, Ec.
  destruct (get_link_pose_ok m i m1 P G X1) as [Y1 _]. destruct (get_link_pose_ok m c m2 C G X2) as [Y2 _]. destruct (get_link_pose_ok ma i m3 P' Ga X3) as [Y3 _].
  pose proof (rep_pose_of' _ _ _ _ _ _ _ _ HR i n P En Y1) as F1. pose proof (rep_pose_of' _ _ _ _ _ _ _ _ HR c _ C Ec Y2) as F2. pose proof (rep_pose_of' _ _ _ _ _ _ _ _ HRa i n P' En Y3) as F3.
  pose proof (joint_step R root sorted jsorted _ _ (tree_joints _ _ (ld_tree _ _ _ _ (proj1 Hr))) AX s m k j b n P P' C HR AD UB Ej Hcj F1 F2 F3) as S.
  rewrite (by_name_nth _ _ k (uj_name j) (jn_nodup _ _ _ _ _ _ _ _ HR) (rep_angles_length _ _ _ _ _ _ _ _ HR)) in S by (unfold jnames; rewrite nth_error_map', Ej; reflexivity).
  rewrite Na in S. exact S.
Qed.
Print Assumptions C108_one_joint_moves_along_its_axis.

(** C109.  As long as every joint stays within its bound, before and after, a link moves no more than the sum of the joint steps, each
    times the gain of that joint: a bound fixed in advance, so small steps of the joints are small steps of every link. *)
Theorem C109_small_joint_steps_move_links_little :
  forall tinyxml text R root sorted jsorted ops m,
    @reached RA tinyxml text R root sorted jsorted ops m -> clean ops = true -> unit_axes R -> unit_bases ops ->
    forall (B : string -> Rdefinitions.R) i n jids olds news gains ma,
      nth_error (get_link_names m) i = Some n -> NoDup jids -> length news = length jids ->
      (forall k j a, nth_error jsorted k = Some j -> angle_of k m = Ok [a] -> Rabs a <= B (uj_name j)) ->
      (forall k j a, nth_error jsorted k = Some j -> angle_of k ma = Ok [a] -> Rabs a <= B (uj_name j)) ->
      Forall2 (fun k g => exists j, nth_error jsorted k = Some j /\ gain (r_joints R) (as_added (after sorted jsorted ops)) B n j g) jids gains ->
      get_joint_angles jids m = (m, Ok olds) -> set_joint_angles jids news m = (ma, Ok tt) ->
    forall m1 m2 P P', get_link_pose i m = (m1, Ok P) -> get_link_pose i ma = (m2, Ok P') ->
      vlen (v_sub (position P') (position P)) <= travel olds news gains.
Proof.
  intros tinyxml text R root sorted jsorted ops m Hr Hc Hu Hb B i n jids olds news gains ma En N Lq B1 B2 F Eo Eb m1 m2 P P' X1 X2.
  assert (Hra : reached tinyxml text R root sorted jsorted (ops ++ [Op_set_joint_angles jids news]) ma)
    by (apply (reached_run _ _ _ _ _ _ _ _ _ _ Hr); cbn [run exec]; rewrite Eb; reflexivity).
  destruct (reached_Rep _ _ _ _ _ _ _ _ Hr) as [HR HC]. specialize (HC Hc). assert (G : Good m) by (split; auto; apply HR).
  destruct (reached_Rep _ _ _ _ _ _ _ _ Hra) as [HRa HCa]. specialize (HCa ltac:(unfold clean; rewrite fold_left_app; reflexivity)). assert (Ga : Good ma) by (split; auto; apply HRa).
  assert (Hj : forall k, In k jids -> (k < length jsorted)%nat).
  { clear - F. induction F as [|x g jids gains (j & Ej & _) F IH]; intros k I; [easy|]. destruct I as [<-|I]; [eapply nth_error_lt; eauto | auto]. }
  assert (LA : (length (joint_angles m) = length jsorted)%nat) by (rewrite (rep_angles _ _ _ _ _ _ _ _ HR), (rep_angles_length _ _ _ _ _ _ _ _ HR); unfold jnames; now rewrite map_length).
  assert (LAa : (length (joint_angles ma) = length jsorted)%nat) by (rewrite (rep_angles _ _ _ _ _ _ _ _ HRa), (rep_angles_length _ _ _ _ _ _ _ _ HRa); unfold jnames; now rewrite map_length).
  assert (AG : forall m0 k, length (joint_angles m0) = length jsorted -> (k < length jsorted)%nat -> @angle_of RA k m0 = Ok [nth k (joint_angles m0) n0]).
  { intros m0 k L0 Lk. unfold angle_of. rewrite get_angles_spec by (intros i' [<-|[]]; rewrite L0; exact Lk). reflexivity. }
  rewrite get_angles_spec in Eo by (intros k I; rewrite LA; now apply Hj). injection Eo as <-.
  destruct (C30_set_get_joint_angles RA _ _ _ _ _ _ _ _ Hr jids news) as (ma' & Eb' & _ & _ & Hlast & _);
    [intros k I; rewrite (rep_joint_count _ _ _ _ _ _ _ _ HR); now apply Hj | exact Lq|].
  rewrite Eb in Eb'. injection Eb' as <-.
  rewrite after_app in HRa. unfold abs_run in HRa. cbn [fold_left abs_step] in HRa.
  pose proof (after_ok sorted jsorted ops) as AD. pose proof (after_base_unit sorted jsorted ops Hb) as UB. rewrite (rep_angles _ _ _ _ _ _ _ _ HR) in *. set (s := after sorted jsorted ops) in *.
  pose proof (loaded_axes_ok _ _ _ _ (proj1 Hr) Hu) as AX. rewrite (rep_all_links _ _ _ _ _ _ _ _ HR) in En.
  destruct (get_link_pose_ok m i m1 P G X1) as [Y1 _]. destruct (get_link_pose_ok ma i m2 P' Ga X2) as [Y2 _].
  pose proof (rep_pose_of' _ _ _ _ _ _ _ _ HR i n P En Y1) as F1. pose proof (rep_pose_of' _ _ _ _ _ _ _ _ HRa i n P' En Y2) as F2.
  apply (many_gains R root sorted jsorted _ _ (tree_joints _ _ (ld_tree _ _ _ _ (proj1 Hr))) AX B n jids news gains s m P P' HR AD UB); auto.
  - eapply nth_error_In; eauto.
  - intros k x Ek. apply (B1 k x); [exact Ek|]. rewrite <- (rep_angles _ _ _ _ _ _ _ _ HR). apply AG; [rewrite (rep_angles _ _ _ _ _ _ _ _ HR); exact LA | eapply nth_error_lt; eauto].
  - intros p k j b E1 E2 E3. apply (B2 k j b E2). destruct (nth_error_split _ _ E1) as (pre & post & E & Lp).
    apply (Hlast pre k post b E); [|now rewrite Lp]. rewrite E in N. apply NoDup_remove_2 in N. intros I. apply N. apply in_or_app. auto.
Qed.
Print Assumptions C109_small_joint_steps_move_links_little.

(** the wheel with a tip fixed on its hand, one unit away from the axis; the wheel is turned from 0 to 2 *)
Lemma rc_after : after wh_sorted wh_jsorted rl_ops = mkAS [("base_com", "base", pose_clear); ("hand_com", "hand", pose_clear); ("tip", "hand", mkPose (@V3 RA n0 n1 n0) (setFromRPY n0 n0 n0))]%string [n0] pose_clear.
Proof. unfold after. rewrite wh_initial. reflexivity. Qed.
Lemma rc_after2 : after wh_sorted wh_jsorted (rl_ops ++ [Op_set_joint_angles [0%nat] [n2]]) = mkAS [("base_com", "base", pose_clear); ("hand_com", "hand", pose_clear); ("tip", "hand", mkPose (@V3 RA n0 n1 n0) (setFromRPY n0 n0 n0))]%string [n2] pose_clear.
Proof. rewrite after_app, rc_after. reflexivity. Qed.
Lemma rc_angle ops m k j a : reached wh_tinyxml ex_text wh_R "base" wh_sorted wh_jsorted ops m -> as_angles (after wh_sorted wh_jsorted ops) = [a] -> nth_error wh_jsorted k = Some j ->
  j = wh_j /\ angle_of k m = Ok [a].
Proof.
  intros Hr E Ej. destruct (reached_Rep _ _ _ _ _ _ _ _ Hr) as [HR _]. destruct k as [|k]; [|destruct k; discriminate Ej]. injection Ej as <-. split; [reflexivity|].
  unfold angle_of. rewrite get_angles_spec; rewrite (rep_angles _ _ _ _ _ _ _ _ HR), E; [reflexivity|]. intros i [<-|[]]. cbn. lia.
Qed.
Lemma rc_tip q : chain_length (r_joints wh_R) "hand" (as_added (after wh_sorted wh_jsorted rl_ops)) q "tip" 1.
Proof.
  rewrite rc_after. cbn [as_added]. replace 1 with (0 + vlen (position (mkPose (@V3 RA n0 n1 n0) (setFromRPY n0 n0 n0)))).
  - eapply (cl_added _ _ _ _ "tip"%string "hand"%string); [right; right; left; reflexivity | apply cl_root].
  - cbn [position]. unfold vlen, vdot. cbn [vx vy vz]. rnum. rewrite Rplus_0_l. replace (0 * 0 + 1 * 1 + 0 * 0) with 1 by ring. apply sqrt_1.
Qed.
Lemma rc_chain q : chain_length (r_joints wh_R) "base" (as_added (after wh_sorted wh_jsorted rl_ops)) q "tip" 1.
Proof.
  rewrite rc_after. cbn [as_added].
  assert (H : chain_length (r_joints wh_R) "base" [("base_com", "base", pose_clear); ("hand_com", "hand", pose_clear); ("tip", "hand", mkPose (@V3 RA n0 n1 n0) (setFromRPY n0 n0 n0))]%string q "hand" 0).
  { replace 0 with (0 + vlen (position (uj_origin wh_j)) + match uj_type wh_j with PRISMATIC => Rabs (q (uj_name wh_j)) * vlen (uj_axis wh_j) | _ => 0 end).
    - rewrite <- wh_child. apply cl_joint; [rewrite wh_joints; left; reflexivity|]. rewrite wh_parent. apply cl_root.
    - rewrite wh_type, wh_origin. change (position pose_clear) with (@v_clear RA). rewrite vlen_zero. ring. }
  replace 1 with (0 + vlen (position (mkPose (@V3 RA n0 n1 n0) (setFromRPY n0 n0 n0)))).
  - eapply (cl_added _ _ _ _ "tip"%string "hand"%string); [right; right; left; reflexivity | exact H].
  - cbn [position]. unfold vlen, vdot. cbn [vx vy vz]. rnum. rewrite Rplus_0_l. replace (0 * 0 + 1 * 1 + 0 * 0) with 1 by ring. apply sqrt_1.
Qed.
Lemma rc_carries : carries (r_joints wh_R) (as_added (after wh_sorted wh_jsorted rl_ops)) wh_j "tip".
Proof. rewrite rc_after. cbn [as_added]. eapply (carries_added _ _ _ "tip"%string "hand"%string); [right; right; left; reflexivity|]. rewrite <- wh_child. constructor. Qed.

Example C107_example : exists m m0 m' P0 P, reached wh_tinyxml ex_text wh_R "base" wh_sorted wh_jsorted rl_ops m /\ clean rl_ops = true /\ unit_axes wh_R /\ unit_bases rl_ops /\
  nth_error (get_link_names m) 0 = Some "base"%string /\ nth_error (get_link_names m) 4 = Some "tip"%string /\
  (forall k j a, nth_error wh_jsorted k = Some j -> angle_of k m = Ok [a] -> n0 = a) /\
  get_link_pose 0 m = (m0, Ok P0) /\ get_link_pose 4 m = (m', Ok P) /\
  chain_length (r_joints wh_R) "base" (as_added (after wh_sorted wh_jsorted rl_ops)) (fun _ => @n0 RA) "tip" 1.
Proof.
  destruct (rel_go wh_m0 rl_ops [0%nat] [n2] pose_clear 0 4 ltac:(vm_compute; reflexivity)) as (m & ma & mb & m1 & m2 & m3 & m4 & P1 & P2 & P1' & P2' & E & Ea & Eb & A1 & A2 & A3 & A4).
  exists m, m1, m2, P1, P2. pose proof (wh_reached _ _ E) as Hr. split; [exact Hr|]. split; [reflexivity|]. split; [exact wh_unit|].
  split; [intros p [I|[]]; discriminate I|]. destruct (reached_Rep _ _ _ _ _ _ _ _ Hr) as [HR _]. rewrite (rep_all_links _ _ _ _ _ _ _ _ HR). split; [reflexivity|]. split; [reflexivity|].
  split; [|split; [exact A1|split; [exact A2|apply rc_chain]]]. intros k j a Ej Ek. destruct (rc_angle rl_ops m k j n0 Hr ltac:(now rewrite rc_after) Ej) as [_ Ek']. congruence.
Qed.
Example C108_C109_example : exists m ma m1 m2 m3 P C P', reached wh_tinyxml ex_text wh_R "base" wh_sorted wh_jsorted rl_ops m /\ clean rl_ops = true /\ unit_axes wh_R /\ unit_bases rl_ops /\
  nth_error wh_jsorted 0 = Some wh_j /\ angle_of 0 m = Ok [n0] /\ set_joint_angles [0%nat] [n2] m = (ma, Ok tt) /\
  nth_error (get_link_names m) 4 = Some "tip"%string /\ nth_error (get_link_names m) 1 = Some (uj_child wh_j) /\
  carries (r_joints wh_R) (as_added (after wh_sorted wh_jsorted rl_ops)) wh_j "tip" /\
  get_link_pose 4 m = (m1, Ok P) /\ get_link_pose 1 m = (m2, Ok C) /\ get_link_pose 4 ma = (m3, Ok P') /\
  (forall B : string -> R, (forall x, 2 <= B x) ->
    (forall k j a, nth_error wh_jsorted k = Some j -> angle_of k m = Ok [a] -> Rabs a <= B (uj_name j)) /\
    (forall k j a, nth_error wh_jsorted k = Some j -> angle_of k ma = Ok [a] -> Rabs a <= B (uj_name j)) /\
    Forall2 (fun k g => exists j, nth_error wh_jsorted k = Some j /\ gain (r_joints wh_R) (as_added (after wh_sorted wh_jsorted rl_ops)) B "tip" j g) [0%nat] [1] /\
    get_joint_angles [0%nat] m = (m, Ok [n0]) /\ travel [@n0 RA] [@n2 RA] [1] = 2).
Proof.
  destruct (rel_go wh_m0 rl_ops [0%nat] [n2] pose_clear 1 4 ltac:(vm_compute; reflexivity)) as (m & ma & mb & m1 & m2 & m3 & m4 & P1 & P2 & P1' & P2' & E & Ea & Eb & A1 & A2 & _ & _).
  assert (Eaa : run (rl_ops ++ [Op_set_joint_angles [0%nat] [n2]]) wh_m0 = Some ma) by (rewrite run_app, E; cbn [run exec]; rewrite Ea; reflexivity).
  assert (PE : exists m' P, get_link_pose 4 ma = (m', Ok P)) by (apply (answer_at wh_m0 _ _ ma Eaa); vm_compute; reflexivity). destruct PE as (m5 & P5 & A5).
  exists m, ma, m2, m1, m5, P2, P1, P5. pose proof (wh_reached _ _ E) as Hr. pose proof (wh_reached _ _ Eaa) as Hra. split; [exact Hr|]. split; [reflexivity|]. split; [exact wh_unit|].
  split; [intros p [I|[]]; discriminate I|]. destruct (reached_Rep _ _ _ _ _ _ _ _ Hr) as [HR _]. rewrite (rep_all_links _ _ _ _ _ _ _ _ HR).
  pose proof (fun k j => rc_angle rl_ops m k j n0 Hr ltac:(now rewrite rc_after)) as An. pose proof (fun k j => rc_angle _ ma k j n2 Hra ltac:(now rewrite rc_after2)) as An2.
  split; [reflexivity|]. split; [apply (An 0%nat wh_j eq_refl)|]. split; [exact Ea|]. split; [reflexivity|]. split; [rewrite wh_child; reflexivity|]. split; [apply rc_carries|].
  split; [exact A2|]. split; [exact A1|]. split; [exact A5|]. intros B HB. split; [|split; [|split; [|split]]].
  - intros k j a Ej Ek. destruct (An k j Ej) as [_ Ek']. assert (Q : a = @n0 RA) by congruence. rewrite Q. rnum. rewrite Rabs_R0. specialize (HB (uj_name j)). lra.
  - intros k j a Ej Ek. destruct (An2 k j Ej) as [_ Ek']. assert (Q : a = @n2 RA) by congruence. rewrite Q. rnum. rewrite Rabs_pos_eq by lra. apply HB.
  - constructor; [|constructor]. exists wh_j. split; [reflexivity|]. apply gain_turn; [rewrite wh_type; discriminate|]. rewrite wh_child. apply rc_tip.
  - pose proof (proj2 (An 0%nat wh_j eq_refl)) as X. unfold angle_of in X. rewrite get_angles_spec in *; [cbn [snd] in X; congruence | |]; intros i [<-|[]]; rewrite (rep_angles _ _ _ _ _ _ _ _ HR), rc_after; cbn; lia.
  - cbn [travel]. rnum. rewrite Rabs_pos_eq by lra. ring.
Qed.
