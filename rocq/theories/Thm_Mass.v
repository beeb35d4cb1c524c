(** C18, C21, C22, C23, C24, C56: mass, centre of mass and inertia. *)
From Coq Require Import QArith String List Arith Lia Bool Permutation Reals Lra.
From Verif Require Import Base Num Pose DataStructure Urdf Kin Wrapper Spec_Robot Spec_Hist Spec_Load Spec_Jac Spec_Mass Spec_Rot Spec_Body
  RealArith Pf_Base Pf_Data Inv Pf_FK Pf_Frame Pf_Rp Rep Pf_Ops Pf_Name Pf_Reach Pf_Jac Pf_Safe Pf_Pose Pf_Local Pf_Hist Pf_Wrap Pf_Mass Pf_Wrap2 Pf_Total
  Pf_Stale Pf_Real Pf_Rot Pf_Unit Pf_Rpy Pf_Body Ex_Robot Ex_Slider Ex_Disc Thm_Fk Thm_Real.
Import ListNotations.
Local Open Scope m_scope.
Local Open Scope R_scope.

(** C18.  One body for each link element with an inertial element, at the pose the format
    prescribes (C01, C02); the result times their mass is the sum of mass times position of
    the inertial origin. *)
Theorem C18_com_is_mass_weighted_mean :
  forall tinyxml text R root sorted jsorted ops m,
    @reached RA tinyxml text R root sorted jsorted ops m -> clean ops = true ->
    forall m' c, get_com m = (m', Ok c) ->
    exists W, bodies R root jsorted (after sorted jsorted ops) W /\
      (mass_of W <> 0 ->
       mass_of W * vx c = rsum (fun w => bmass w * vx (bpoint w)) W /\
       mass_of W * vy c = rsum (fun w => bmass w * vy (bpoint w)) W /\
       mass_of W * vz c = rsum (fun w => bmass w * vz (bpoint w)) W).
Proof.
  intros tinyxml text R root sorted jsorted ops m Hr Hc m' c X.
  destruct (reached_Rep _ _ _ _ _ _ _ _ Hr) as [HR HC]. specialize (HC Hc). assert (G : Good m) by (split; auto; apply HR).
  pose proof (get_com_ok _ _ _ _ _ _ _ _ _ _ HR G (reached_has_com _ _ _) X) as H.
  destruct Hr as (_ & O & _). destruct (is_com_centre R root sorted jsorted _ c (ord_links _ _ _ O) H) as (W & HW & ->). exists W. split; auto.
  intros N. unfold centre_of, vdiv, first_moment. cbn [vx vy vz].
  assert (F : forall x : @num RA, (mass_of W * (x / mass_of W) = x)%R) by (intros x; change (@num RA) with (Rdefinitions.R) in x; field; auto).
  repeat split; apply F.
Qed.
Print Assumptions C18_com_is_mass_weighted_mean.

Lemma ex_com : exists m, reached ex_tinyxml ex_text ex_R "base" ex_sorted ex_jsorted ex_ops m /\ clean ex_ops = true /\ exists m' c, get_com m = (m', Ok c).
Proof.
  destruct ex_run as (m & E). exists m. split; [exact (ex_reached _ _ E)|]. split; [reflexivity|].
  apply (observe_answer ex_ops get_com m E). vm_compute. reflexivity.
Qed.

(** on the slider, whose two bodies have mass 1, the centre is half way *)
Example C18_example : exists m m' c, reached sl_tinyxml ex_text sl_R "base" sl_sorted sl_jsorted [Op_set_joint_angles [0]%nat [n1]] m /\
  get_com m = (m', Ok c) /\ c = @V3 RA (1 / 2) 0 0.
Proof.
  set (ops := [Op_set_joint_angles [0]%nat [@n1 RA]]).
  assert (X : exists m, run ops sl_m0 = Some m /\ exists m' c, get_com m = (m', Ok c)).
  { assert (Y : exists x, match run ops sl_m0 with Some m => answer (get_com m) | None => None end = Some x) by (apply is_some_ex; vm_compute; reflexivity).
    destruct Y as (c & Y). destruct (run ops sl_m0) as [m|]; [|discriminate Y]. exists m. split; [reflexivity|]. apply answer_ok in Y. destruct Y as (m' & Y). eauto. }
  destruct X as (m & E & m' & c & X). exists m, m', c. pose proof (sl_reached _ _ E) as Hr. split; [exact Hr|]. split; [exact X|].
  destruct (reached_Rep _ _ _ _ _ _ _ _ Hr) as [HR HC]. specialize (HC eq_refl).
  assert (G : Good m) by (split; [apply HR | exact HC]).
  pose proof (get_com_ok _ _ _ _ _ _ _ _ _ _ HR G (reached_has_com _ _ _) X) as H.
  assert (Ea : after sl_sorted sl_jsorted ops = sl_s n1) by (unfold after; rewrite sl_initial; reflexivity).
  rewrite Ea in H. rewrite (sl_com _ _ H). apply v_eq; cbn [vx vy vz]; rnum; reflexivity.
Qed.

(** C21.  In any arithmetic: the sum in the order of the link names, the same after every
    history, and what get_com divides by; in exact arithmetic the sum over the link elements
    of the document, in any order. *)
Theorem C21_total_mass_is_constant_sum :
  forall (A : Arith) tinyxml text R root sorted jsorted ops m,
    reached tinyxml text R root sorted jsorted ops m ->
    total_mass m = mass_sum (massive sorted) /\
    (forall m0, ctor tinyxml text = Ok m0 -> total_mass m = total_mass m0) /\
    (clean ops = true -> forall m' c, get_com m = (m', Ok c) ->
       exists Ps, Forall2 (fun ni P => pose_at R root jsorted (after sorted jsorted ops) (fst ni) P) (massive sorted) Ps /\
         c = scaled_down (weighted_sum (map (fun x => (in_mass (snd (fst x)), com_point (snd x) (snd (fst x)))) (combine (massive sorted) Ps)) v_clear) (total_mass m)).
Proof.
  intros A tinyxml text R root sorted jsorted ops m Hr. destruct (reached_Rep _ _ _ _ _ _ _ _ Hr) as [HR HC].
  assert (E : total_mass m = mass_sum (massive sorted)) by exact (rep_mass _ _ _ _ _ _ _ _ HR). split; [exact E|]. split.
  - intros m0 E0. destruct Hr as (L & O & m1 & E1 & _). rewrite E0 in E1. inversion E1; subst m1.
    assert (Hr0 : reached tinyxml text R root sorted jsorted [] m0) by (split; [exact L | split; [exact O | exists m0; split; [exact E0 | reflexivity]]]).
    destruct (reached_Rep _ _ _ _ _ _ _ _ Hr0) as [HR0 _]. rewrite E. symmetry. exact (rep_mass _ _ _ _ _ _ _ _ HR0).
  - intros Hc m' c X. specialize (HC Hc). assert (G : Good m) by (split; auto; apply HR).
    destruct (get_com_ok _ _ _ _ _ _ _ _ _ _ HR G (reached_has_com _ _ _) X) as (Ps & F & ->). exists Ps. split; auto. now rewrite E.
Qed.
Print Assumptions C21_total_mass_is_constant_sum.
Theorem C21_total_mass_is_sum_over_document :
  forall tinyxml text R root sorted jsorted ops m,
    @reached RA tinyxml text R root sorted jsorted ops m ->
    total_mass m = rsum (fun l => match snd l with Some i => in_mass i | None => 0 end) (r_links R).
Proof.
  intros tinyxml text R root sorted jsorted ops m Hr. destruct (reached_Rep _ _ _ _ _ _ _ _ Hr) as [HR _].
  destruct Hr as (_ & O & _). rewrite (rep_mass _ _ _ _ _ _ _ _ HR), mass_sum_rsum, (rsum_perm _ _ _ (massive_perm _ _ (ord_links _ _ _ O))).
  unfold massive. induction (r_links R) as [|[n [i|]] l IH]; simpl; auto.
  - f_equal. exact IH.
  - rewrite Rplus_0_l. exact IH.
Qed.
Print Assumptions C21_total_mass_is_sum_over_document.
(** ex_com meets the hypotheses of both. *)

(** C22.  [inertia_of c w] is R I R^T + m (|d|^2 Id - d d^T) for body [w], where R is the matrix of
    its link's orientation (a unit quaternion by C07) and d its offset from [c]. *)
Theorem C22_inertia_is_parallel_axis_sum :
  forall tinyxml text R root sorted jsorted ops m,
    @reached RA tinyxml text R root sorted jsorted ops m -> clean ops = true ->
    forall m' I, get_total_inertia_matrix m = (m', Ok I) ->
    exists W T, bodies R root jsorted (after sorted jsorted ops) W /\
      T = msum (inertia_of (centre_of W)) W /\ I = mrows T /\ symmetric T /\
      ((forall w, In w W -> 0 <= bmass w /\ pos_semidef (tensor (fst w))) -> pos_semidef T) /\
      (forall m'' c, get_com m = (m'', Ok c) -> c = centre_of W) /\
      (unit_axes R -> unit_bases ops -> forall w, In w W -> unit_quaternion (rotation (snd w))).
Proof.
  intros tinyxml text R root sorted jsorted ops m Hr Hc m' I X.
  destruct (reached_Rep _ _ _ _ _ _ _ _ Hr) as [HR HC]. specialize (HC Hc). assert (G : Good m) by (split; auto; apply HR).
  pose proof (get_inertia_ok _ _ _ _ _ _ _ _ _ _ HR G (reached_has_com _ _ _) X) as H.
  pose proof (ord_links _ _ _ (proj1 (proj2 Hr))) as Hp.
  destruct (is_inertia_bodies R root sorted jsorted _ I Hp H) as (W & HW & ->).
  exists W, (msum (inertia_of (centre_of W)) W). split; [exact HW|]. split; [reflexivity|]. split; [reflexivity|]. split; [apply msum_sym, inertia_sym|]. split; [|split].
  - intros Hw. apply msum_psd. intros w Iw. apply inertia_psd; apply Hw; auto.
  - intros m'' c Xc. pose proof (get_com_ok _ _ _ _ _ _ _ _ _ _ HR G (reached_has_com _ _ _) Xc) as H2.
    destruct (is_com_centre R root sorted jsorted _ c Hp H2) as (W2 & HW2 & ->). f_equal.
    pose proof (rep_pose_det _ _ _ _ _ _ _ _ HR) as D. clear - HW HW2 D. unfold bodies in *. revert W2 HW2.
    induction HW as [|ni w ms W [E1 E2] F IH]; intros W2 HW2; inversion HW2 as [|? w2 ? W3 [E3 E4] F3]; subst; auto. f_equal; auto.
    destruct w, w2; cbn [fst snd] in *. subst. f_equal. exact (D _ _ _ E4 E2).
  - intros Hu Hb w Iw. apply unit_quaternion_q. unfold bodies in HW. destruct (Forall2_in_r _ _ _ _ HW Iw) as (ni & _ & _ & HP).
    exact (fk_unit _ _ _ _ _ _ _ (loaded_axes_ok _ _ _ _ (proj1 Hr) Hu) (after_ok sorted jsorted ops) (after_base_unit sorted jsorted ops Hb) HP).
Qed.
Print Assumptions C22_inertia_is_parallel_axis_sum.
Example C22_example : exists m, reached ex_tinyxml ex_text ex_R "base" ex_sorted ex_jsorted ex_ops m /\ clean ex_ops = true /\
  exists m' I, get_total_inertia_matrix m = (m', Ok I).
Proof.
  destruct ex_run as (m & E). exists m. split; [exact (ex_reached _ _ E)|]. split; [reflexivity|].
  apply (observe_answer ex_ops get_total_inertia_matrix m E). vm_compute. reflexivity.
Qed.

(** C23, refuted: for a single link at the origin whose inertial frame is turned by 1 rad
    about z, the result is not the rotated tensor. *)
Theorem C23_inertial_frame_orientation_refuted :
  exists tinyxml text R root sorted jsorted m m' I,
    @reached RA tinyxml text R root sorted jsorted [] m /\
    get_total_inertia_matrix m = (m', Ok I) /\
    forall W, bodies R root jsorted (after sorted jsorted []) W -> I <> mrows (msum (inertia_of_frame (centre_of W)) W).
Proof.
  assert (X : exists m' I, get_total_inertia_matrix disc_m0 = (m', Ok I)).
  { assert (Y : exists x, answer (get_total_inertia_matrix disc_m0) = Some x) by (apply is_some_ex; vm_compute; reflexivity).
    destruct Y as (I & Y). apply answer_ok in Y. destruct Y as (m' & Y). eauto. }
  destruct X as (m' & I & X). exists disc_tinyxml, ex_text, disc_R, "disc"%string, disc_sorted, [], disc_m0, m', I.
  assert (Hr : reached disc_tinyxml ex_text disc_R "disc" disc_sorted [] [] disc_m0) by (apply disc_reached; reflexivity).
  split; [exact Hr|]. split; [exact X|].
  destruct (C22_inertia_is_parallel_axis_sum _ _ _ _ _ _ _ _ Hr eq_refl m' I X) as (W0 & T & HW0 & ET & EI & _).
  destruct (reached_Rep _ _ _ _ _ _ _ _ Hr) as [HR _].
  assert (HP : pose_at disc_R "disc" [] (after disc_sorted [] []) "disc" pose_clear) by apply fk_root.
  assert (Z : forall W, bodies disc_R "disc" [] (after disc_sorted [] []) W -> W = [(disc_i, pose_clear)]).
  { intros W H. unfold bodies, massive in H. rewrite disc_links_are in H. cbn [flat_map fst snd app] in H.
    inversion H as [|? w ? ? [E1 E2] H2]; subst. inversion H2; subst. destruct w as [i P]. cbn [fst snd] in *. subst i.
    rewrite (rep_pose_det _ _ _ _ _ _ _ _ HR _ _ _ E2 HP). reflexivity. }
  intros W HW. rewrite (Z W HW). rewrite (Z W0 HW0) in ET. rewrite EI, ET. intros Q.
  assert (Q1 : m11 (msum (inertia_of (centre_of [(disc_i, pose_clear)])) [(disc_i, pose_clear)]) =
               m11 (msum (inertia_of_frame (centre_of [(disc_i, pose_clear)])) [(disc_i, pose_clear)])) by exact (f_equal (fun I => nth 0 (nth 0 I []) 0) Q).
  clear - Q1. unfold msum in Q1. cbn [fold_right] in Q1. unfold inertia_of, inertia_of_frame in Q1. cbn [fst snd madd m11] in Q1.
  cbn [pose_clear rotation] in Q1. rewrite disc_origin in Q1. cbn [rotation] in Q1.
  rewrite quat_mat_clear in Q1. rewrite mmul_1l in Q1. rewrite rpy_mat in Q1.
  assert (T : tensor disc_i = mkM 1 0 0 0 0 0 0 0 0).
  { pose proof (fun k => f_equal (fun l => nth k l n0) disc_tensor) as D. pose proof (D 0%nat) as D1. pose proof (D 1%nat) as D2. pose proof (D 2%nat) as D3.
    pose proof (D 3%nat) as D4. pose proof (D 4%nat) as D5. pose proof (D 5%nat) as D6. cbn [nth] in *. unfold tensor. rewrite D1, D2, D3, D4, D5, D6. rnum. reflexivity. }
  rewrite T in Q1. rewrite Rot_rpy_is in Q1. unfold rotated, mmul, mtr, mid in Q1. cbn [m11 m12 m13 m21 m22 m23 m31 m32 m33] in Q1.
  assert (S : 0 < sin 1) by (apply sin_gt_0; [lra | pose proof PI2_1; lra]). pose proof (sin2_cos2 1) as SC. unfold Rsqr in SC.
  rnumin Q1. rewrite cos_0 in Q1. nra.
Qed.
Print Assumptions C23_inertial_frame_orientation_refuted.

(** C24, refuted: on the slider, after get_com (a clean history), the inertia computed for
    displacement 1 is the one for displacement 0. *)
Lemma stale_inertia `{A : Arith} a m : all_hit m = true -> (0 < length (joint_angles m))%nat ->
  exists I, get_total_inertia_matrix m = (m, Ok I) /\
    compute_total_inertia_matrix [a] [0]%nat m = (set_angles (list_set (joint_angles m) 0 a) m, Ok I).
Proof.
  intros H L. destruct (inertia_stale m (list_set (joint_angles m) 0 a) H) as (I & E1 & E2). exists I. split; [exact E1|].
  unfold compute_total_inertia_matrix. rewrite (bind_ok _ _ _ _ _ (set_nc_total [0]%nat [a] m ltac:(intros j [<-|[]]; auto) ltac:(simpl; lia))). exact E2.
Qed.
Theorem C24_compute_inertia_refuted :
  exists tinyxml text R root sorted jsorted ops m q m' I,
    @reached RA tinyxml text R root sorted jsorted ops m /\ clean ops = true /\
    compute_total_inertia_matrix q [0]%nat m = (m', Ok I) /\
    exists I1, is_inertia R root jsorted (massive sorted) (at_waypoint [0]%nat false q (after sorted jsorted ops)) I1 /\
      forall I2, is_inertia R root jsorted (massive sorted) (at_waypoint [0]%nat false q (after sorted jsorted ops)) I2 -> I <> I2.
Proof.
  set (ops := [@Op_get_com RA]).
  assert (X : exists m, run ops sl_m0 = Some m /\ all_hit m = true /\ (0 < length (joint_angles m))%nat).
  { assert (Y : match run ops sl_m0 with Some m => (all_hit m && Nat.ltb 0 (length (joint_angles m)))%bool | None => false end = true) by (vm_compute; reflexivity).
    destruct (run ops sl_m0) as [m|]; [|discriminate Y]. apply andb_prop in Y. destruct Y as [Y1 Y2]. apply Nat.ltb_lt in Y2. exists m. auto. }
  destruct X as (m & E & Eh & La). pose proof (sl_reached _ _ E) as Hr. destruct (reached_Rep _ _ _ _ _ _ _ _ Hr) as [HR HC]. specialize (HC eq_refl).
  assert (Ea : after sl_sorted sl_jsorted ops = sl_s n0) by (unfold after; rewrite sl_initial; reflexivity).
  destruct (stale_inertia n1 m Eh La) as (I & Ei & Es).
  assert (Hi : is_inertia sl_R "base" sl_jsorted (massive sl_sorted) (sl_s n0) I).
  { rewrite <- Ea. eapply get_inertia_ok; eauto; [split; auto; apply HR | apply reached_has_com]. }
  pose proof (sl_inertia _ _ Hi) as Ev.
  exists sl_tinyxml, ex_text, sl_R, "base"%string, sl_sorted, sl_jsorted, ops, m, [n1]. eexists. exists I.
  split; [exact Hr|]. split; [reflexivity|]. split; [exact Es|]. rewrite Ea, sl_at. eexists. split.
  - exists [pose_clear; @mkPose RA (@V3 RA (@n1 RA) 0%R 0%R) q_clear]. split; [|reflexivity].
    unfold massive, sl_sorted. cbn [flat_map snd fst app]. constructor; [apply sl_base|]. constructor; [apply sl_car | constructor].
  - intros I2 H2 ->. rewrite (sl_inertia _ _ H2) in Ev. rnumin Ev. lra.
Qed.
Print Assumptions C24_compute_inertia_refuted.

(** C24, the part that holds: on a cleared cache, after any history; and the call returns. *)
Theorem C24_compute_inertia_cleared_partial :
  forall (A : Arith) tinyxml text R root sorted jsorted ops m,
    reached tinyxml text R root sorted jsorted ops m ->
    let s := after sorted jsorted ops in
    forall q jids,
      (forall m' I, (clear_cache ;;; compute_total_inertia_matrix q jids) m = (m', Ok I) ->
         is_inertia R root jsorted (massive sorted) (at_waypoint jids false q s) I) /\
      ((forall k, In k jids -> (k < length (get_joint_names m))%nat) -> (length jids <= length q)%nat ->
       (forall n d, levels (r_joints R) root (as_added s) n d -> (d <= length (r_links R))%nat) ->
       exists m' I, compute_total_inertia_matrix q jids m = (m', Ok I)).
Proof.
  intros A tinyxml text R root sorted jsorted ops m Hr s q jids.
  destruct (reached_Rep _ _ _ _ _ _ _ _ Hr) as [HR _]. fold s in HR. split.
  - intros m' I X. apply bind_inv_ok in X. destruct X as (mc & [] & X0 & X). unfold clear_cache in X0. rewrite bind_get in X0. inversion X0; subst mc. clear X0.
    pose proof (Rep_clear _ _ _ _ _ _ _ _ HR) as HRc. set (mc := set_tcache (cache_clear (tcache m)) m) in *.
    unfold compute_total_inertia_matrix in X. apply bind_inv_ok in X. destruct X as (m1 & [] & X1 & X).
    assert (Gt : goto_waypoint jids q false false mc = (m1, Ok tt)) by (unfold goto_waypoint; rewrite (bind_ok _ _ _ _ _ X1); reflexivity).
    destruct (goto_Rep _ _ _ _ _ _ jids q false false s mc m1 HRc Gt) as [R1 _].
    destruct (goto_ok _ _ _ _ _ _ Gt) as (E1 & _). cbn [orb] in E1.
    assert (G1 : Good m1).
    { split; [apply R1|]. apply CacheOK_cleared; [apply R1|]. intros i L. subst m1. apply get_cache_blank; [apply (wf_cache m (rep_wf _ _ _ _ _ _ _ _ HR))|].
      rewrite (proj2 (wf_cache m (rep_wf _ _ _ _ _ _ _ _ HR))). exact L. }
    eapply get_inertia_ok; eauto. apply has_com_waypoint. apply reached_has_com.
  - intros Hk Hq Hl. destruct (reached_fitted _ _ _ _ _ _ _ _ Hr) as [F Ls]. rewrite (rep_joint_count _ _ _ _ _ _ _ _ HR) in Hk.
    destruct (inertia_total R root sorted jsorted (massive sorted) (mass_sum (massive sorted)) (as_added s)) with (q := q) (jids := jids) (m := m) as (m' & I & E & _); auto.
    { intros n d H. rewrite Ls. eapply Hl; eauto. }
    exists m', I. exact E.
Qed.
Print Assumptions C24_compute_inertia_cleared_partial.
Example C24_example : exists m, reached ex_tinyxml ex_text ex_R "base" ex_sorted ex_jsorted ex_stale m /\
  exists m' I, (clear_cache ;;; compute_total_inertia_matrix [n1; n2] [0; 1]%nat) m = (m', Ok I).
Proof.
  assert (X : exists m, run ex_stale ex_m0 = Some m) by (apply is_some_ex; vm_compute; reflexivity).
  destruct X as (m & E). exists m. split; [exact (ex_reached _ _ E)|].
  apply (observe_answer ex_stale (clear_cache ;;; compute_total_inertia_matrix [n1; n2] [0; 1]%nat) m E). vm_compute. reflexivity.
Qed.

(** C56.  With a base in the waypoints, after any history: row [a] of solve_com_fk is
    (M com + sum f_k p_k) / (M + sum f_k). *)
Theorem C56_com_with_forces :
  forall tinyxml text R root sorted jsorted ops m,
    @reached RA tinyxml text R root sorted jsorted ops m ->
    forall qs jids actions forces wj m' P J a q, (forall k, In k jids -> (k < length (get_joint_names m))%nat) ->
      solve_com_forward_kinematics qs jids actions forces true wj m = (m', Ok (P, J)) -> nth_error qs a = Some q ->
      let s' := at_waypoint jids true q (after sorted jsorted ops) in
      exists W ps, bodies R root jsorted s' W /\
        Forall2 (fun e p => exists n, nth_error (get_link_names m) e = Some n /\ pose_at R root jsorted s' n p) actions ps /\
        let M := mass_of W in let fs := combine forces ps in let F := rsum fst fs in
        (M <> 0 -> M + F <> 0 ->
         nth_error P a = Some [ (rsum (fun w => bmass w * vx (bpoint w)) W + rsum (fun fp => fst fp * vx (position (snd fp))) fs) / (M + F);
                                (rsum (fun w => bmass w * vy (bpoint w)) W + rsum (fun fp => fst fp * vy (position (snd fp))) fs) / (M + F);
                                (rsum (fun w => bmass w * vz (bpoint w)) W + rsum (fun fp => fst fp * vz (position (snd fp))) fs) / (M + F)]).
Proof.
  intros tinyxml text R root sorted jsorted ops m Hr qs jids actions forces wj m' P J a q Hk X Eq s'.
  destruct (C20_solve_com_fk_with_base_partial _ _ _ _ _ _ _ _ _ Hr qs jids actions forces wj Hk) as [Y _].
  destruct (Y m' P J X) as (_ & Z). destruct (Z a q Eq) as ((com & ps & Hc & Hp & Er) & _). fold s' in Hc, Hp.
  pose proof (ord_links _ _ _ (proj1 (proj2 Hr))) as HP.
  destruct (is_com_centre R root sorted jsorted s' com HP Hc) as (W & HW & EW). exists W, ps. split; [exact HW|]. split; [exact Hp|]. cbv zeta. intros NM NF.
  cbv zeta in Er. rewrite Er. f_equal.
  rewrite mass_sum_rsum, (rsum_perm _ _ _ (massive_perm _ _ HP)), <- (bodies_mass _ _ _ _ _ HW), EW.
  assert (C1 : forall (l : list Rdefinitions.R) (ps : list (@Pose RA)), combine l (map position ps) = map (fun x => (fst x, position (snd x))) (combine l ps)).
  { induction l as [|f l IH]; intros [|p ps']; simpl; auto. f_equal. apply IH. }
  assert (C2 : rsum fst (combine forces (map position ps)) = rsum fst (combine forces ps)) by (rewrite C1, rsum_map; reflexivity).
  rewrite forced_point_real; auto; [|rewrite C2; exact NF]. cbn [vx vy vz]. rewrite C2, C1, !rsum_map. cbn [fst snd].
  unfold centre_of, vdiv, first_moment. cbn [vx vy vz].
  assert (F : forall x : Rdefinitions.R, mass_of W * (x / mass_of W) = x) by (intros; field; auto). rewrite !F. reflexivity.
Qed.
Print Assumptions C56_com_with_forces.
(** C20_example meets the hypotheses, with one action link and one force. *)
