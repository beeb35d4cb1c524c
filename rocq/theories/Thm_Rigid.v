(** C103, C104: the centre of mass and the inertia follow the base; the centre of mass lies
    among the bodies. *)
From Coq Require Import QArith String List Arith Lia Bool Permutation Reals Lra.
From Verif Require Import Base Num Pose DataStructure Urdf Kin Wrapper Spec_Robot Spec_Hist Spec_Load Spec_Jac Spec_Mass Spec_Rot Spec_Body
  RealArith Pf_Base Pf_Data Inv Pf_FK Pf_Frame Pf_Rp Rep Pf_Ops Pf_Name Pf_Reach Pf_Jac Pf_Safe Pf_Pose Pf_Local Pf_Hist Pf_Wrap Pf_Mass Pf_Wrap2 Pf_Total
  Pf_Stale Pf_Real Pf_Rot Pf_Unit Pf_Rpy Pf_Body Pf_Rigid Ex_Robot Ex_Slider Ex_Disc Thm_Fk Thm_Real Thm_Mass Thm_Deriv.
Import ListNotations.
Local Open Scope m_scope.
Local Open Scope R_scope.

(** the bodies of a state are determined *)
Lemma bodies_det tinyxml text R root sorted jsorted ops m W W' : @reached RA tinyxml text R root sorted jsorted ops m ->
  bodies R root jsorted (after sorted jsorted ops) W -> bodies R root jsorted (after sorted jsorted ops) W' -> W' = W.
Proof.
  intros Hr HW HW2. destruct (reached_Rep _ _ _ _ _ _ _ _ Hr) as [HR _].
  pose proof (rep_pose_det _ _ _ _ _ _ _ _ HR) as D. clear - HW HW2 D. unfold bodies in *. revert W' HW2.
  induction HW as [|ni w ms W [E1 E2] F IH]; intros W2 HW2; inversion HW2 as [|? w2 ? W3 [E3 E4] F3]; subst; auto. f_equal; auto.
  destruct w, w2; cbn [fst snd] in *. subst. f_equal. exact (D _ _ _ E4 E2).
Qed.
Lemma bodies_mass tinyxml text R root sorted jsorted ops m s W : @reached RA tinyxml text R root sorted jsorted ops m ->
  bodies R root jsorted s W -> total_mass m = mass_of W.
Proof.
  intros Hr HW. destruct (reached_Rep _ _ _ _ _ _ _ _ Hr) as [HR _].
  destruct Hr as (_ & O & _). rewrite (rep_mass _ _ _ _ _ _ _ _ HR), mass_sum_rsum, (rsum_perm _ _ _ (massive_perm _ _ (ord_links _ _ _ O))).
  unfold bodies, mass_of, rsum in *. clear - HW. induction HW as [|ni w ms W [E1 E2] F IH]; [reflexivity|]. cbn [fold_right]. rewrite IH. unfold bmass. now rewrite E1.
Qed.
Lemma com_bodies tinyxml text R root sorted jsorted ops m m' c : @reached RA tinyxml text R root sorted jsorted ops m -> clean ops = true ->
  get_com m = (m', Ok c) -> exists W, bodies R root jsorted (after sorted jsorted ops) W /\ c = centre_of W.
Proof.
  intros Hr Hc X. destruct (reached_Rep _ _ _ _ _ _ _ _ Hr) as [HR HC]. specialize (HC Hc). assert (G : Good m) by (split; auto; apply HR).
  pose proof (get_com_ok _ _ _ _ _ _ _ _ _ _ HR G (reached_has_com _ _ _) X) as H.
  destruct Hr as (_ & O & _). exact (is_com_centre R root sorted jsorted _ c (ord_links _ _ _ O) H).
Qed.

(** C103.  After any history, whatever the cache holds: [c0], [I0] the answers with the base at the
    origin, [c], [I] those with the base at [B], of rotation matrix Q and position t;
    then c = Q c0 + t and I = Q I0 Q^T. *)
Theorem C103_base_moves_mass_rigidly :
  forall tinyxml text R root sorted jsorted ops m,
    @reached RA tinyxml text R root sorted jsorted ops m -> unit_axes R -> total_mass m <> 0 ->
    forall B : Pose, unit_quaternion (rotation B) ->
    let Q := quat_mat (rotation B) in
    forall m0 m1, set_base_pose pose_clear m = (m0, Ok tt) -> set_base_pose B m = (m1, Ok tt) ->
    (forall m0' m1' c0 c, get_com m0 = (m0', Ok c0) -> get_com m1 = (m1', Ok c) -> c = v_add (mvec Q c0) (position B)) /\
    (forall m0' m1' I0 I, get_total_inertia_matrix m0 = (m0', Ok I0) -> get_total_inertia_matrix m1 = (m1', Ok I) ->
       exists T, I0 = mrows T /\ I = mrows (mmul (mmul Q T) (mtr Q))).
Proof.
  intros tinyxml text R root sorted jsorted ops m Hr Hu M0 B HB Q m0 m1 E0 E1. apply unit_quaternion_q in HB.
  assert (Hr0 : reached tinyxml text R root sorted jsorted (ops ++ [Op_set_base_pose pose_clear]) m0)
    by (apply (reached_run _ _ _ _ _ _ _ _ _ _ Hr); cbn [run exec]; rewrite E0; reflexivity).
  assert (Hr1 : reached tinyxml text R root sorted jsorted (ops ++ [Op_set_base_pose B]) m1)
    by (apply (reached_run _ _ _ _ _ _ _ _ _ _ Hr); cbn [run exec]; rewrite E1; reflexivity).
  assert (C : forall p, clean (ops ++ [Op_set_base_pose p]) = true) by (intros p; unfold clean; rewrite fold_left_app; reflexivity).
  assert (K : forall W0, bodies R root jsorted (after sorted jsorted (ops ++ [Op_set_base_pose pose_clear])) W0 ->
    bodies R root jsorted (after sorted jsorted (ops ++ [Op_set_base_pose B])) (map (move_body B) W0) /\ (forall w, In w W0 -> unit_q (rotation (snd w))) /\ mass_of W0 <> 0).
  { intros W0 H0. assert (MW : mass_of W0 <> 0) by (rewrite <- (bodies_mass _ _ _ _ _ _ _ _ _ _ Hr H0); exact M0).
    rewrite after_app in H0 |- *. unfold abs_run in *. cbn [fold_left abs_step] in *.
    destruct (bodies_moved R root jsorted (after sorted jsorted ops) B W0 (loaded_axes_ok _ _ _ _ (proj1 Hr) Hu) (after_ok sorted jsorted ops) HB H0) as [K1 K2]. auto. }
  split.
  - intros m0' m1' c0 c X0 X1. destruct (com_bodies _ _ _ _ _ _ _ _ _ _ Hr0 (C _) X0) as (W0 & H0 & ->). destruct (com_bodies _ _ _ _ _ _ _ _ _ _ Hr1 (C _) X1) as (W1 & H1 & ->).
    destruct (K W0 H0) as (K1 & K2 & K3). rewrite (bodies_det _ _ _ _ _ _ _ _ _ _ Hr1 K1 H1). exact (move_centre B HB W0 K2 K3).
  - intros m0' m1' I0 I X0 X1. destruct (C22_inertia_is_parallel_axis_sum _ _ _ _ _ _ _ _ Hr0 (C _) _ _ X0) as (W0 & T0 & H0 & -> & -> & _).
    destruct (C22_inertia_is_parallel_axis_sum _ _ _ _ _ _ _ _ Hr1 (C _) _ _ X1) as (W1 & T1 & H1 & -> & -> & _).
    destruct (K W0 H0) as (K1 & K2 & K3). eexists. split; [reflexivity|]. rewrite (bodies_det _ _ _ _ _ _ _ _ _ _ Hr1 K1 H1).
    now rewrite (move_total B HB W0 K2 K3).
Qed.
Print Assumptions C103_base_moves_mass_rigidly.

(** C104.  Whatever half-space contains every body with mass contains the centre of mass. *)
Theorem C104_centre_of_mass_is_among_bodies :
  forall tinyxml text R root sorted jsorted ops m,
    @reached RA tinyxml text R root sorted jsorted ops m -> clean ops = true -> 0 < total_mass m ->
    forall m' c, get_com m = (m', Ok c) ->
    exists W, bodies R root jsorted (after sorted jsorted ops) W /\
      ((forall w, In w W -> 0 <= bmass w) ->
       forall (a : @Vector3 RA) b, (forall w, In w W -> 0 < bmass w -> vdot a (bpoint w) <= b) -> vdot a c <= b).
Proof.
  intros tinyxml text R root sorted jsorted ops m Hr Hc M0 m' c X. destruct (com_bodies _ _ _ _ _ _ _ _ _ _ Hr Hc X) as (W & HW & ->). exists W. split; [exact HW|].
  rewrite (bodies_mass _ _ _ _ _ _ _ _ _ _ Hr HW) in M0. intros Hp a b Hb. now apply centre_half_space.
Qed.
Print Assumptions C104_centre_of_mass_is_among_bodies.

(** on the slider: two bodies of mass 1, the base moved and turned by 1 rad about x *)
Definition rg_base : @Pose RA := @mkPose RA (@V3 RA n1 n2 n0) (setFromRPY n1 n0 n0).
Lemma sl_total ops m : reached sl_tinyxml ex_text sl_R "base" sl_sorted sl_jsorted ops m -> total_mass m = 2.
Proof.
  intros Hr. destruct (reached_Rep _ _ _ _ _ _ _ _ Hr) as [HR _]. rewrite (rep_mass _ _ _ _ _ _ _ _ HR), mass_sum_rsum.
  unfold massive, sl_sorted, rsum. cbn [flat_map fst snd app fold_right]. rewrite sl_i_mass. rnum. ring.
Qed.
Lemma sl_set B : is_some (match run [Op_set_joint_angles [0]%nat [@n1 RA]; Op_set_base_pose B] sl_m0 with Some m => answer (get_com m) | None => None end) = true ->
  is_some (match run [Op_set_joint_angles [0]%nat [@n1 RA]; Op_set_base_pose B] sl_m0 with Some m => answer (get_total_inertia_matrix m) | None => None end) = true ->
  forall m, run [Op_set_joint_angles [0]%nat [@n1 RA]] sl_m0 = Some m ->
  exists m1, set_base_pose B m = (m1, Ok tt) /\ (exists m' c, get_com m1 = (m', Ok c)) /\ (exists m' I, get_total_inertia_matrix m1 = (m', Ok I)).
Proof.
  intros H1 H2 m E. change [Op_set_joint_angles [0]%nat [@n1 RA]; Op_set_base_pose B] with ([Op_set_joint_angles [0]%nat [@n1 RA]] ++ [Op_set_base_pose B])%list in *.
  rewrite run_app, E in H1, H2. cbn [run exec] in H1, H2. unfold set_base_pose in *. rewrite bind_get in *. eexists. split; [reflexivity|]. split.
  - apply is_some_ex in H1. destruct H1 as (c & H1). apply answer_ok in H1. destruct H1 as (m' & H1). eauto.
  - apply is_some_ex in H2. destruct H2 as (c & H2). apply answer_ok in H2. destruct H2 as (m' & H2). eauto.
Qed.
Example C103_example : exists m, reached sl_tinyxml ex_text sl_R "base" sl_sorted sl_jsorted [Op_set_joint_angles [0]%nat [n1]] m /\
  unit_axes sl_R /\ total_mass m = 2 /\ unit_quaternion (rotation rg_base) /\
  forall B, B = pose_clear \/ B = rg_base ->
  exists m1, set_base_pose B m = (m1, Ok tt) /\ (exists m' c, get_com m1 = (m', Ok c)) /\ (exists m' I, get_total_inertia_matrix m1 = (m', Ok I)).
Proof.
  destruct (sl_goto n1) as (m & E & _). exists m. split; [exact (sl_reached _ _ E)|]. split; [exact sl_unit|]. split; [exact (sl_total _ _ (sl_reached _ _ E))|].
  split; [apply unit_quaternion_q; apply (rpy_unit n1 n0 n0)|]. intros B [-> | ->]; apply sl_set; try exact E; vm_compute; reflexivity.
Qed.
Example C104_example : exists m m' c, reached sl_tinyxml ex_text sl_R "base" sl_sorted sl_jsorted [Op_set_joint_angles [0]%nat [n1]] m /\
  get_com m = (m', Ok c) /\ 0 < total_mass m /\
  forall W, bodies sl_R "base" sl_jsorted (after sl_sorted sl_jsorted [Op_set_joint_angles [0]%nat [n1]]) W -> forall w, In w W -> 0 <= bmass w.
Proof.
  destruct C18_example as (m & m' & c & Hr & X & _). exists m, m', c. split; [exact Hr|]. split; [exact X|]. split.
  - rewrite (sl_total _ _ Hr). lra.
  - intros W HW w I. unfold bodies in HW. destruct (Forall2_in_r _ _ _ _ HW I) as (ni & In' & Ew & _). unfold bmass. rewrite Ew.
    unfold massive in In'. rewrite sl_links_are in In'. cbn [flat_map fst snd app] in In'. destruct In' as [<-|[<-|[]]]; cbn [snd]; rewrite sl_i_mass; rnum; lra.
Qed.
