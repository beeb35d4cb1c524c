(** Over the reals, the rotations met along a kinematic chain are unit (or at least
    non-zero) quaternions; consequences. *)
From Coq Require Import String List Arith Lia Bool Permutation Reals Lra.
From Verif Require Import Base Num Pose DataStructure Urdf Kin Wrapper RealArith Spec_Robot Spec_Hist Spec_Load Spec_Rot
  Pf_Base Pf_Data Pf_Urdf Pf_Hist Pf_Real Pf_Rot.
Import ListNotations.
Local Open Scope R_scope.

(** ** parsed origins *)
Definition rpy_pose (P : pose) : Prop := exists r p y : R, rotation P = setFromRPY r p y.
Lemma rpy_pose_clear : rpy_pose pose_clear.
Proof. exists 0, 0, 0. symmetry. apply rpy_0. Qed.
Lemma rpy_pose_at v : rpy_pose (mkPose v q_clear).
Proof. exists 0, 0, 0. symmetry. apply rpy_0. Qed.
Lemma parsePose_rpy x : rpy_pose (snd (@parsePose RA x)).
Proof.
  unfold parsePose, q_init. destruct (attribute "xyz" x) as [s|]; [destruct (v_init s) as [p|]|]; [| |];
    try (destruct (attribute "rpy" x) as [r|]; [destruct (v_init r) as [v|]|]); cbn [snd]; try apply rpy_pose_at; try apply rpy_pose_clear;
    eexists; eexists; eexists; reflexivity.
Qed.
Lemma parseJoint_rpy x (j : @UJoint RA) : parseJoint x = Some j -> rpy_pose (uj_origin j).
Proof.
  unfold parseJoint. destruct (attribute "name" x); [|discriminate]. destruct (parse_joint_origin x) as [o|] eqn:Eo; [|discriminate].
  destruct (attribute "type" x) as [ts|]; [|discriminate]. destruct (joint_type_of_string ts); [|discriminate]. destruct (parse_axis _ x); [|discriminate].
  destruct (parse_limit _ x); [|discriminate]. destruct (opt_child_ok "safety_controller" _ x); [|discriminate]. destruct (opt_child_ok "calibration" _ x); [|discriminate].
  cbn [negb]. destruct (parse_mimic x); [|discriminate]. destruct (opt_child_ok "dynamics" _ x); [|discriminate]. intros E. cbn [negb] in E. inversion E; subst. cbn [uj_origin].
  unfold parse_joint_origin in Eo. destruct (first_child "origin" x) as [e|]; [|inversion Eo; apply rpy_pose_clear].
  pose proof (parsePose_rpy e) as X. destruct (parsePose e) as [ok p]. destruct ok; [|discriminate]. inversion Eo; subst. exact X.
Qed.
Lemma all_joints_parsed (l : list xml) : forall (js : list (@UJoint RA)) j, all_joints l = Some js -> In j js -> exists x, In x l /\ parseJoint x = Some j.
Proof.
  induction l as [|x l IH]; intros js j E I; simpl in E; [inversion E; subst; easy|].
  destruct (parseJoint x) as [j0|] eqn:Ex; [|discriminate]. destruct (all_joints l) as [js0|]; [|discriminate]. inversion E; subst.
  destruct I as [<-|I]; [exists x; simpl; auto|]. destruct (IH js0 j eq_refl I) as (x' & I' & E'). exists x'. simpl. auto.
Qed.
Lemma described_joints top (R : @Robot RA) j : describes top R -> In j (r_joints R) -> exists x, parseJoint x = Some j.
Proof.
  intros (robot & name & _ & _ & _ & _ & E) I. unfold robot_of_kids in E. destruct (all_joints (children "joint" (x_kids robot))) as [js|] eqn:Ej; [|discriminate].
  simpl in E. inversion E; subst. destruct (all_joints_parsed _ _ _ Ej I) as (x & _ & X). eauto.
Qed.

Lemma rpy_pose_unit P : rpy_pose P -> unit_q (rotation P).
Proof. intros (r & p & y & ->). apply rpy_unit. Qed.

(** ** links attached later *)
Definition added_ok (a : @Added RA) : Prop := forall n p T, In (n, p, T) a -> rpy_pose T.
Lemma com_links_ok sorted : added_ok (com_links sorted).
Proof.
  intros n p T I. unfold com_links in I. apply in_flat_map in I. destruct I as ([n' [i|]] & I & H); cbn [fst snd] in H; [|easy].
  destruct H as [H|[]]. inversion H; subst. apply rpy_pose_at.
Qed.
Lemma fold_way_added jids wb qs : forall s : @AState RA, as_added (fold_left (fun s q => at_waypoint jids wb q s) qs s) = as_added s.
Proof. induction qs as [|q qs IH]; intros s; simpl; auto. rewrite IH. reflexivity. Qed.
Lemma abs_step_ok names o (s : @AState RA) : added_ok (as_added s) -> added_ok (as_added (abs_step names o s)).
Proof.
  intros H. destruct o; cbn [abs_step]; try exact H.
  - destruct (Nat.eqb (length v) 6); exact H.
  - destruct (existsb _ _); [exact H|]. cbn [as_added]. intros n p T I. apply in_app_or in I. destruct I as [I|[I|[]]]; [eapply H; eauto|].
    inversion I; subst. eexists; eexists; eexists; reflexivity.
  - destruct with_base; [destruct qs as [|q0 qs]; [exact H|destruct (_ || _)%bool; [exact H|]]|]; rewrite fold_way_added; exact H.
  - rewrite fold_way_added. exact H.
  - rewrite fold_way_added. exact H.
Qed.
Lemma after_ok sorted jsorted ops : added_ok (as_added (@after RA sorted jsorted ops)).
Proof.
  unfold after, abs_run. assert (X : added_ok (as_added (initial sorted jsorted))) by apply com_links_ok.
  revert X. generalize (initial sorted jsorted) as s. induction ops as [|o ops IH]; intros s X; simpl; auto. apply IH. now apply abs_step_ok.
Qed.

(** ** motions *)
Lemma half_mul (a : R) : a * (1 / 2) = a / 2. Proof. field. Qed.
Lemma motion_is (j : @UJoint RA) (a : R) : motion j a = match uj_type j with
  | REVOLUTE | CONTINUOUS => pose_transform (uj_origin j) (mkPose v_clear (axis_q (uj_axis j) a))
  | PRISMATIC => pose_transform (uj_origin j) (mkPose (@V3 RA (vx (uj_axis j) * a) (vy (uj_axis j) * a) (vz (uj_axis j) * a)) q_clear)
  | _ => uj_origin j
  end.
Proof. unfold motion, axis_q. rnum. rewrite half_mul. destruct (uj_type j); reflexivity. Qed.

Definition axes_ok (js : list (@UJoint RA)) : Prop :=
  forall j, In j js -> rpy_pose (uj_origin j) /\ (uj_type j = REVOLUTE \/ uj_type j = CONTINUOUS -> unit_vector (uj_axis j)).
Lemma motion_unit js j a : axes_ok js -> In j js -> unit_q (rotation (motion j a)).
Proof.
  intros H I. destruct (H j I) as [Ho Ha]. apply rpy_pose_unit in Ho. rewrite motion_is.
  destruct (uj_type j); auto; cbn [pose_transform rotation]; apply unit_mul; auto using unit_clear, axis_q_unit.
Qed.
Lemma fk_unit js root added q base n P : axes_ok js -> added_ok added -> unit_q (rotation base) -> fk js root added q base n P -> unit_q (rotation P).
Proof.
  intros Ha Hd Hb H. induction H as [|j P I H IH|n p T P I H IH]; auto; cbn [pose_transform rotation]; apply unit_mul; auto.
  - eapply motion_unit; eauto.
  - eapply rpy_pose_unit, Hd; eauto.
Qed.

(** non-zero axes are enough for non-zero quaternions *)
Definition nonzero_axes (js : list (@UJoint RA)) : Prop :=
  forall j, In j js -> rpy_pose (uj_origin j) /\
    (uj_type j = REVOLUTE \/ uj_type j = CONTINUOUS -> vx (uj_axis j) <> 0 \/ vy (uj_axis j) <> 0 \/ vz (uj_axis j) <> 0).
Lemma axes_ok_nonzero js : axes_ok js -> nonzero_axes js.
Proof.
  intros H j I. destruct (H j I) as [H1 H2]. split; auto. intros T. specialize (H2 T). unfold unit_vector in H2. rnumin H2. rnum.
  destruct (Req_dec (vx (uj_axis j)) 0) as [X|X]; auto. destruct (Req_dec (vy (uj_axis j)) 0) as [Y|Y]; auto. right. right. intros Z.
  rnumin H2. rewrite X, Y, Z in H2. lra.
Qed.
Lemma motion_pos js j a : nonzero_axes js -> In j js -> 0 < qn (rotation (motion j a)).
Proof.
  intros H I. destruct (H j I) as [Ho Ha]. apply rpy_pose_unit, unit_pos in Ho. rewrite motion_is.
  destruct (uj_type j); auto; cbn [pose_transform rotation]; rewrite qn_mul; apply Rmult_lt_0_compat; auto using qn_clear_pos, axis_q_pos.
Qed.
Lemma fk_pos js root added q base n P : nonzero_axes js -> added_ok added -> 0 < qn (rotation base) -> fk js root added q base n P -> 0 < qn (rotation P).
Proof.
  intros Ha Hd Hb H. induction H as [|j P I H IH|n p T P I H IH]; auto; cbn [pose_transform rotation]; rewrite qn_mul; apply Rmult_lt_0_compat; auto.
  - eapply motion_pos; eauto.
  - eapply unit_pos, rpy_pose_unit, Hd; eauto.
Qed.
(** moving the base moves every link *)
Lemma fk_base js root added q base n P : nonzero_axes js -> added_ok added -> 0 < qn (rotation base) -> fk js root added q pose_clear n P ->
  fk js root added q base n (pose_transform base P).
Proof.
  intros Ha Hd Hb H. induction H as [|j P I H IH|n p T P I H IH].
  - rewrite pt_1r. constructor.
  - rewrite <- pt_assoc; auto; [now constructor|]. apply (fk_pos js root added q pose_clear _ P Ha Hd qn_clear_pos H).
  - rewrite <- pt_assoc; auto; [eapply fk_added; eauto|]. apply (fk_pos js root added q pose_clear _ P Ha Hd qn_clear_pos H).
Qed.

(** ** homogeneous matrices *)
Lemma pose_hom_mul (a b : pose) : unit_q (rotation a) -> unit_q (rotation b) -> pose_hom (pose_transform a b) = hmul (pose_hom a) (pose_hom b).
Proof.
  intros Ha Hb. unfold pose_hom, hmul. cbn [pose_transform rotation position hrot htrans]. rewrite quat_mat_mul, quat_mat_rot by auto. reflexivity.
Qed.
Lemma hmul_1r a : hmul a (mkH mid (@V3 RA 0 0 0)) = a.
Proof.
  destruct a as [r t]. unfold hmul. cbn [hrot htrans]. rewrite mmul_1r. f_equal. unfold mvec, v_add. apply v_eq; cbn [vx vy vz]; rnum; ring.
Qed.
Lemma motion_hom js (j : @UJoint RA) (a : R) : axes_ok js -> In j js -> pose_hom (motion j a) = hmul (pose_hom (uj_origin j)) (joint_hom j a).
Proof.
  intros H I. destruct (H j I) as [Ho Ha]. apply rpy_pose_unit in Ho. rewrite motion_is. unfold joint_hom.
  destruct (uj_type j); try (rewrite hmul_1r; reflexivity).
  - rewrite pose_hom_mul; [|exact Ho|cbn [rotation]; auto using axis_q_unit]. unfold pose_hom at 2. cbn [rotation position]. rewrite axis_q_mat by auto. do 2 f_equal. unfold v_clear. apply v_eq; cbn [vx vy vz]; rnum; reflexivity.
  - rewrite pose_hom_mul; [|exact Ho|cbn [rotation]; auto using axis_q_unit]. unfold pose_hom at 2. cbn [rotation position]. rewrite axis_q_mat by auto. do 2 f_equal. unfold v_clear. apply v_eq; cbn [vx vy vz]; rnum; reflexivity.
  - rewrite pose_hom_mul; [|exact Ho|apply unit_clear]. unfold pose_hom at 2. cbn [rotation position]. rewrite quat_mat_clear. do 2 f_equal. apply v_eq; cbn [vx vy vz]; rnum; ring.
Qed.
Definition added_hom (a : @Added RA) : list (string * string * Hom) := map (fun x => (fst (fst x), snd (fst x), pose_hom (snd x))) a.
Lemma fk_hfk js root added q base n P : axes_ok js -> added_ok added -> unit_q (rotation base) -> fk js root added q base n P ->
  hfk js root (added_hom added) (fun j => pose_hom (uj_origin j)) q (pose_hom base) n (pose_hom P).
Proof.
  intros Ha Hd Hb H. induction H as [|j P I H IH|n p T P I H IH].
  - constructor.
  - rewrite pose_hom_mul; [|eapply fk_unit; eauto | eapply motion_unit; eauto]. rewrite (motion_hom js) by auto. now constructor.
  - rewrite pose_hom_mul; [|eapply fk_unit; eauto | eapply rpy_pose_unit, Hd; eauto]. apply hfk_added with p; auto.
    unfold added_hom. apply in_map_iff. exists (n, p, T). auto.
Qed.

(** ** for loaded robots *)
Lemma loaded_origins tinyxml text (R : @Robot RA) root j : loadable tinyxml text R root -> In j (r_joints R) -> rpy_pose (uj_origin j).
Proof.
  intros L I. destruct (ld_xml _ _ _ _ L) as (top & _ & D). destruct (described_joints top R j D I) as (x & E). eapply parseJoint_rpy; eauto.
Qed.
Lemma loaded_axes_ok tinyxml text (R : @Robot RA) root : loadable tinyxml text R root -> unit_axes R -> axes_ok (r_joints R).
Proof. intros L U j I. split; [eapply loaded_origins; eauto | now apply U]. Qed.

(** base poses: only set_base_pose can install a base that is not a unit quaternion *)
Definition unit_bases (ops : list (@op RA)) : Prop := forall p, In (Op_set_base_pose p) ops -> unit_quaternion (rotation p).
Lemma pose6_unit b : unit_q (rotation (@pose6 RA b)).
Proof. apply rpy_unit. Qed.
Lemma fold_way_base jids wb qs : forall s : @AState RA, unit_q (rotation (as_base s)) ->
  unit_q (rotation (as_base (fold_left (fun s q => at_waypoint jids wb q s) qs s))).
Proof. induction qs as [|q qs IH]; intros s H; simpl; auto. apply IH. destruct wb; cbn [at_waypoint as_base]; auto. apply pose6_unit. Qed.
Lemma abs_step_base names o (s : @AState RA) : unit_q (rotation (as_base s)) -> (forall p, o = Op_set_base_pose p -> unit_quaternion (rotation p)) ->
  unit_q (rotation (as_base (abs_step names o s))).
Proof.
  intros H U. destruct o; cbn [abs_step]; try exact H.
  - apply unit_quaternion_q, U. reflexivity.
  - destruct (Nat.eqb (length v) 6); [apply pose6_unit | exact H].
  - destruct (existsb _ _); exact H.
  - destruct with_base; [destruct qs as [|q0 qs]; [exact H|destruct (_ || _)%bool; [exact H|]]|]; apply fold_way_base; exact H.
  - apply fold_way_base; exact H.
  - apply fold_way_base; exact H.
Qed.
Lemma after_base_unit sorted jsorted ops : unit_bases ops -> unit_q (rotation (as_base (@after RA sorted jsorted ops))).
Proof.
  unfold after, abs_run. assert (X : unit_q (rotation (as_base (initial sorted jsorted)))) by apply unit_clear.
  revert X. generalize (initial sorted jsorted) as s. induction ops as [|o ops IH]; intros s X U; simpl; auto.
  apply IH; [apply abs_step_base; auto; intros p ->; apply U; simpl; auto | intros p I; apply U; simpl; auto].
Qed.
