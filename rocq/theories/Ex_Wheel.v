(** A fifth concrete robot: two links of mass 1, the second turning about z without any
    offset. *)
From Coq Require Import QArith String List Arith Permutation Sorted Reals Lra Lia.
From Verif Require Import Base Num Pose DataStructure Urdf Kin Wrapper Spec_Robot Spec_Hist Spec_Load Decimal RealArith Pf_Reach Ex_Robot
  Spec_Jac Spec_Mass Spec_Rot Pf_Pose Pf_Real Pf_Rot Pf_Unit.
Import ListNotations.
Local Open Scope string_scope.

Definition wh_mass : xml :=
  el "inertial" [] [el "mass" [("value", "1")] [];
                    el "inertia" [("ixx", "1"); ("ixy", "0"); ("ixz", "0"); ("iyy", "1"); ("iyz", "0"); ("izz", "1")] []].
Definition wh_kids : list xml :=
  [ el "link" [("name", "base")] [wh_mass]; el "link" [("name", "hand")] [wh_mass];
    el "joint" [("name", "j"); ("type", "revolute")]
      [el "parent" [("link", "base")] []; el "child" [("link", "hand")] []; el "axis" [("xyz", "0 0 1")] [];
       el "limit" [("lower", "-1"); ("upper", "1"); ("effort", "1"); ("velocity", "1")] []] ].
Definition wh_top : list xml := [el "robot" [("name", "wheel")] wh_kids].
Definition wh_tinyxml : string -> option (list xml) := fun _ => Some wh_top.
Definition wh_R : Robot := match robot_of_kids wh_kids with Some r => r | None => mkRobot [] [] end.
Definition wh_j : UJoint := nth 0 (r_joints wh_R) dummy_joint.
Lemma wh_links : link_names wh_R = ["base"; "hand"]. Proof. reflexivity. Qed.
Lemma wh_joints : r_joints wh_R = [wh_j]. Proof. reflexivity. Qed.
Lemma wh_child : uj_child wh_j = "hand". Proof. reflexivity. Qed.
Lemma wh_parent : uj_parent wh_j = "base". Proof. reflexivity. Qed.
Lemma wh_type : uj_type wh_j = REVOLUTE. Proof. reflexivity. Qed.
Lemma wh_name : uj_name wh_j = "j". Proof. reflexivity. Qed.
Lemma wh_axis : uj_axis wh_j = V3 n0 n0 n1. Proof. reflexivity. Qed.
Lemma wh_origin : uj_origin wh_j = pose_clear. Proof. reflexivity. Qed.
Global Opaque wh_j.

Lemma wh_in j : In j (r_joints wh_R) -> j = wh_j.
Proof. rewrite wh_joints. intros [<-|[]]; auto. Qed.

Lemma wh_tree : is_tree wh_R "base".
Proof.
  constructor.
  - rewrite wh_links. nodup.
  - rewrite wh_joints. repeat constructor. simpl; tauto.
  - intros j I. rewrite wh_links, (wh_in j I), wh_parent, wh_child. simpl; auto.
  - rewrite wh_links. simpl; auto.
  - intros j I. rewrite (wh_in j I), wh_child. discriminate.
  - rewrite wh_joints. repeat constructor. simpl; tauto.
  - intros n I. rewrite wh_links in I. destruct I as [<-|[<-|[]]]; [constructor|].
    rewrite <- wh_child. apply (conn_joint _ _ wh_j); [rewrite wh_joints; left; reflexivity|]. rewrite wh_parent. constructor.
Qed.

Lemma wh_describes : describes wh_top wh_R.
Proof. exists (el "robot" [("name", "wheel")] wh_kids), "wheel". repeat split; reflexivity. Qed.

Lemma wh_loadable : loadable wh_tinyxml ex_text wh_R "base".
Proof.
  constructor.
  - discriminate.
  - exists wh_top. split; [reflexivity | exact wh_describes].
  - exact wh_tree.
  - intros j I. rewrite (wh_in j I), wh_parent, wh_child; split; discriminate.
  - intros j I. rewrite (wh_in j I), wh_type. left. left. reflexivity.
  - intros n i I. rewrite wh_links. apply (in_map fst) in I.
    change (map fst (r_links wh_R)) with (link_names wh_R) in I. rewrite wh_links in I. cbn [fst] in I.
    destruct I as [<-|[<-|[]]]; simpl; intuition discriminate.
Qed.

Definition wh_i : Inertial := mkInertial pose_clear n1 n1 n0 n0 n1 n0 n1.
Lemma wh_links_are : r_links wh_R = [("base", Some wh_i); ("hand", Some wh_i)].
Proof. reflexivity. Qed.
Lemma wh_i_mass : in_mass wh_i = n1. Proof. reflexivity. Qed.
Lemma wh_i_origin : in_origin wh_i = pose_clear. Proof. reflexivity. Qed.
Lemma wh_i_tensor : [ixx wh_i; ixy wh_i; ixz wh_i; iyy wh_i; iyz wh_i; izz wh_i] = [n1; n0; n0; n1; n0; n1]. Proof. reflexivity. Qed.
Global Opaque wh_i.
Definition wh_sorted : list (string * option Inertial) := [("base", Some wh_i); ("hand", Some wh_i)].
Definition wh_jsorted := [wh_j].
Lemma wh_ordered : ordered wh_R wh_sorted wh_jsorted.
Proof.
  constructor.
  - rewrite wh_links_are. apply Permutation_refl.
  - repeat constructor.
  - intros j. split.
    + intros [<-|[]]. split; [rewrite wh_joints; left; reflexivity|]. rewrite wh_type. left. reflexivity.
    + intros (I & _). left. symmetry. now apply wh_in.
  - repeat constructor.
Qed.

Definition wh_m0 : KM := match ctor wh_tinyxml ex_text with Ok m => m | _ => ex_m0 end.
Lemma wh_ctor : ctor wh_tinyxml ex_text = Ok wh_m0.
Proof. destruct (load_ok _ _ _ _ _ _ wh_loadable wh_ordered) as (m0 & E & _). unfold wh_m0. now rewrite E. Qed.
Lemma wh_reached ops m : run ops wh_m0 = Some m -> reached wh_tinyxml ex_text wh_R "base" wh_sorted wh_jsorted ops m.
Proof. intros E. split; [exact wh_loadable|]. split; [exact wh_ordered|]. exists wh_m0. split; [exact wh_ctor | exact E]. Qed.

(** the state at displacement [a]: nothing added, base at the origin *)
Definition wh_s (a : num) : AState :=
  mkAS [("base_com", "base", pose_clear); ("hand_com", "hand", pose_clear)] [a] pose_clear.
Lemma wh_initial : initial wh_sorted wh_jsorted = wh_s n0.
Proof. unfold initial, wh_s, com_links, wh_sorted, wh_jsorted. cbn [flat_map snd fst app length repeat map]. rewrite !wh_i_origin. reflexivity. Qed.
Lemma wh_at a b : at_waypoint [0]%nat false [b] (wh_s a) = wh_s b.
Proof. reflexivity. Qed.
Lemma wh_goto b : exists m, run [Op_set_joint_angles [0]%nat [b]] wh_m0 = Some m /\ after wh_sorted wh_jsorted [Op_set_joint_angles [0]%nat [b]] = wh_s b.
Proof.
  assert (X : exists m, run [Op_set_joint_angles [0]%nat [b]] wh_m0 = Some m) by (apply is_some_ex; vm_compute; reflexivity).
  destruct X as (m & E). exists m. split; [exact E|]. unfold after. rewrite wh_initial. reflexivity.
Qed.
Lemma wh_det a n P P' : pose_at wh_R "base" wh_jsorted (wh_s a) n P -> pose_at wh_R "base" wh_jsorted (wh_s a) n P' -> P = P'.
Proof.
  destruct (wh_goto a) as (m & E & Ea). destruct (reached_Rep _ _ _ _ _ _ _ _ (wh_reached _ _ E)) as [HR _]. rewrite Ea in HR.
  apply (rep_pose_det _ _ _ _ _ _ _ _ HR).
Qed.

Local Open Scope R_scope.
Lemma wh_angle (a : R) : by_name (jnames wh_jsorted) (as_angles (wh_s a)) (uj_name wh_j) = a.
Proof. unfold jnames, wh_jsorted, wh_s, by_name. cbn [map as_angles]. rewrite wh_name. reflexivity. Qed.
Lemma wh_arm (a : R) : pose_at wh_R "base" wh_jsorted (wh_s a) "hand" (mkPose v_clear (axis_q (@V3 RA 0 0 1) a)).
Proof.
  assert (E : motion wh_j a = mkPose v_clear (axis_q (@V3 RA 0 0 1) a)).
  { rewrite motion_is, wh_type, wh_origin, pt_1l, wh_axis. f_equal. f_equal. apply v_eq; proj; rnum; reflexivity. }
  unfold pose_at. rewrite <- (pt_1l (mkPose _ _)), <- E, <- wh_child. rewrite <- (wh_angle a) at 3.
  apply fk_joint; [rewrite wh_joints; left; reflexivity|]. rewrite wh_parent. apply fk_root.
Qed.
Lemma wh_unit : unit_axes wh_R.
Proof. intros j I _. rewrite (wh_in j I), wh_axis. unfold unit_vector. cbn [vx vy vz]. rnum. ring. Qed.

(** running a query after a history, without computing on the reals *)
Lemma answer_at {B} m0 ops (f : M (@KM RA) B) m : run ops m0 = Some m ->
  is_some (match run ops m0 with Some m => answer (f m) | None => None end) = true -> exists m' b, f m = (m', Ok b).
Proof. intros E O. rewrite E in O. apply is_some_ex in O. destruct O as (b & O). destruct (answer_ok _ _ O) as (m' & Y). eauto. Qed.
