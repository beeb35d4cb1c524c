(** A third concrete robot: two links of mass 1, the second sliding along x without any
    offset; its answers are simple enough to be computed by hand. *)
From Coq Require Import QArith String List Arith Permutation Sorted Reals Lra Lia.
From Verif Require Import Base Num Pose DataStructure Urdf Kin Wrapper Spec_Robot Spec_Hist Spec_Load Decimal RealArith Pf_Reach Ex_Robot
  Spec_Jac Spec_Mass Pf_Pose Pf_Real.
Import ListNotations.
Local Open Scope string_scope.

Definition sl_mass : xml :=
  el "inertial" [] [el "mass" [("value", "1")] [];
                    el "inertia" [("ixx", "1"); ("ixy", "0"); ("ixz", "0"); ("iyy", "1"); ("iyz", "0"); ("izz", "1")] []].
Definition sl_kids : list xml :=
  [ el "link" [("name", "base")] [sl_mass]; el "link" [("name", "car")] [sl_mass];
    el "joint" [("name", "j"); ("type", "prismatic")]
      [el "parent" [("link", "base")] []; el "child" [("link", "car")] []; el "axis" [("xyz", "1 0 0")] [];
       el "limit" [("lower", "-1"); ("upper", "1"); ("effort", "1"); ("velocity", "1")] []] ].
Definition sl_top : list xml := [el "robot" [("name", "slider")] sl_kids].
Definition sl_tinyxml : string -> option (list xml) := fun _ => Some sl_top.
Definition sl_R : Robot := match robot_of_kids sl_kids with Some r => r | None => mkRobot [] [] end.
Definition sl_j : UJoint := nth 0 (r_joints sl_R) dummy_joint.
Lemma sl_links : link_names sl_R = ["base"; "car"]. Proof. reflexivity. Qed.
Lemma sl_joints : r_joints sl_R = [sl_j]. Proof. reflexivity. Qed.
Lemma sl_child : uj_child sl_j = "car". Proof. reflexivity. Qed.
Lemma sl_parent : uj_parent sl_j = "base". Proof. reflexivity. Qed.
Lemma sl_type : uj_type sl_j = PRISMATIC. Proof. reflexivity. Qed.
Lemma sl_name : uj_name sl_j = "j". Proof. reflexivity. Qed.
Lemma sl_axis : uj_axis sl_j = V3 n1 n0 n0. Proof. reflexivity. Qed.
Lemma sl_origin : uj_origin sl_j = pose_clear. Proof. reflexivity. Qed.
Global Opaque sl_j.

Lemma sl_in j : In j (r_joints sl_R) -> j = sl_j.
Proof. rewrite sl_joints. intros [<-|[]]; auto. Qed.

Lemma sl_tree : is_tree sl_R "base".
Proof.
  constructor.
  - rewrite sl_links. nodup.
  - rewrite sl_joints. repeat constructor. simpl; tauto.
  - intros j I. rewrite sl_links, (sl_in j I), sl_parent, sl_child. simpl; auto.
  - rewrite sl_links. simpl; auto.
  - intros j I. rewrite (sl_in j I), sl_child. discriminate.
  - rewrite sl_joints. repeat constructor. simpl; tauto.
  - intros n I. rewrite sl_links in I. destruct I as [<-|[<-|[]]]; [constructor|].
    rewrite <- sl_child. apply (conn_joint _ _ sl_j); [rewrite sl_joints; left; reflexivity|]. rewrite sl_parent. constructor.
Qed.

Lemma sl_describes : describes sl_top sl_R.
Proof. exists (el "robot" [("name", "slider")] sl_kids), "slider". repeat split; reflexivity. Qed.

Lemma sl_loadable : loadable sl_tinyxml ex_text sl_R "base".
Proof.
  constructor.
  - discriminate.
  - exists sl_top. split; [reflexivity | exact sl_describes].
  - exact sl_tree.
  - intros j I. rewrite (sl_in j I), sl_parent, sl_child; split; discriminate.
  - intros j I. rewrite (sl_in j I), sl_type. left. right. right. reflexivity.
  - intros n i I. rewrite sl_links. apply (in_map fst) in I.
    change (map fst (r_links sl_R)) with (link_names sl_R) in I. rewrite sl_links in I. cbn [fst] in I.
    destruct I as [<-|[<-|[]]]; simpl; intuition discriminate.
Qed.

Definition sl_i : Inertial := mkInertial pose_clear n1 n1 n0 n0 n1 n0 n1.
Lemma sl_links_are : r_links sl_R = [("base", Some sl_i); ("car", Some sl_i)].
Proof. reflexivity. Qed.
Lemma sl_i_mass : in_mass sl_i = n1. Proof. reflexivity. Qed.
Lemma sl_i_origin : in_origin sl_i = pose_clear. Proof. reflexivity. Qed.
Lemma sl_i_tensor : [ixx sl_i; ixy sl_i; ixz sl_i; iyy sl_i; iyz sl_i; izz sl_i] = [n1; n0; n0; n1; n0; n1]. Proof. reflexivity. Qed.
Global Opaque sl_i.
Definition sl_sorted : list (string * option Inertial) := [("base", Some sl_i); ("car", Some sl_i)].
Definition sl_jsorted := [sl_j].
Lemma sl_ordered : ordered sl_R sl_sorted sl_jsorted.
Proof.
  constructor.
  - rewrite sl_links_are. apply Permutation_refl.
  - repeat constructor.
  - intros j. split.
    + intros [<-|[]]. split; [rewrite sl_joints; left; reflexivity|]. rewrite sl_type. right. right. reflexivity.
    + intros (I & _). left. symmetry. now apply sl_in.
  - repeat constructor.
Qed.

Definition sl_m0 : KM := match ctor sl_tinyxml ex_text with Ok m => m | _ => ex_m0 end.
Lemma sl_ctor : ctor sl_tinyxml ex_text = Ok sl_m0.
Proof. destruct (load_ok _ _ _ _ _ _ sl_loadable sl_ordered) as (m0 & E & _). unfold sl_m0. now rewrite E. Qed.
Lemma sl_reached ops m : run ops sl_m0 = Some m -> reached sl_tinyxml ex_text sl_R "base" sl_sorted sl_jsorted ops m.
Proof. intros E. split; [exact sl_loadable|]. split; [exact sl_ordered|]. exists sl_m0. split; [exact sl_ctor | exact E]. Qed.

(** the state at displacement [a]: nothing added, base at the origin *)
Definition sl_s (a : num) : AState :=
  mkAS [("base_com", "base", pose_clear); ("car_com", "car", pose_clear)] [a] pose_clear.
Lemma sl_initial : initial sl_sorted sl_jsorted = sl_s n0.
Proof. unfold initial, sl_s, com_links, sl_sorted, sl_jsorted. cbn [flat_map snd fst app length repeat map]. rewrite !sl_i_origin. reflexivity. Qed.
Lemma sl_at a b : at_waypoint [0]%nat false [b] (sl_s a) = sl_s b.
Proof. reflexivity. Qed.
Lemma sl_goto b : exists m, run [Op_set_joint_angles [0]%nat [b]] sl_m0 = Some m /\ after sl_sorted sl_jsorted [Op_set_joint_angles [0]%nat [b]] = sl_s b.
Proof.
  assert (X : exists m, run [Op_set_joint_angles [0]%nat [b]] sl_m0 = Some m) by (apply is_some_ex; vm_compute; reflexivity).
  destruct X as (m & E). exists m. split; [exact E|]. unfold after. rewrite sl_initial. reflexivity.
Qed.
Lemma sl_det a n P P' : pose_at sl_R "base" sl_jsorted (sl_s a) n P -> pose_at sl_R "base" sl_jsorted (sl_s a) n P' -> P = P'.
Proof.
  destruct (sl_goto a) as (m & E & Ea). destruct (reached_Rep _ _ _ _ _ _ _ _ (sl_reached _ _ E)) as [HR _]. rewrite Ea in HR.
  apply (rep_pose_det _ _ _ _ _ _ _ _ HR).
Qed.

Local Open Scope R_scope.
Lemma sl_base a : pose_at sl_R "base" sl_jsorted (sl_s a) "base" pose_clear.
Proof. apply fk_root. Qed.
Lemma sl_angle (a : R) : by_name (jnames sl_jsorted) (as_angles (sl_s a)) (uj_name sl_j) = a.
Proof. unfold jnames, sl_jsorted, sl_s, by_name. cbn [map as_angles]. rewrite sl_name. reflexivity. Qed.
Lemma sl_motion (a : R) : motion sl_j a = mkPose (V3 a 0 0) q_clear.
Proof.
  unfold motion. rewrite sl_type, sl_axis, sl_origin, pt_1l. f_equal. apply v_eq; proj; rnum; ring.
Qed.
Lemma sl_car (a : R) : pose_at sl_R "base" sl_jsorted (sl_s a) "car" (mkPose (V3 a 0 0) q_clear).
Proof.
  unfold pose_at. rewrite <- (pt_1l (mkPose _ _)), <- sl_motion, <- sl_child. rewrite <- (sl_angle a) at 3.
  apply fk_joint; [rewrite sl_joints; left; reflexivity|]. rewrite sl_parent. apply fk_root.
Qed.
Lemma sl_poses (a : R) Ps : Forall2 (fun ni P => pose_at sl_R "base" sl_jsorted (sl_s a) (fst ni) P) (massive sl_sorted) Ps ->
  Ps = [pose_clear; mkPose (V3 a 0 0) q_clear].
Proof.
  intros F. unfold massive, sl_sorted in F. cbn [flat_map snd fst app] in F. inversion F as [|? P1 ? ? H1 F1]; subst. inversion F1 as [|? P2 ? ? H2 F2]; subst.
  inversion F2; subst. cbn [fst] in *. rewrite (sl_det _ _ _ _ H1 (sl_base a)), (sl_det _ _ _ _ H2 (sl_car a)). reflexivity.
Qed.
Lemma sl_com (a : R) c : is_com sl_R "base" sl_jsorted (massive sl_sorted) (sl_s a) c -> c = V3 (a / 2) 0 0.
Proof.
  intros (Ps & F & ->). rewrite (sl_poses a Ps F). unfold massive, sl_sorted, com_of, mass_sum, weighted_sum, scaled_down, com_point.
  cbn [flat_map snd fst app combine map fold_left]. rewrite sl_i_mass, sl_i_origin. cbn [position rotation]. rewrite !q_rot_clear.
  unfold pose_clear, v_clear, v_add. apply v_eq; proj; rnum; field.
Qed.
Lemma sl_inertia (a : R) I : is_inertia sl_R "base" sl_jsorted (massive sl_sorted) (sl_s a) I ->
  nth 1 (nth 1 I []) 0 = 2 + a * a / 2.
Proof.
  intros (Ps & F & ->).
  assert (C : is_com sl_R "base" sl_jsorted (massive sl_sorted) (sl_s a) (com_of (massive sl_sorted) Ps)) by (exists Ps; auto).
  rewrite (sl_com a _ C), (sl_poses a Ps F). pose proof (f_equal (fun l => nth 0 l n0) sl_i_tensor) as T1. cbn [nth] in T1.
  pose proof (f_equal (fun l => nth 1 l n0) sl_i_tensor) as T2. cbn [nth] in T2.
  pose proof (f_equal (fun l => nth 2 l n0) sl_i_tensor) as T3. cbn [nth] in T3.
  pose proof (f_equal (fun l => nth 3 l n0) sl_i_tensor) as T4. cbn [nth] in T4.
  pose proof (f_equal (fun l => nth 4 l n0) sl_i_tensor) as T5. cbn [nth] in T5.
  pose proof (f_equal (fun l => nth 5 l n0) sl_i_tensor) as T6. cbn [nth] in T6.
  unfold massive, sl_sorted, inertia_about, com_point. cbv zeta.
  cbn [flat_map snd fst app combine map fold_left]. rewrite T1, T2, T3, T4, T5, T6, sl_i_mass, sl_i_origin. cbn [position rotation]. rewrite !q_rot_clear, !q_mul_1l.
  unfold pose_clear, v_clear, q_clear, v_add, v_sub, trans_term, rot_mat, mat3_mul, transpose3, mat_zip, mat_zero.
  unfold dot3, zipw. cbv zeta. cbn [position rotation vx vy vz qx qy qz qw repeat map combine nth fst snd fold_left]. rnum.
  rewrite !sqrt_sqrt by nra. field.
Qed.
