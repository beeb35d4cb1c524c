(** A second concrete robot: two links without inertial data on a continuous joint without
    limits. *)
From Coq Require Import QArith String List Arith Permutation Sorted Reals Lia.
From Verif Require Import Base Num Pose DataStructure Urdf Kin Wrapper Spec_Robot Spec_Hist Spec_Load Decimal RealArith Pf_Reach Ex_Robot.
Import ListNotations.
Local Open Scope string_scope.

Definition bare_kids : list xml :=
  [ el "link" [("name", "base")] []; el "link" [("name", "arm")] [];
    el "joint" [("name", "j"); ("type", "continuous")]
      [el "parent" [("link", "base")] []; el "child" [("link", "arm")] []; el "axis" [("xyz", "0 0 1")] []] ].
Definition bare_top : list xml := [el "robot" [("name", "bare")] bare_kids].
Definition bare_tinyxml : string -> option (list xml) := fun _ => Some bare_top.
Definition bare_R : Robot := match robot_of_kids bare_kids with Some r => r | None => mkRobot [] [] end.
Definition bare_j : UJoint := nth 0 (r_joints bare_R) dummy_joint.
Lemma bare_links : link_names bare_R = ["base"; "arm"]. Proof. reflexivity. Qed.
Lemma bare_joints : r_joints bare_R = [bare_j]. Proof. reflexivity. Qed.
Lemma bare_child : uj_child bare_j = "arm". Proof. reflexivity. Qed.
Lemma bare_parent : uj_parent bare_j = "base". Proof. reflexivity. Qed.
Lemma bare_type : uj_type bare_j = CONTINUOUS. Proof. reflexivity. Qed.
Lemma bare_name : uj_name bare_j = "j". Proof. reflexivity. Qed.
Lemma bare_limits : uj_limits bare_j = None. Proof. reflexivity. Qed.
Global Opaque bare_j.

Lemma bare_in j : In j (r_joints bare_R) -> j = bare_j.
Proof. rewrite bare_joints. intros [<-|[]]; auto. Qed.

Lemma bare_tree : is_tree bare_R "base".
Proof.
  constructor.
  - rewrite bare_links. nodup.
  - rewrite bare_joints. repeat constructor. simpl; tauto.
  - intros j I. rewrite bare_links, (bare_in j I), bare_parent, bare_child. simpl; auto.
  - rewrite bare_links. simpl; auto.
  - intros j I. rewrite (bare_in j I), bare_child. discriminate.
  - rewrite bare_joints. repeat constructor. simpl; tauto.
  - intros n I. rewrite bare_links in I. destruct I as [<-|[<-|[]]]; [constructor|].
    rewrite <- bare_child. apply (conn_joint _ _ bare_j); [rewrite bare_joints; left; reflexivity|]. rewrite bare_parent. constructor.
Qed.

Lemma bare_describes : describes bare_top bare_R.
Proof. exists (el "robot" [("name", "bare")] bare_kids), "bare". repeat split; reflexivity. Qed.

Lemma bare_loadable : loadable bare_tinyxml ex_text bare_R "base".
Proof.
  constructor.
  - discriminate.
  - exists bare_top. split; [reflexivity | exact bare_describes].
  - exact bare_tree.
  - intros j I. rewrite (bare_in j I), bare_parent, bare_child; split; discriminate.
  - intros j I. rewrite (bare_in j I), bare_type. left. right. left. reflexivity.
  - intros n i I. exfalso. change (r_links bare_R) with [("base", @None Inertial); ("arm", None)] in I.
    destruct I as [I|[I|[]]]; discriminate I.
Qed.

Definition bare_sorted : list (string * option Inertial) := [("arm", None); ("base", None)].
Definition bare_jsorted := [bare_j].
Lemma bare_ordered : ordered bare_R bare_sorted bare_jsorted.
Proof.
  constructor.
  - change (r_links bare_R) with [("base", @None Inertial); ("arm", None)]. apply perm_swap.
  - repeat constructor.
  - intros j. split.
    + intros [<-|[]]. split; [rewrite bare_joints; left; reflexivity|]. rewrite bare_type. right. left. reflexivity.
    + intros (I & _). left. symmetry. now apply bare_in.
  - repeat constructor.
Qed.

Definition bare_m0 : KM := match ctor bare_tinyxml ex_text with Ok m => m | _ => ex_m0 end.
Lemma bare_ctor : ctor bare_tinyxml ex_text = Ok bare_m0.
Proof. destruct (load_ok _ _ _ _ _ _ bare_loadable bare_ordered) as (m0 & E & _). unfold bare_m0. now rewrite E. Qed.
Lemma bare_reached ops m : run ops bare_m0 = Some m -> reached bare_tinyxml ex_text bare_R "base" bare_sorted bare_jsorted ops m.
Proof. intros E. split; [exact bare_loadable|]. split; [exact bare_ordered|]. exists bare_m0. split; [exact bare_ctor | exact E]. Qed.
