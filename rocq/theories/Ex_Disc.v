(** A fourth concrete robot: a single link whose inertial frame is turned about z. *)
From Coq Require Import QArith String List Arith Permutation Sorted Reals Lra Lia.
From Verif Require Import Base Num Pose DataStructure Urdf Kin Wrapper Spec_Robot Spec_Hist Spec_Load Decimal RealArith Pf_Reach Ex_Robot.
Import ListNotations.
Local Open Scope string_scope.

Definition disc_kids : list xml :=
  [ el "link" [("name", "disc")]
      [el "inertial" [] [el "origin" [("xyz", "0 0 0"); ("rpy", "0 0 1")] []; el "mass" [("value", "1")] [];
                         el "inertia" [("ixx", "1"); ("ixy", "0"); ("ixz", "0"); ("iyy", "0"); ("iyz", "0"); ("izz", "0")] []]] ].
Definition disc_top : list xml := [el "robot" [("name", "disc")] disc_kids].
Definition disc_tinyxml : string -> option (list xml) := fun _ => Some disc_top.
Definition disc_R : Robot := match robot_of_kids disc_kids with Some r => r | None => mkRobot [] [] end.
Definition disc_i : Inertial := mkInertial (mkPose (V3 n0 n0 n0) (setFromRPY n0 n0 n1)) n1 n1 n0 n0 n0 n0 n0.
Lemma disc_links : link_names disc_R = ["disc"]. Proof. reflexivity. Qed.
Lemma disc_joints : r_joints disc_R = []. Proof. reflexivity. Qed.
Lemma disc_links_are : r_links disc_R = [("disc", Some disc_i)]. Proof. reflexivity. Qed.
Lemma disc_mass : in_mass disc_i = n1. Proof. reflexivity. Qed.
Lemma disc_origin : in_origin disc_i = mkPose (V3 n0 n0 n0) (setFromRPY n0 n0 n1). Proof. reflexivity. Qed.
Lemma disc_tensor : [ixx disc_i; ixy disc_i; ixz disc_i; iyy disc_i; iyz disc_i; izz disc_i] = [n1; n0; n0; n0; n0; n0]. Proof. reflexivity. Qed.
Global Opaque disc_i.

Lemma disc_tree : is_tree disc_R "disc".
Proof.
  constructor.
  - rewrite disc_links. nodup.
  - rewrite disc_joints. constructor.
  - intros j I. rewrite disc_joints in I. destruct I.
  - rewrite disc_links. simpl; auto.
  - intros j I. rewrite disc_joints in I. destruct I.
  - rewrite disc_joints. constructor.
  - intros n I. rewrite disc_links in I. destruct I as [<-|[]]. constructor.
Qed.
Lemma disc_describes : describes disc_top disc_R.
Proof. exists (el "robot" [("name", "disc")] disc_kids), "disc". repeat split; reflexivity. Qed.
Lemma disc_loadable : loadable disc_tinyxml ex_text disc_R "disc".
Proof.
  constructor.
  - discriminate.
  - exists disc_top. split; [reflexivity | exact disc_describes].
  - exact disc_tree.
  - intros j I. rewrite disc_joints in I. destruct I.
  - intros j I. rewrite disc_joints in I. destruct I.
  - intros n i I. rewrite disc_links. rewrite disc_links_are in I. destruct I as [I|[]]. inversion I; subst. simpl. intuition discriminate.
Qed.
Definition disc_sorted : list (string * option Inertial) := [("disc", Some disc_i)].
Lemma disc_ordered : ordered disc_R disc_sorted [].
Proof.
  constructor.
  - rewrite disc_links_are. apply Permutation_refl.
  - repeat constructor.
  - intros j. rewrite disc_joints. simpl. tauto.
  - repeat constructor.
Qed.
Definition disc_m0 : KM := match ctor disc_tinyxml ex_text with Ok m => m | _ => ex_m0 end.
Lemma disc_ctor : ctor disc_tinyxml ex_text = Ok disc_m0.
Proof. destruct (load_ok _ _ _ _ _ _ disc_loadable disc_ordered) as (m0 & E & _). unfold disc_m0. now rewrite E. Qed.
Lemma disc_reached ops m : run ops disc_m0 = Some m -> reached disc_tinyxml ex_text disc_R "disc" disc_sorted [] ops m.
Proof. intros E. split; [exact disc_loadable|]. split; [exact disc_ordered|]. exists disc_m0. split; [exact disc_ctor | exact E]. Qed.
