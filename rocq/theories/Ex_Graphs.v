(** Small documents that are not trees, or have unusual content. *)
From Coq Require Import QArith String List Bool.
From Verif Require Import Base Num Pose DataStructure Urdf Kin Wrapper Spec_Robot Spec_Hist Spec_Load Spec_Graph Decimal RealArith Pf_Base Ex_Robot.
Import ListNotations.
Local Open Scope string_scope.

Definition doc (kids : list xml) : string -> option (list xml) := fun _ => Some [el "robot" [("name", "r")] kids].
Definition lnk (n : string) : xml := el "link" [("name", n)] [].
Definition jnt (n ty p c : string) : xml :=
  el "joint" [("name", n); ("type", ty)] [el "parent" [("link", p)] []; el "child" [("link", c)] []].
Definition inertial_of (m : string) : xml :=
  el "inertial" [] [el "mass" [("value", m)] [];
    el "inertia" [("ixx", "1"); ("ixy", "0"); ("ixz", "0"); ("iyy", "1"); ("iyz", "0"); ("izz", "1")] []].
Definition heavy (n : string) : xml := el "link" [("name", n)] [inertial_of "2"].
Definition robot_in (kids : list xml) : Robot := match robot_of_kids kids with Some r => r | None => mkRobot [] [] end.

Lemma doc_describes kids : (if robot_of_kids kids then true else false) = true -> materials_ok [] (children "material" kids) = true ->
  describes [el "robot" [("name", "r")] kids] (robot_in kids).
Proof.
  intros E M. exists (el "robot" [("name", "r")] kids), "r". repeat split; auto. unfold robot_in. cbn [x_kids el]. destruct (robot_of_kids kids); [reflexivity|discriminate].
Qed.

(** two joints from a to b *)
Definition twice : list xml := [lnk "a"; lnk "b"; jnt "j1" "fixed" "a" "b"; jnt "j2" "fixed" "a" "b"].
(** a cycle next to the root; no inertial data *)
Definition island : list xml := [lnk "a"; lnk "b"; lnk "c"; jnt "j1" "continuous" "b" "c"; jnt "j2" "fixed" "c" "b"].
(** the same with inertial data at the root *)
Definition island_heavy : list xml := [heavy "a"; lnk "b"; lnk "c"; jnt "j1" "continuous" "b" "c"; jnt "j2" "fixed" "c" "b"].
(** a massive link next to a link called like its centre-of-mass link *)
Definition clash : list xml := [heavy "a"; lnk "a_com"; jnt "j1" "continuous" "a" "a_com"].
(** inertial data without a mass *)
Definition massless : list xml := [el "link" [("name", "a")] [el "inertial" [] [el "inertia" [] []]]; lnk "b"; jnt "j1" "continuous" "a" "b"].
(** a floating joint *)
Definition floating : list xml := [lnk "a"; lnk "b"; lnk "c"; jnt "j1" "floating" "a" "b"; jnt "j2" "continuous" "b" "c"].
(** a joint between links one of which does not exist *)
Definition dangling : list xml := [lnk "a"; jnt "j1" "continuous" "a" "b"].

(** deciding [graph_ok] for a concrete description *)
Lemma graph_ok_by `{A : Arith} R root : NoDup (link_names R) -> NoDup (map uj_name (r_joints R)) ->
  forallb (fun j => negb (String.eqb (uj_parent j) "") && negb (String.eqb (uj_child j) "") &&
                    existsb (String.eqb (uj_parent j)) (link_names R) && existsb (String.eqb (uj_child j)) (link_names R)) (r_joints R) = true ->
  existsb (String.eqb root) (link_names R) = true ->
  forallb (fun n => Bool.eqb (String.eqb n root) (forallb (fun j => negb (String.eqb (uj_child j) n)) (r_joints R))) (link_names R) = true ->
  graph_ok R root.
Proof.
  intros N1 N2 E I C. rewrite forallb_forall in E. rewrite forallb_forall in C.
  assert (Hin : forall s l, existsb (String.eqb s) l = true -> In s l).
  { intros s l H. apply existsb_exists in H. destruct H as (y & Iy & Ey). apply String.eqb_eq in Ey. now subst. }
  constructor; auto.
  - intros j Ij. specialize (E j Ij). rewrite !andb_true_iff, !negb_true_iff, !String.eqb_neq in E. tauto.
  - intros j Ij. specialize (E j Ij). rewrite !andb_true_iff in E. split; apply Hin; tauto.
  - intros n In'. specialize (C n In'). apply eqb_prop in C. split.
    + intros ->. rewrite String.eqb_refl in C. symmetry in C. rewrite forallb_forall in C. intros j Ij. specialize (C j Ij).
      rewrite negb_true_iff, String.eqb_neq in C. exact C.
    + intros H. apply String.eqb_eq. rewrite C. apply forallb_forall. intros j Ij. rewrite negb_true_iff, String.eqb_neq. now apply H.
Qed.

