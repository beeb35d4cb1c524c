(** A concrete robot for the examples beside the theorems: a base, an arm with a revolute
    and a prismatic joint, and a tool on a fixed joint; two links have mass.  The elements
    are deliberately not in name order. *)
From Coq Require Import QArith String List Arith Permutation Sorted Reals Lia.
From Verif Require Import Base Num Pose DataStructure Urdf Kin Wrapper Spec_Robot Spec_Hist Spec_Load Decimal RealArith Pf_Reach.
Import ListNotations.
Local Open Scope string_scope.

Definition el (tag : string) (attrs : list (string * string)) (kids : list xml) := XElem tag attrs kids.
Definition ex_inertial (xyz mass : string) : xml :=
  el "inertial" [] [el "origin" [("xyz", xyz)] []; el "mass" [("value", mass)] [];
                    el "inertia" [("ixx", "1"); ("ixy", "0"); ("ixz", "0"); ("iyy", "1"); ("iyz", "0"); ("izz", "1")] []].
Definition ex_joint (name type parent child xyz axis : string) : xml :=
  el "joint" [("name", name); ("type", type)]
    [el "parent" [("link", parent)] []; el "child" [("link", child)] []; el "origin" [("xyz", xyz)] [];
     el "axis" [("xyz", axis)] []; XOther;
     el "limit" [("lower", "-1.5"); ("upper", "1.5"); ("effort", "10"); ("velocity", "2e1")] []].
Definition ex_kids : list xml :=
  [ el "link" [("name", "tool")] [];
    el "link" [("name", "l2")] [ex_inertial "0 0 0.5" "3"];
    XOther;
    ex_joint "j2" "prismatic" "l1" "l2" "1 0 0" "1 0 0";
    el "link" [("name", "base")] [];
    ex_joint "j1" "revolute" "base" "l1" "0 0 1" "0 0 1";
    el "link" [("name", "l1")] [ex_inertial "0.5 0 0" "2"];
    ex_joint "j3" "fixed" "l2" "tool" "0 0 0.25" "1 0 0" ].
Definition ex_top : list xml := [XOther; el "robot" [("name", "ex"); ("version", "1.0")] ex_kids].
(** what TinyXML makes of the text *)
Definition ex_tinyxml : string -> option (list xml) := fun _ => Some ex_top.
Definition ex_text : string := "<robot .../>".

Definition ex_R : Robot := match robot_of_kids ex_kids with Some r => r | None => mkRobot [] [] end.

Lemma ex_links : link_names ex_R = ["tool"; "l2"; "base"; "l1"].
Proof. reflexivity. Qed.
Lemma ex_jnames : map uj_name (r_joints ex_R) = ["j2"; "j1"; "j3"].
Proof. reflexivity. Qed.
Lemma ex_jchild : map uj_child (r_joints ex_R) = ["l2"; "l1"; "tool"].
Proof. reflexivity. Qed.
Lemma ex_jparent : map uj_parent (r_joints ex_R) = ["l1"; "base"; "l2"].
Proof. reflexivity. Qed.
Lemma ex_jtype : map uj_type (r_joints ex_R) = [PRISMATIC; REVOLUTE; FIXED].
Proof. reflexivity. Qed.

Definition dummy_joint : UJoint := mkUJoint "" UNKNOWN v_clear "" "" pose_clear None None.
Definition ex_j (k : nat) : UJoint := nth k (r_joints ex_R) dummy_joint.
Lemma ex_joints : r_joints ex_R = [ex_j 0; ex_j 1; ex_j 2].
Proof. reflexivity. Qed.
Lemma ex_joint_in j : In j (r_joints ex_R) -> j = ex_j 0 \/ j = ex_j 1 \/ j = ex_j 2.
Proof. rewrite ex_joints. intros [<-|[<-|[<-|[]]]]; auto. Qed.

Lemma ex_child k : uj_child (ex_j k) = nth k ["l2"; "l1"; "tool"] "".
Proof. rewrite <- ex_jchild. unfold ex_j. symmetry. apply (map_nth uj_child (r_joints ex_R) dummy_joint). Qed.
Lemma ex_parent k : uj_parent (ex_j k) = nth k ["l1"; "base"; "l2"] "".
Proof. rewrite <- ex_jparent. unfold ex_j. symmetry. apply (map_nth uj_parent (r_joints ex_R) dummy_joint). Qed.
Lemma ex_name k : uj_name (ex_j k) = nth k ["j2"; "j1"; "j3"] "".
Proof. rewrite <- ex_jnames. unfold ex_j. symmetry. apply (map_nth uj_name (r_joints ex_R) dummy_joint). Qed.
Lemma ex_type k : uj_type (ex_j k) = nth k [PRISMATIC; REVOLUTE; FIXED] UNKNOWN.
Proof. rewrite <- ex_jtype. unfold ex_j. symmetry. apply (map_nth uj_type (r_joints ex_R) dummy_joint). Qed.
Lemma ex_axis1 : uj_axis (ex_j 1) = V3 n0 n0 n1.
Proof. reflexivity. Qed.
Lemma ex_axis0 : uj_axis (ex_j 0) = V3 n1 n0 n0.
Proof. reflexivity. Qed.
Global Opaque ex_j.

Ltac nodup := repeat constructor; simpl; intuition discriminate.

Lemma ex_tree : is_tree ex_R "base".
Proof.
  constructor.
  - rewrite ex_links. nodup.
  - rewrite ex_jnames. nodup.
  - intros j I. rewrite ex_links. destruct (ex_joint_in j I) as [->|[->| ->]]; rewrite ex_parent, ex_child; simpl; auto 8.
  - rewrite ex_links. simpl; auto.
  - intros j I. destruct (ex_joint_in j I) as [->|[->| ->]]; rewrite ex_child; discriminate.
  - rewrite ex_jchild. nodup.
  - assert (I : forall k, (k < 3)%nat -> In (ex_j k) (r_joints ex_R)).
    { intros k L. rewrite ex_joints. destruct k as [|[|[|k]]]; simpl; auto. lia. }
    assert (C1 : connected (r_joints ex_R) "base" "l1").
    { change "l1" with (nth 1 ["l2"; "l1"; "tool"] ""). rewrite <- ex_child. apply (conn_joint _ _ (ex_j 1)); [apply I; lia|]. rewrite ex_parent. exact (conn_root _ _). }
    assert (C2 : connected (r_joints ex_R) "base" "l2").
    { change "l2" with (nth 0 ["l2"; "l1"; "tool"] ""). rewrite <- ex_child. apply (conn_joint _ _ (ex_j 0)); [apply I; lia|]. rewrite ex_parent. exact C1. }
    assert (C3 : connected (r_joints ex_R) "base" "tool").
    { change "tool" with (nth 2 ["l2"; "l1"; "tool"] ""). rewrite <- ex_child. apply (conn_joint _ _ (ex_j 2)); [apply I; lia|]. rewrite ex_parent. exact C2. }
    intros n. rewrite ex_links. intros [<-|[<-|[<-|[<-|[]]]]]; auto. constructor.
Qed.

Lemma ex_describes : describes ex_top ex_R.
Proof. exists (el "robot" [("name", "ex"); ("version", "1.0")] ex_kids), "ex". repeat split; reflexivity. Qed.

Definition ex_l (k : nat) := nth k (r_links ex_R) ("", None).

Lemma ex_loadable : loadable ex_tinyxml ex_text ex_R "base".
Proof.
  constructor.
  - discriminate.
  - exists ex_top. split; [reflexivity | exact ex_describes].
  - exact ex_tree.
  - intros j I. destruct (ex_joint_in j I) as [->|[->| ->]]; rewrite ex_parent, ex_child; split; discriminate.
  - intros j I. destruct (ex_joint_in j I) as [->|[->| ->]]; rewrite ex_type; unfold is_supported, is_movable.
    + left. right. right. reflexivity. + left. left. reflexivity. + right. reflexivity.
  - intros n i I. rewrite ex_links. apply (in_map fst) in I.
    change (map fst (r_links ex_R)) with (link_names ex_R) in I. rewrite ex_links in I. simpl fst in I.
    destruct I as [<-|[<-|[<-|[<-|[]]]]]; simpl; intuition discriminate.
Qed.

(** base, l1, l2, tool *)
Definition ex_sorted := [ex_l 2; ex_l 3; ex_l 1; ex_l 0].
Definition ex_jsorted := [ex_j 1; ex_j 0].

Lemma ex_ordered : ordered ex_R ex_sorted ex_jsorted.
Proof.
  constructor.
  - change (r_links ex_R) with [ex_l 0; ex_l 1; ex_l 2; ex_l 3]. unfold ex_sorted.
    apply Permutation_sym. apply (@Permutation_trans _ _ (rev [ex_l 0; ex_l 1; ex_l 2; ex_l 3])); [apply Permutation_rev|].
    simpl. apply (perm_trans (perm_swap _ _ _)). reflexivity.
  - change (map fst ex_sorted) with ["base"; "l1"; "l2"; "tool"]. repeat constructor.
  - intros j. split.
    + intros I. assert (I' : In j (r_joints ex_R)).
      { rewrite ex_joints. unfold ex_jsorted in I. simpl in *. intuition. }
      split; [exact I'|]. destruct I as [<-|[<-|[]]]; rewrite ex_type; unfold is_movable; [left | right; right]; reflexivity.
    + intros (I & M). unfold ex_jsorted. destruct (ex_joint_in j I) as [->|[->| ->]]; [right; left; reflexivity | left; reflexivity |].
      rewrite ex_type in M. exfalso. destruct M as [M|[M|M]]; discriminate M.
  - replace (map uj_name ex_jsorted) with ["j1"; "j2"] by (unfold ex_jsorted; cbn [map]; rewrite !ex_name; reflexivity). repeat constructor.
Qed.

Lemma ex_loads : exists m0, ctor ex_tinyxml ex_text = Ok m0 /\ reached ex_tinyxml ex_text ex_R "base" ex_sorted ex_jsorted [] m0.
Proof. exact (load_ok _ _ _ _ _ _ ex_loadable ex_ordered). Qed.

Definition ex_m0 : KM := match ctor ex_tinyxml ex_text with Ok m => m | _ => mkKM 0 [] [] [] [] [] [] pose_clear [] 0 n0 (stack_new (0%nat, pose_clear) 0) (cache_new pose_clear 0) end.
Lemma ex_ctor : ctor ex_tinyxml ex_text = Ok ex_m0.
Proof. destruct ex_loads as (m0 & E & _). unfold ex_m0. now rewrite E. Qed.

Lemma ex_reached ops m : run ops ex_m0 = Some m -> reached ex_tinyxml ex_text ex_R "base" ex_sorted ex_jsorted ops m.
Proof. intros E. split; [exact ex_loadable|]. split; [exact ex_ordered|]. exists ex_m0. split; [exact ex_ctor | exact E]. Qed.

(** move both joints and the base, query, add a link below the tool, query again *)
Definition ex_ops : list op :=
  [Op_set_joint_angles [0; 1]%nat [nhalf; n2]; Op_get_link_pose 3; Op_set_base_pose (mkPose (V3 n1 n0 n0) q_clear);
   Op_get_jacobian 3 [1; 0]%nat XYZW true; Op_add_new_link "camera" 3 (V3 n0 n0 n1) v_clear;
   Op_get_com; Op_solve_fk [[n1; n0]] [6]%nat [0; 1]%nat IGNORE false true false].
Definition is_some {B} (o : option B) : bool := match o with Some _ => true | None => false end.
Lemma is_some_ex {B} (o : option B) : is_some o = true -> exists b, o = Some b.
Proof. destruct o; [eauto | discriminate]. Qed.
Lemma ex_run : exists m, run ex_ops ex_m0 = Some m.
Proof. apply is_some_ex. vm_compute. reflexivity. Qed.

(** to run a query after a history of the example robot *)
Definition answer {B} (x : KM * res B) : option B := match x with (_, Ok b) => Some b | _ => None end.
Lemma answer_ok {B} (x : KM * res B) b : answer x = Some b -> exists m', x = (m', Ok b).
Proof. destruct x as [m' [c|e|u|]]; simpl; intros H; inversion H; eauto. Qed.
Definition observe {B} (ops : list op) (f : KM -> option B) : option B :=
  match run ops ex_m0 with Some m => f m | None => None end.
Lemma observe_ok {B} ops (f : KM -> option B) m : run ops ex_m0 = Some m -> is_some (observe ops f) = true -> exists b, f m = Some b.
Proof. unfold observe. intros -> H. now apply is_some_ex. Qed.
Lemma observe_answer {B} ops (f : M KM B) m : run ops ex_m0 = Some m -> is_some (observe ops (fun m => answer (f m))) = true ->
  exists m' b, f m = (m', Ok b).
Proof. intros E H. destruct (observe_ok ops _ m E H) as (b & X). destruct (answer_ok _ _ X) as (m' & Y). eauto. Qed.
Lemma in_fst {B C} (p : B) (l : list (B * C)) names : map fst l = names -> In p names -> exists c, In (p, c) l.
Proof. intros <- I. apply in_map_iff in I. destruct I as ([x c] & <- & I). eauto. Qed.
Definition ex_T (k : nat) : Pose := nth k (map snd (com_links ex_sorted)) pose_clear.
Lemma ex_initial : initial ex_sorted ex_jsorted =
  mkAS [("l1_com"%string, "l1"%string, ex_T 0); ("l2_com"%string, "l2"%string, ex_T 1)] [n0; n0] pose_clear.
Proof. unfold initial, ex_T. f_equal. Qed.
Lemma ex_after ops : after ex_sorted ex_jsorted ops = abs_run ["base"; "l1"; "l2"; "tool"]%string ops
  (mkAS [("l1_com"%string, "l1"%string, ex_T 0); ("l2_com"%string, "l2"%string, ex_T 1)] [n0; n0] pose_clear).
Proof. unfold after. rewrite ex_initial. reflexivity. Qed.

(** a joint carries no link of a set that contains its links' parents but not the joint's
    child *)
Definition up_closed (edges : list (string * string)) (S : list string) : bool :=
  forallb (fun e => implb (existsb (String.eqb (fst e)) S) (existsb (String.eqb (snd e)) S)) edges.
Lemma not_carries `{A : Arith} js added j S E1 E2 n :
  map (fun j => (uj_child j, uj_parent j)) js = E1 -> map fst added = E2 ->
  up_closed E1 S = true -> up_closed E2 S = true -> existsb (String.eqb (uj_child j)) S = false ->
  existsb (String.eqb n) S = true -> ~ carries js added j n.
Proof.
  intros <- <- C1 C2 Hj Hn H. unfold up_closed in *. rewrite forallb_forall in C1, C2.
  induction H as [|j' I H IH|x p T I H IH].
  - congruence.
  - apply IH. specialize (C1 _ (in_map (fun j => (uj_child j, uj_parent j)) _ _ I)). cbn [fst snd] in C1. rewrite Hn in C1. exact C1.
  - apply IH. specialize (C2 _ (in_map fst _ _ I)). cbn [fst snd] in C2. rewrite Hn in C2. exact C2.
Qed.
Lemma ex_edges : map (fun j => (uj_child j, uj_parent j)) (r_joints ex_R) = [("l2", "l1"); ("l1", "base"); ("tool", "l2")]%string.
Proof. rewrite ex_joints. cbn [map]. rewrite !ex_child, !ex_parent. reflexivity. Qed.
