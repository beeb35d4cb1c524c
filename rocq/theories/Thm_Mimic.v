(** C62: mimic joints. *)
From Coq Require Import QArith String List Arith Permutation Sorted Reals Lra Lia.
From Verif Require Import Base Num Pose DataStructure Urdf Kin Wrapper Spec_Robot Spec_Hist Spec_Load Decimal RealArith
  Pf_Reach Ex_Robot Pf_Pose Pf_Real Thm_Pose.
Import ListNotations.
Local Open Scope string_scope.

(** [q'] gives every joint with a mimic element multiplier * (value of the mimicked joint) +
    offset, and every other joint its value in [q]. *)
Definition follows `{A : Arith} (js : list UJoint) (q q' : string -> num) : Prop :=
  forall j, In j js ->
    q' (uj_name j) = match uj_mimic j with
                     | None => q (uj_name j)
                     | Some mm => add (mul (multiplier mm) (q' (mimic_joint mm))) (offset mm)
                     end.

Definition mk_slide (n p c : string) (more : list xml) : xml :=
  el "joint" [("name", n); ("type", "prismatic")]
    ([el "parent" [("link", p)] []; el "child" [("link", c)] []; el "axis" [("xyz", "1 0 0")] [];
      el "limit" [("effort", "1"); ("velocity", "1")] []] ++ more).
Definition mk_kids : list xml :=
  [ el "link" [("name", "base")] []; el "link" [("name", "mid")] []; el "link" [("name", "top")] [];
    mk_slide "j" "base" "mid" []; mk_slide "k" "mid" "top" [el "mimic" [("joint", "j")] []] ].
Definition mk_top : list xml := [el "robot" [("name", "telescope")] mk_kids].
Definition mk_tinyxml : string -> option (list xml) := fun _ => Some mk_top.
Definition mk_R : Robot := match robot_of_kids mk_kids with Some r => r | None => mkRobot [] [] end.
Definition mk_j : UJoint := nth 0 (r_joints mk_R) dummy_joint.
Definition mk_k : UJoint := nth 1 (r_joints mk_R) dummy_joint.
Lemma mk_links : link_names mk_R = ["base"; "mid"; "top"]. Proof. reflexivity. Qed.
Lemma mk_joints : r_joints mk_R = [mk_j; mk_k]. Proof. reflexivity. Qed.
Lemma mk_cj : uj_child mk_j = "mid". Proof. reflexivity. Qed.
Lemma mk_ck : uj_child mk_k = "top". Proof. reflexivity. Qed.
Lemma mk_pj : uj_parent mk_j = "base". Proof. reflexivity. Qed.
Lemma mk_pk : uj_parent mk_k = "mid". Proof. reflexivity. Qed.
Lemma mk_tj : uj_type mk_j = PRISMATIC. Proof. reflexivity. Qed.
Lemma mk_tk : uj_type mk_k = PRISMATIC. Proof. reflexivity. Qed.
Lemma mk_nj : uj_name mk_j = "j". Proof. reflexivity. Qed.
Lemma mk_nk : uj_name mk_k = "k". Proof. reflexivity. Qed.
Lemma mk_aj : uj_axis mk_j = V3 n1 n0 n0. Proof. reflexivity. Qed.
Lemma mk_ak : uj_axis mk_k = V3 n1 n0 n0. Proof. reflexivity. Qed.
Lemma mk_oj : uj_origin mk_j = pose_clear. Proof. reflexivity. Qed.
Lemma mk_ok : uj_origin mk_k = pose_clear. Proof. reflexivity. Qed.
Lemma mk_mj : uj_mimic mk_j = None. Proof. reflexivity. Qed.
Lemma mk_mk : uj_mimic mk_k = Some (mkMimic "j" n1 n0). Proof. reflexivity. Qed.
Global Opaque mk_j mk_k.

Lemma mk_in j : In j (r_joints mk_R) -> j = mk_j \/ j = mk_k.
Proof. rewrite mk_joints. intros [<-|[<-|[]]]; auto. Qed.

Lemma mk_tree : is_tree mk_R "base".
Proof.
  assert (C1 : connected (r_joints mk_R) "base" "mid").
  { rewrite <- mk_cj. apply conn_joint; [rewrite mk_joints; left; reflexivity|]. rewrite mk_pj. constructor. }
  constructor; rewrite ?mk_links.
  - nodup.
  - rewrite mk_joints. cbn [map]. rewrite mk_nj, mk_nk. nodup.
  - intros j I. destruct (mk_in j I) as [-> | ->]; rewrite ?mk_pj, ?mk_cj, ?mk_pk, ?mk_ck; simpl; auto.
  - simpl; auto.
  - intros j I. destruct (mk_in j I) as [-> | ->]; rewrite ?mk_cj, ?mk_ck; discriminate.
  - rewrite mk_joints. cbn [map]. rewrite mk_cj, mk_ck. nodup.
  - intros n [<-|[<-|[<-|[]]]]; [constructor | exact C1 |]. rewrite <- mk_ck. apply conn_joint; [rewrite mk_joints; right; left; reflexivity|]. rewrite mk_pk. exact C1.
Qed.

Lemma mk_describes : describes mk_top mk_R.
Proof. exists (el "robot" [("name", "telescope")] mk_kids), "telescope". repeat split; reflexivity. Qed.

Lemma mk_loadable : loadable mk_tinyxml ex_text mk_R "base".
Proof.
  constructor.
  - discriminate.
  - exists mk_top. split; [reflexivity | exact mk_describes].
  - exact mk_tree.
  - intros j I. destruct (mk_in j I) as [-> | ->]; rewrite ?mk_pj, ?mk_cj, ?mk_pk, ?mk_ck; split; discriminate.
  - intros j I. left. right. right. destruct (mk_in j I) as [-> | ->]; [exact mk_tj | exact mk_tk].
  - intros n i I. exfalso. change (r_links mk_R) with [("base", @None Inertial); ("mid", None); ("top", None)] in I.
    destruct I as [I|[I|[I|[]]]]; discriminate I.
Qed.

Definition mk_sorted : list (string * option Inertial) := [("base", None); ("mid", None); ("top", None)].
Definition mk_jsorted := [mk_j; mk_k].
Lemma mk_ordered : ordered mk_R mk_sorted mk_jsorted.
Proof.
  constructor.
  - apply Permutation_refl.
  - repeat constructor.
  - intros j. rewrite mk_joints. split; [|tauto]. intros I. split; [exact I|]. right. right.
    destruct I as [<-|[<-|[]]]; [exact mk_tj | exact mk_tk].
  - unfold mk_jsorted. cbn [map]. rewrite mk_nj, mk_nk. repeat constructor.
Qed.

Definition mk_m0 : KM := match ctor mk_tinyxml ex_text with Ok m => m | _ => ex_m0 end.
Lemma mk_ctor : ctor mk_tinyxml ex_text = Ok mk_m0.
Proof. destruct (load_ok _ _ _ _ _ _ mk_loadable mk_ordered) as (m0 & E & _). unfold mk_m0. now rewrite E. Qed.
Lemma mk_reached ops m : run ops mk_m0 = Some m -> reached mk_tinyxml ex_text mk_R "base" mk_sorted mk_jsorted ops m.
Proof. intros E. split; [exact mk_loadable|]. split; [exact mk_ordered|]. exists mk_m0. split; [exact mk_ctor | exact E]. Qed.

Local Open Scope R_scope.
Lemma mk_motion j a : In j (r_joints mk_R) -> motion j a = mkPose (V3 a 0 0) q_clear.
Proof.
  intros I. unfold motion. assert (X : uj_type j = PRISMATIC /\ uj_axis j = V3 n1 n0 n0 /\ uj_origin j = pose_clear).
  { destruct (mk_in j I) as [-> | ->]; [rewrite mk_tj, mk_aj, mk_oj | rewrite mk_tk, mk_ak, mk_ok]; auto. }
  destruct X as (-> & -> & ->). rewrite pt_1l. f_equal. apply v_eq; proj; rnum; ring.
Qed.
Lemma slide_add a b : pose_transform (mkPose (V3 a 0 0) q_clear) (mkPose (V3 b 0 0) q_clear) = @mkPose RA (@V3 RA (a + b) 0 0) q_clear.
Proof. unfold pose_transform. proj. rewrite q_rot_clear, q_mul_1l. f_equal. unfold v_add. apply v_eq; proj; rnum; ring. Qed.

(** where the links are, for any values of the joints *)
Lemma mk_fk q n P : fk (r_joints mk_R) "base" [] q pose_clear n P ->
  P = mkPose (V3 (match n with "base" => 0 | "mid" => q "j" | _ => q "j" + q "k" end) 0 0) q_clear.
Proof.
  intros H. induction H as [|j P I H IH|n p T P I].
  - unfold pose_clear. f_equal. unfold v_clear. apply v_eq; proj; rnum; reflexivity.
  - rewrite (mk_motion j _ I). destruct (mk_in j I) as [-> | ->].
    + rewrite mk_pj in IH. rewrite mk_cj, mk_nj, IH, slide_add. f_equal. apply v_eq; proj; rnum; ring.
    + rewrite mk_pk in IH. rewrite mk_ck, mk_nk, IH, slide_add. reflexivity.
  - destruct I.
Qed.

(** C62 is false: after moving the first joint of a telescope whose second joint mimics the
    first, the last link is not where it is when mimic joints follow. *)
Theorem C62_mimic_joints_follow_refuted :
  exists tinyxml text R root sorted jsorted ops m i n m' P,
    @reached RA tinyxml text R root sorted jsorted ops m /\ clean ops = true /\
    nth_error (get_link_names m) i = Some n /\ get_link_pose i m = (m', Ok P) /\
    let s := after sorted jsorted ops in
    (exists j mm, In j (r_joints R) /\ uj_mimic j = Some mm /\ In (mimic_joint mm) (map uj_name (r_joints R))) /\
    (exists q' P', follows (r_joints R) (by_name (jnames jsorted) (as_angles s)) q' /\ fk (r_joints R) root (as_added s) q' (as_base s) n P') /\
    forall q' P', follows (r_joints R) (by_name (jnames jsorted) (as_angles s)) q' ->
      fk (r_joints R) root (as_added s) q' (as_base s) n P' -> P <> P'.
Proof.
  set (ops := [@Op_set_joint_angles RA [0]%nat [1]]).
  assert (X : exists m, run ops mk_m0 = Some m) by (apply is_some_ex; vm_compute; reflexivity). destruct X as (m & E).
  pose proof (mk_reached _ _ E) as Hr. destruct (C01_link_pose_is_chain_product _ _ _ _ _ _ _ _ _ Hr eq_refl) as (En & _ & Hp).
  assert (Ea : after mk_sorted mk_jsorted ops = mkAS [] [1; n0] pose_clear) by reflexivity. rewrite Ea in *.
  destruct (Hp 2%nat "top" eq_refl) as (Hv & Ht).
  assert (Ij : In mk_j (r_joints mk_R)) by (rewrite mk_joints; left; reflexivity). assert (Ik : In mk_k (r_joints mk_R)) by (rewrite mk_joints; right; left; reflexivity).
  destruct (Ht 2%nat) as (m' & P & Eg); [| vm_compute; lia |].
  { rewrite <- mk_ck. apply levels_joint; [exact Ik|]. rewrite mk_pk, <- mk_cj. apply levels_joint; [exact Ij|]. rewrite mk_pj. constructor. }
  exists mk_tinyxml, ex_text, mk_R, "base", mk_sorted, mk_jsorted, ops, m, 2%nat, "top", m', P.
  split; [exact Hr|]. split; [reflexivity|]. split; [rewrite En; reflexivity|]. split; [exact Eg|]. rewrite Ea. cbn [as_added as_angles as_base].
  apply Hv in Eg. unfold pose_at in Eg. cbn [as_added as_angles as_base] in Eg. apply mk_fk in Eg.
  assert (Qj : by_name (jnames mk_jsorted) [1; n0] "j" = 1) by (unfold jnames, mk_jsorted; cbn [map]; rewrite mk_nj, mk_nk; reflexivity).
  assert (Qk : by_name (jnames mk_jsorted) [1; n0] "k" = n0) by (unfold jnames, mk_jsorted; cbn [map]; rewrite mk_nj, mk_nk; reflexivity).
  assert (F : forall q', follows (r_joints mk_R) (by_name (jnames mk_jsorted) [1; n0]) q' -> q' "j" = 1 /\ q' "k" = 1).
  { intros q' F. pose proof (F mk_j Ij) as F1. pose proof (F mk_k Ik) as F2. rewrite mk_nj, mk_mj in F1. rewrite mk_nk, mk_mk in F2. cbn [multiplier offset mimic_joint] in F2.
    rewrite Qj in F1. rewrite F1 in F2. split; [exact F1|]. rewrite F2. rnum. ring. }
  split; [|split].
  - exists mk_k, (mkMimic "j" n1 n0). split; [exact Ik|]. split; [exact mk_mk|]. rewrite mk_joints. cbn [map mimic_joint]. rewrite mk_nj. left. reflexivity.
  - exists (fun _ => 1). eexists. split.
    + intros j I. destruct (mk_in j I) as [-> | ->]; [rewrite mk_mj, mk_nj; symmetry; exact Qj | rewrite mk_mk; cbn [multiplier offset mimic_joint]; rnum; ring].
    + rewrite <- mk_ck. apply fk_joint; [exact Ik|]. rewrite mk_pk, <- mk_cj. apply fk_joint; [exact Ij|]. rewrite mk_pj. apply fk_root.
  - intros q' P' Fq HP'. apply mk_fk in HP'. destruct (F q' Fq) as (Fj & Fk). rewrite Eg, HP', Fj, Fk, Qj, Qk.
    intros H. assert (Y : vx (position (@mkPose RA (@V3 RA (1 + @n0 RA) 0 0) q_clear)) = vx (position (@mkPose RA (@V3 RA (1 + 1) 0 0) q_clear))) by (f_equal; f_equal; exact H).
    cbn [vx position] in Y. rnumin Y. lra.
Qed.
Print Assumptions C62_mimic_joints_follow_refuted.
