(** The columns of the Jacobian are derivatives (lemmas for C10, C11, C12). *)
From Coq Require Import String List Arith Lia Bool Permutation Reals Lra.
From Verif Require Import Base Num Pose DataStructure Urdf Kin Wrapper Spec_Robot Spec_Hist Spec_Load Spec_Jac Spec_Rot Spec_Deriv RealArith
  Pf_Base Pf_Data Inv Pf_FK Pf_Frame Pf_Rp Rep Pf_Ops Pf_Name Pf_Ctor Pf_Reach Pf_Jac Pf_Safe Pf_Pose Pf_Local Pf_Real Pf_Rot Pf_Unit Pf_Rpy Pf_Chain Pf_Deriv.
Import ListNotations.
Local Open Scope R_scope.

(** roll, pitch and yaw are smooth at this orientation *)
Definition regular (rt : RotationType) (r : nat) (q : quat) : Prop :=
  rt = RPY -> (3 <= r)%nat -> away q /\ vx (getRPY q) <> PI /\ vz (getRPY q) <> PI.

Lemma deriv_const (f : R -> R) x : (forall t, f t = f x) -> derivable_pt_lim f x 0.
Proof. intros H. apply (dext (fun _ => f x)); [intros t; symmetry; apply H|]. apply derivable_pt_lim_const. Qed.

Lemma n0_R : @n0 RA = 0.
Proof. rnum. reflexivity. Qed.
Lemma nth_zeros r k : nth r (@zeros RA k) 0 = 0.
Proof. rewrite <- n0_R. exact (nth_repeat (@n0 RA) k r). Qed.
Lemma path_derives R root jsorted s j q0 n P rt r E C :
  path R root jsorted s j q0 n P -> is_movable (uj_type j) ->
  (forall C', pose_at R root jsorted s (uj_child j) C' -> C' = C) -> E = P q0 -> (r < jac_rows rt)%nat -> regular rt r (rotation E) ->
  carries (r_joints R) (as_added s) j n ->
  derivable_pt_lim (fun t => reported rt r (P t)) q0 (nth r (geometric_column rt j E C) 0).
Proof.
  intros HP MJ DC EE Hr Hreg Hca. destruct HP as [N _|B D _ Ty U UB UD HP HC|B D _ Ty UB UD HP HC]; [tauto| |].
  - apply DC in HC. subst C. rewrite HP in EE. subst E.
    apply (dext (fun t => reported rt r (pose_transform (turned B (uj_axis j) t) D))); [intros; now rewrite HP|]. clear HP.
    assert (G : geometric_column rt j (pose_transform (turned B (uj_axis j) q0) D) (turned B (uj_axis j) q0) =
       let w := q_rot (rotation (turned B (uj_axis j) q0)) (uj_axis j) in let E := pose_transform (turned B (uj_axis j) q0) D in
       v_list (cross_product w (v_sub (position E) (position (turned B (uj_axis j) q0)))) ++
         match rt with IGNORE => [] | RPY => v_list (rpy_derivative (getRPY (rotation E)) w) | XYZW => q_list (q_derivative (q_inverse (rotation E)) w) end).
    { unfold geometric_column. destruct Ty as [-> | ->]; reflexivity. }
    rewrite G. clear G. cbv zeta. unfold reported, link_row.
    destruct (turned_derive B (uj_axis j) D q0 UB U) as (D1 & D2 & D3).
    destruct r as [|[|[|r]]]; [exact D1|exact D2|exact D3|]. cbn [app v_list nth].
    destruct rt; [cbn in Hr; lia| |].
    + destruct (Hreg eq_refl ltac:(lia)) as (Ha & H1 & H2).
      assert (H0 : forall i, derivable_pt_lim (fun t => vcomp i (getRPY (rotation (pose_transform (turned B (uj_axis j) t) D)))) q0
         (vcomp i (rpy_derivative (getRPY (rotation (pose_transform (turned B (uj_axis j) q0) D))) (q_rot (rotation (turned B (uj_axis j) q0)) (uj_axis j)))))
        by (intros i; apply (turned_rpy_derive B D (uj_axis j)); auto).
      destruct r as [|[|[|r]]]; [exact (H0 0%nat)|exact (H0 1%nat)|exact (H0 2%nat)|cbn in Hr; lia].
    + assert (H0 : forall i, derivable_pt_lim (fun t => qcomp i (rotation (pose_transform (turned B (uj_axis j) t) D))) q0
         (qcomp i (q_derivative (q_inverse (rotation (pose_transform (turned B (uj_axis j) q0) D))) (q_rot (rotation (turned B (uj_axis j) q0)) (uj_axis j)))))
        by (intros i; apply (turned_quat_derive B (uj_axis j) D); auto).
      destruct r as [|[|[|[|r]]]]; [exact (H0 0%nat)|exact (H0 1%nat)|exact (H0 2%nat)|exact (H0 3%nat)|cbn in Hr; lia].
  - apply DC in HC. subst C. rewrite HP in EE. subst E.
    apply (dext (fun t => reported rt r (pose_transform (slid B (uj_axis j) t) D))); [intros; now rewrite HP|]. clear HP.
    unfold geometric_column. rewrite Ty. unfold reported, link_row.
    destruct r as [|[|[|r]]]; cbn [app v_list nth];
      [exact (slid_derive B (uj_axis j) D q0 0%nat UB)|exact (slid_derive B (uj_axis j) D q0 1%nat UB)|exact (slid_derive B (uj_axis j) D q0 2%nat UB)|].
    assert (Z : nth r (zeros (jac_rows rt - 3)) 0 = 0) by apply nth_zeros.
    rewrite Z. apply deriv_const. intros t. now rewrite (slid_rot B (uj_axis j) D t q0).
Qed.

Lemma nth_column {T} (d : T) J c r : nth c (nth r J []) d = nth r (map (fun row => nth c row d) J) d.
Proof.
  destruct (Nat.lt_ge_cases r (length J)) as [L|L].
  - symmetry. rewrite (nth_indep _ d ((fun row => nth c row d) [])) by now rewrite map_length. apply (map_nth (fun row => nth c row d)).
  - rewrite (nth_overflow J) by auto. symmetry. rewrite nth_overflow by (now rewrite map_length). now destruct c.
Qed.
Lemma entry_column (J : @mat RA) c r : entry J r c = nth r (column c J) 0.
Proof. unfold entry, column. rewrite <- n0_R. apply nth_column. Qed.

Section Reached.
Context tinyxml text (R : @Robot RA) root sorted jsorted ops m (Hr : reached tinyxml text R root sorted jsorted ops m).
Context (Hc : clean ops = true) (Hu : unit_axes R) (Hb : unit_bases ops).
Notation s := (after sorted jsorted ops).

Lemma reached_NoDup : NoDup (map uj_name (r_joints R)).
Proof. destruct (ld_tree _ _ _ _ (proj1 Hr)) as []; auto. Qed.

Lemma angle_at k q0 : angle_is m k q0 -> (k < length jsorted)%nat -> nth_error (as_angles s) k = Some q0.
Proof.
  intros H Lk. destruct (reached_Rep _ _ _ _ _ _ _ _ Hr) as [HR _].
  assert (L : (k < length (joint_angles m))%nat).
  { rewrite (wf_angles m (rep_wf _ _ _ _ _ _ _ _ HR)). rewrite <- (Forall2_len _ _ _ (rep_joints _ _ _ _ _ _ _ _ HR)). auto. }
  unfold angle_is in H. rewrite get_angles_spec in H by (intros j [<-|[]]; auto). cbn [map] in H.
  rewrite <- (rep_angles _ _ _ _ _ _ _ _ HR). rewrite (nth_error_nth' _ n0) by auto. congruence.
Qed.

Lemma reached_path k j i n q0 P : carries (r_joints R) (as_added s) j n \/ ~ carries (r_joints R) (as_added s) j n ->
  nth_error jsorted k = Some j -> nth_error (get_link_names m) i = Some n -> angle_is m k q0 -> (forall t, pose_with_joint m k i t (P t)) ->
  path R root jsorted s j q0 n P /\ pose_at R root jsorted s n (P q0).
Proof.
  intros Dec Ej En Ha HP. destruct (reached_Rep _ _ _ _ _ _ _ _ Hr) as [HR _]. assert (Lk : (k < length jsorted)%nat) by (eapply nth_error_lt; eauto).
  pose proof (angle_at k q0 Ha Lk) as Eq.
  assert (HP' : forall t, pose_at R root jsorted (mkAS (as_added s) (list_set (as_angles s) k t) (as_base s)) n (P t))
    by (intros t; eapply observed_pose; eauto).
  split.
  - eapply (path_of R root sorted jsorted); eauto using reached_NoDup, after_ok.
    + eapply loaded_axes_ok; eauto. apply Hr.
    + now apply after_base_unit.
    + intros t P1 P2 H1 H2. destruct (set_one_reached _ _ _ _ _ _ _ _ k t Hr Lk) as (m1 & _ & Hr1 & Ea).
      destruct (reached_Rep _ _ _ _ _ _ _ _ Hr1) as [HR1 _]. rewrite Ea in HR1. exact (rep_pose_det _ _ _ _ _ _ _ _ HR1 n P1 P2 H1 H2).
  - specialize (HP' q0). rewrite (list_set_same _ _ _ Eq) in HP'. destruct s. exact HP'.
Qed.

Lemma column_derives i jids rt wb m' J c k q0 P r :
  (forall k, In k jids -> (k < length (get_joint_names m))%nat) -> get_jacobian i jids rt wb m = (m', Ok J) ->
  nth_error jids c = Some k -> angle_is m k q0 -> (forall t, pose_with_joint m k i t (P t)) ->
  (r < jac_rows rt)%nat -> regular rt r (rotation (P q0)) ->
  derivable_pt_lim (fun t => reported rt r (P t)) q0 (entry J r c).
Proof.
  intros Hk X Ec Ha HP Lr Hreg. destruct (reached_Rep _ _ _ _ _ _ _ _ Hr) as [HR HC]. specialize (HC Hc).
  assert (G : Good m) by (split; auto; apply HR). rewrite (rep_joint_count _ _ _ _ _ _ _ _ HR) in Hk.
  destruct (jacobian_named _ _ _ _ _ _ _ _ _ _ _ _ _ _ HR G Hk X) as (_ & n & E & cols & En & HE & F & L & EJ).
  assert (En' : nth_error (get_link_names m) i = Some n) by now rewrite (rep_all_links _ _ _ _ _ _ _ _ HR).
  destruct (Forall2_nth_l _ _ _ c k F Ec) as (col & Ecol & (j & Ej & H)).
  assert (Col : column c J = col).
  { rewrite EJ. apply of_cols_column; [|apply L; eapply nth_error_In; eauto]. rewrite nth_error_app1; auto. eapply nth_error_lt; eauto. }
  rewrite entry_column, Col.
  destruct (reached_path k j i n q0 P ltac:(tauto) Ej En' Ha HP) as [PA PQ].
  assert (EE : E = P q0) by exact (rep_pose_det _ _ _ _ _ _ _ _ HR n _ _ HE PQ).
  destruct H as [(Hca & C & HCp & ->)|(Hca & ->)].
  - apply (path_derives R root jsorted s j q0 n P rt r E C); auto.
    + apply movable_iff. apply (rep_jsorted _ _ _ _ _ _ _ _ HR). eapply nth_error_In; eauto.
    + intros C' H'. exact (rep_pose_det _ _ _ _ _ _ _ _ HR _ _ _ H' HCp).
    + now rewrite EE.
  - assert (Z : nth r (zeros (jac_rows rt)) 0 = 0) by apply nth_zeros. rewrite Z.
    destruct PA as [_ PA|B D Y|B D Y]; try tauto. apply deriv_const. intros t. now rewrite PA.
Qed.
End Reached.
