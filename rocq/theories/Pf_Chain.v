(** The pose of a link as a function of one joint angle. *)
From Coq Require Import String List Arith Lia Bool Reals Lra.
From Verif Require Import Base Num Pose DataStructure Urdf Kin Wrapper Spec_Robot Spec_Hist Spec_Load Spec_Jac Spec_Rot Spec_Deriv RealArith
  Pf_Base Pf_Data Inv Pf_FK Pf_Frame Pf_Rp Rep Pf_Ops Pf_Name Pf_Reach Pf_Jac Pf_Safe Pf_Pose Pf_Local Pf_Hist Pf_Real Pf_Rot Pf_Unit.
Import ListNotations.

Section Chain.
Context `{A : Arith}.
Context (R : Robot) (root : string) (sorted : list (string * option Inertial)) (jsorted : list UJoint).
Context (ms : list (string * Inertial)) (mass : num) (s : AState) (m : KM).
Context (HR : Rep R root sorted jsorted ms mass s m).
Notation js := (r_joints R).
Notation added := (as_added s).

Lemma carries_levels j n dc : levels js root added (uj_child j) dc -> carries js added j n -> exists d, levels js root added n d /\ dc <= d.
Proof.
  intros L H. induction H as [|j' I H IH|n p T I H IH]; [eauto| |].
  - destruct IH as (d & Hd & Le). exists (S d). split; [now apply levels_joint | lia].
  - destruct IH as (d & Hd & Le). exists (S d). split; [eapply levels_added; eauto | lia].
Qed.

Lemma parent_not_carried j : In j js -> ~ carries js added j (uj_parent j).
Proof.
  intros I H. destruct (nm_joint _ _ _ _ (rep_named _ _ _ _ _ _ _ _ HR) j I) as (i & J & (l & p & lp & E1 & E2 & E3 & E4 & E5 & E6) & _).
  destruct (wf_tree m (rep_wf _ _ _ _ _ _ _ _ HR) p) as (dp & Dp); [eapply nth_error_lt; eauto|].
  pose proof (proj1 (levels_iff _ _ _ _ _ _ _ _ HR p lp dp E4) Dp) as Lp. rewrite E5 in Lp.
  destruct (carries_levels j _ _ (levels_joint _ _ _ j dp I Lp) H) as (d & Hd & Le). rewrite <- E5 in Hd.
  apply (levels_iff _ _ _ _ _ _ _ _ HR p lp d E4) in Hd. pose proof (Depth_det _ _ _ _ Dp Hd). lia.
Qed.

Lemma same_name_same_joint j j' : NoDup (map uj_name js) -> In j js -> In j' js -> uj_name j = uj_name j' -> j = j'.
Proof.
  intros N I I' E. apply In_nth_error in I. apply In_nth_error in I'. destruct I as (a & Ea), I' as (b & Eb).
  rewrite NoDup_nth_error in N. assert (a = b).
  { apply N; [rewrite map_length; eapply nth_error_lt; eauto|]. rewrite !nth_error_map', Ea, Eb. simpl. now rewrite E. }
  congruence.
Qed.

Lemma parent_pose_ex j : In j js -> exists P, pose_at R root jsorted s (uj_parent j) P.
Proof.
  intros I. destruct (nm_joint _ _ _ _ (rep_named _ _ _ _ _ _ _ _ HR) j I) as (i & J & (l & p & lp & E1 & E2 & E3 & E4 & E5 & E6) & _).
  rewrite <- E5. apply (rep_pose_ex _ _ _ _ _ _ _ _ HR). eapply nth_error_In. apply (rep_link_inv _ _ _ _ _ _ _ _ HR _ _ E4).
Qed.
End Chain.

Section ChainR.
Context (R : @Robot RA) (root : string) (sorted : list (string * option Inertial)) (jsorted : list UJoint).
Context (ms : list (string * Inertial)) (mass : @num RA) (s : AState) (m : KM).
Context (HR : Rep R root sorted jsorted ms mass s m).
Notation js := (r_joints R).
Notation added := (as_added s).

(** everything below joint [j] is rigidly attached to its child link *)
Lemma chain j n q base Ppar : NoDup (map uj_name js) -> axes_ok js -> added_ok added -> unit_q (rotation base) ->
  In j js -> carries js added j n -> fk js root added q base (uj_parent j) Ppar ->
  exists D, unit_q (rotation D) /\ forall q',
    (forall j', In j' js -> uj_name j' <> uj_name j -> q' (uj_name j') = q (uj_name j')) ->
    fk js root added q' base n (pose_transform (pose_transform Ppar (motion j (q' (uj_name j)))) D).
Proof.
  intros N Ha Hd Hb I H HP. pose proof (parent_not_carried _ _ _ _ _ _ _ _ HR) as NC.
  assert (UP : unit_q (rotation Ppar)) by (eapply fk_unit; eauto).
  assert (UC : forall a, unit_q (rotation (pose_transform Ppar (motion j a)))) by (intros a; cbn [pose_transform rotation]; apply unit_mul; auto; eapply motion_unit; eauto).
  induction H as [|j' I' H IH|n p T I' H IH].
  - exists pose_clear. split; [apply unit_clear|]. intros q' Hq. rewrite pt_1r. apply fk_joint; auto.
    apply (fk_local _ _ _ q q'); auto. intros j' I' C. symmetry. apply Hq; auto. intros E.
    apply (same_name_same_joint R) in E; auto. subst j'. exact (NC j I C).
  - destruct IH as (D & UD & IH). exists (pose_transform D (motion j' (q (uj_name j')))). split; [cbn [pose_transform rotation]; apply unit_mul; auto; eapply motion_unit; eauto|].
    intros q' Hq. assert (E : uj_name j' <> uj_name j). { intros E. apply (same_name_same_joint R) in E; auto. subst j'. exact (NC j I H). }
    rewrite <- (Hq j' I' E), <- pt_assoc by (apply unit_pos; auto). apply fk_joint; auto.
  - destruct IH as (D & UD & IH). exists (pose_transform D T). split; [cbn [pose_transform rotation]; apply unit_mul; auto; apply rpy_pose_unit; eapply Hd; eauto|].
    intros q' Hq. rewrite <- pt_assoc by (apply unit_pos; auto). eapply fk_added; eauto.
Qed.
End ChainR.

(** ** observing the pose while one joint moves *)
Section Observe.
Context `{A : Arith}.
Local Open Scope m_scope.

Lemma by_name_set (ns : list string) v k n t : NoDup ns -> length v = length ns -> nth_error ns k = Some n ->
  by_name ns (list_set v k t) n = t /\ forall n', n' <> n -> by_name ns (list_set v k t) n' = by_name ns v n'.
Proof.
  intros N L E. split.
  - unfold by_name. rewrite (assoc_combine_nth ns (list_set v k t) k n t); auto. apply nth_error_list_set_eq. rewrite L. eapply nth_error_lt; eauto.
  - intros n' Ne. apply by_name_ext; [apply list_set_length|]. intros k' E'. apply nth_error_list_set_ne. congruence.
Qed.

Lemma set_one_reached tinyxml text R root sorted jsorted ops m k t : reached tinyxml text R root sorted jsorted ops m -> k < length jsorted ->
  exists m1, set_joint_angles [k] [t] m = (m1, Ok tt) /\ reached tinyxml text R root sorted jsorted (ops ++ [Op_set_joint_angles [k] [t]]) m1 /\
    after sorted jsorted (ops ++ [Op_set_joint_angles [k] [t]]) =
    mkAS (as_added (after sorted jsorted ops)) (list_set (as_angles (after sorted jsorted ops)) k t) (as_base (after sorted jsorted ops)).
Proof.
  intros Hr Lk. destruct (reached_Rep _ _ _ _ _ _ _ _ Hr) as [HR _]. rewrite after_app.
  assert (L : k < length (joint_angles m)).
  { rewrite (wf_angles m (rep_wf _ _ _ _ _ _ _ _ HR)). rewrite <- (Forall2_len _ _ _ (rep_joints _ _ _ _ _ _ _ _ HR)). auto. }
  eexists. split; [|split; [|reflexivity]].
  - unfold set_joint_angles, set_joint_angles_nc. cbn [length seq combine]. cbn [for_each fst snd]. unfold bind, get, lift, put, ret. cbn [vget nth_error].
    rewrite vset_lt by auto. reflexivity.
  - apply (reached_run _ _ _ _ _ _ _ _ _ _ Hr). cbn [run exec]. unfold set_joint_angles, set_joint_angles_nc. cbn [length seq combine]. cbn [for_each fst snd]. unfold bind, get, lift, put, ret. cbn [vget nth_error].
    rewrite vset_lt by auto. reflexivity.
Qed.

Lemma observed_pose tinyxml text R root sorted jsorted ops m i n k t P :
  reached tinyxml text R root sorted jsorted ops m -> k < length jsorted -> nth_error (get_link_names m) i = Some n ->
  pose_with_joint m k i t P ->
  pose_at R root jsorted (mkAS (as_added (after sorted jsorted ops)) (list_set (as_angles (after sorted jsorted ops)) k t) (as_base (after sorted jsorted ops))) n P.
Proof.
  intros Hr Lk En (m2 & X). destruct (set_one_reached _ _ _ _ _ _ _ _ k t Hr Lk) as (m1 & E1 & Hr1 & Ea).
  destruct (reached_Rep _ _ _ _ _ _ _ _ Hr) as [HR _]. rewrite (rep_all_links _ _ _ _ _ _ _ _ HR) in En.
  rewrite (bind_ok _ _ _ _ _ E1) in X. destruct (reached_Rep _ _ _ _ _ _ _ _ Hr1) as [HR1 HC1].
  assert (C : clean (ops ++ [Op_set_joint_angles [k] [t]]) = true) by (unfold clean; rewrite fold_left_app; reflexivity). specialize (HC1 C).
  destruct (get_link_pose_ok m1 i m2 P ltac:(split; auto; apply HR1) X) as [HP _]. rewrite Ea in HR1.
  apply (rep_pose_of' _ _ _ _ _ _ _ _ HR1 i n P); auto.
Qed.
End Observe.
