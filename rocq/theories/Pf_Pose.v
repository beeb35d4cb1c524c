(** Queries on reached states, in terms of names. *)
From Coq Require Import String List Arith Lia Bool.
From Verif Require Import Base Num Pose DataStructure Urdf Kin Wrapper Spec_Robot Spec_Hist Spec_Load Spec_Jac
  Pf_Base Pf_Data Inv Pf_FK Pf_Frame Pf_Rp Rep Pf_Ops Pf_Name Pf_Reach Pf_Jac Pf_Safe.
Import ListNotations.
Local Open Scope m_scope.

Section PoseThm.
Context `{A : Arith}.

Section WithRep.
Context (R : Robot) (root : string) (sorted : list (string * option Inertial)) (jsorted : list UJoint).
Context (ms : list (string * Inertial)) (mass : num) (s : AState) (m : KM).
Context (HR : Rep R root sorted jsorted ms mass s m).

Lemma rep_all_links : get_link_names m = all_links sorted s.
Proof. apply HR. Qed.

Lemma rep_link i n : nth_error (all_links sorted s) i = Some n -> exists l, nth_error (links m) i = Some l /\ l_name l = n.
Proof.
  rewrite <- rep_all_links. unfold get_link_names. rewrite nth_error_map'. intros E.
  destruct (nth_error (links m) i) as [l|]; [|discriminate]. exists l. inversion E. auto.
Qed.

Lemma rep_link_inv i l : nth_error (links m) i = Some l -> nth_error (all_links sorted s) i = Some (l_name l).
Proof. intros E. rewrite <- rep_all_links. unfold get_link_names. rewrite nth_error_map', E. reflexivity. Qed.

Lemma rep_all_nodup : NoDup (all_links sorted s).
Proof. rewrite <- rep_all_links. apply HR. Qed.

Lemma rep_pose_ex n : In n (all_links sorted s) -> exists P, pose_at R root jsorted s n P.
Proof.
  intros I. apply In_nth_error in I. destruct I as (i & E). destruct (rep_link i n E) as (l & El & <-).
  destruct (PoseOf_total m i (rep_wf _ _ _ _ _ _ _ _ HR)) as (P & HP); [eapply nth_error_lt; eauto|].
  exists P. apply (fk_iff _ _ _ _ _ _ _ _ HR i l P El). exact HP.
Qed.

Lemma rep_pose_det n P1 P2 : pose_at R root jsorted s n P1 -> pose_at R root jsorted s n P2 -> P1 = P2.
Proof. apply (fk_det _ _ _ _ _ _ _ _ HR). Qed.

Lemma rep_pose_of i l P : nth_error (links m) i = Some l -> PoseOf m i P -> pose_at R root jsorted s (l_name l) P.
Proof. intros E H. now apply (fk_iff _ _ _ _ _ _ _ _ HR i l P E). Qed.

Lemma rep_pose_of' i n P : nth_error (all_links sorted s) i = Some n -> PoseOf m i P -> pose_at R root jsorted s n P.
Proof. intros E H. destruct (rep_link i n E) as (l & El & <-). now apply (rep_pose_of i l P El). Qed.

Lemma rep_of_pose i n P : nth_error (all_links sorted s) i = Some n -> pose_at R root jsorted s n P -> PoseOf m i P.
Proof. intros E H. destruct (rep_link i n E) as (l & El & <-). now apply (fk_iff _ _ _ _ _ _ _ _ HR i l P El). Qed.

Lemma rep_levels i n d : nth_error (all_links sorted s) i = Some n ->
  (Depth (links m) i d <-> levels (r_joints R) root (as_added s) n d).
Proof. intros E. destruct (rep_link i n E) as (l & El & <-). apply (levels_iff _ _ _ _ _ _ _ _ HR i l d El). Qed.

Lemma rep_cap_links : length (stack_data (tstack m)) = length sorted.
Proof. apply HR. Qed.

Lemma rep_stack_ok : (forall n d, levels (r_joints R) root (as_added s) n d -> d <= length sorted) -> StackOK m.
Proof.
  intros H i d D. rewrite rep_cap_links. pose proof (Depth_lt _ _ _ D) as L.
  destruct (lt_nth_error _ _ L) as (l & El). apply (H (l_name l)).
  apply (levels_iff _ _ _ _ _ _ _ _ HR i l d El). exact D.
Qed.

Lemma rep_joint_count : length (get_joint_names m) = length jsorted.
Proof. unfold get_joint_names. rewrite map_length. symmetry. eapply Forall2_len. apply HR. Qed.

(** the joint with a given id *)
Lemma rep_joint k j : nth_error jsorted k = Some j ->
  exists J c lc, nth_error (joints m) k = Some J /\ same_joint j J /\ j_child J = Some c /\
    nth_error (links m) c = Some lc /\ l_name lc = uj_child j /\ l_id lc = c /\ In j (r_joints R).
Proof.
  intros E. destruct (Forall2_nth_l _ _ _ _ _ (rep_joints _ _ _ _ _ _ _ _ HR) E) as (J & EJ & SJ).
  pose proof (rep_wf _ _ _ _ _ _ _ _ HR) as W.
  destruct (wf_joints m W k J EJ) as (MJ & _ & c & lc & Ec & Elc & Epj & Npar).
  exists J, c, lc. split; auto. split; auto. split; auto. split; auto.
  assert (Ij : In j (r_joints R)). { apply (rep_jsorted _ _ _ _ _ _ _ _ HR). eapply nth_error_In; eauto. }
  split; [|split; [apply (wf_ids m W c lc Elc) | auto]].
  destruct (nm_joint _ _ _ _ (rep_named _ _ _ _ _ _ _ _ HR) j Ij) as (i & J' & Hh & SJ').
  destruct Hh as (l & p & lp & El & En & Ep & Elp & Enp & EJ').
  (* J and J' are the same joint: both have an id and the joint table is by name *)
  assert (MJ' : movable (j_type J') = true) by (rewrite (sj_type _ _ SJ'), <- (sj_type _ _ SJ); auto).
  destruct (wf_joint m W i l p El Ep) as (J'' & EJ'' & HJ''). rewrite EJ' in EJ''. inversion EJ''; subst J''.
  destruct HJ'' as [HJ''|(_ & Ec' & k' & Ek' & EJk')]; [rewrite HJ'' in MJ'; discriminate|].
  assert (k = k').
  { assert (N1 : nth_error (map j_name (joints m)) k = Some (uj_name j)) by (rewrite nth_error_map', EJ; simpl; f_equal; apply SJ).
    assert (N2 : nth_error (map j_name (joints m)) k' = Some (uj_name j)) by (rewrite nth_error_map', EJk'; simpl; f_equal; apply SJ').
    pose proof (wf_joint_names m W) as ND. rewrite NoDup_nth_error in ND. apply ND; [eapply nth_error_lt; eauto|]. congruence. }
  subst k'. rewrite EJ in EJk'. inversion EJk'; subst J'. assert (c = i) by congruence. subst i. congruence.
Qed.

Lemma geometric_eq rt j J E C : same_joint j J -> is_movable (uj_type j) ->
  pad (dim_jacobi rt) (joint_column rt J (position E) (match rt with RPY => getRPY (rotation E) | _ => v_clear end)
     (match rt with XYZW => q_inverse (rotation E) | _ => q_clear end) C) = geometric_column rt j E C.
Proof.
  intros SJ M. unfold joint_column, geometric_column. rewrite (sj_type _ _ SJ), (sj_axis _ _ SJ).
  destruct (uj_type j); destruct rt; try reflexivity; destruct M as [M|[M|M]]; discriminate.
Qed.

Lemma jac_col_name rt e n E k j col : Good m -> nth_error (all_links sorted s) e = Some n -> nth_error jsorted k = Some j ->
  jac_col m rt e E k col ->
  (carries (r_joints R) (as_added s) j n /\ exists C, pose_at R root jsorted s (uj_child j) C /\ col = geometric_column rt j E C) \/
  (~ carries (r_joints R) (as_added s) j n /\ col = zeros (jac_rows rt)).
Proof.
  intros G En Ej (b & Eb & H). destruct (rep_link e n En) as (l & El & Eln).
  destruct (rep_joint k j Ej) as (J & c & lc & EJ & SJ & Ec & Elc & Enc & Eid & Ij).
  assert (RP : RpExact m).
  { destruct (as_added s) eqn:Ea; [|apply (rep_rp _ _ _ _ _ _ _ _ HR); congruence].
    exfalso. rewrite (rep_rp0 _ _ _ _ _ _ _ _ HR Ea) in Eb. unfold isRelevant, vget in Eb. destruct e; discriminate. }
  assert (Le : e < length (links m)) by (eapply nth_error_lt; eauto).
  destruct (proj2 RP e k J c Le EJ Ec) as (b' & Eb' & Hb). rewrite Eb in Eb'. inversion Eb'; subst b'.
  pose proof (carries_Anc _ _ _ _ _ _ _ _ HR j c lc e l Ij Elc Enc El) as CA. rewrite Eln in CA.
  assert (MJ : is_movable (uj_type j)).
  { apply movable_iff. apply (rep_jsorted _ _ _ _ _ _ _ _ HR). eapply nth_error_In; eauto. }
  destruct b.
  - left. split; [apply CA, Hb; reflexivity|]. destruct H as (hj & c' & l' & C & Ehj & Ec' & El' & HC & ->).
    assert (hj = J) by congruence. subst hj. assert (c' = c) by congruence. subst c'. assert (l' = lc) by congruence. subst l'.
    exists C. split; [|now apply geometric_eq]. rewrite <- Enc. apply (rep_pose_of c lc C Elc). now rewrite Eid in HC.
  - right. split; [|exact H]. intros X. apply CA, Hb in X. discriminate.
Qed.

End WithRep.

(** matrices given by columns *)
Lemma of_cols_column dim cols c col : nth_error cols c = Some col -> length col = dim -> column c (of_cols dim cols) = col.
Proof.
  intros E L. unfold column, of_cols. rewrite map_map. apply list_ext. intros i. rewrite nth_error_map'.
  destruct (Nat.lt_ge_cases i dim) as [Li|Li].
  - rewrite nth_error_seq by auto. simpl.
    rewrite (nth_indep _ _ ((fun c => nth i c n0) [])); [|rewrite map_length; eapply nth_error_lt; eauto].
    rewrite (map_nth (fun c => nth i c n0)). rewrite (nth_error_nth _ _ _ E). symmetry. apply nth_error_nth'. lia.
  - assert (N : nth_error (seq 0 dim) i = None) by (apply nth_error_None; rewrite seq_length; lia). rewrite N. simpl.
    symmetry. apply nth_error_None. lia.
Qed.

Lemma of_cols_shape dim cols : has_shape dim (length cols) (of_cols dim cols).
Proof.
  split; [apply of_cols_length|]. unfold of_cols. intros row I. apply in_map_iff in I. destruct I as (r & <- & _). apply map_length.
Qed.

Lemma base_cols_length rt B E : length (base_cols rt B E) = 6.
Proof. reflexivity. Qed.

Lemma base_cols_dim rt B E c : In c (base_cols rt B E) -> length c = dim_jacobi rt.
Proof.
  unfold base_cols. intros I. apply in_app_or in I. destruct I as [I|I]; apply in_map_iff in I; destruct I as (k & <- & I).
  - apply unit_col_length. pose proof (dim_ge rt). simpl in I. intuition lia.
  - apply base_column_length.
Qed.

(** the Jacobian in terms of names *)
Definition named_col (R : Robot) (root : string) (jsorted : list UJoint) (s : AState) (rt : RotationType) (n : string)
  (E : Pose) (k : nat) (col : list num) : Prop :=
  exists j, nth_error jsorted k = Some j /\
  ((carries (r_joints R) (as_added s) j n /\ exists C, pose_at R root jsorted s (uj_child j) C /\ col = geometric_column rt j E C) \/
   (~ carries (r_joints R) (as_added s) j n /\ col = zeros (jac_rows rt))).

Lemma jacobian_named R root sorted jsorted ms mass s m e jids rt wb m' J :
  Rep R root sorted jsorted ms mass s m -> Good m ->
  (forall k, In k jids -> k < length jsorted) -> get_jacobian e jids rt wb m = (m', Ok J) ->
  Query m m' /\ exists n E cols, nth_error (all_links sorted s) e = Some n /\ pose_at R root jsorted s n E /\
    Forall2 (named_col R root jsorted s rt n E) jids cols /\ (forall c, In c cols -> length c = jac_rows rt) /\
    J = of_cols (jac_rows rt) (cols ++ if wb then base_cols rt (as_base s) E else []).
Proof.
  intros HR G Hk X. destruct (get_jacobian_ok m e jids rt wb m' J G X) as (Q & E & cols & HE & F & L & EJ). split; auto.
  destruct (lt_nth_error _ _ (pose_of_lt _ _ _ _ _ HE)) as (l & El).
  exists (l_name l), E, cols. pose proof (rep_link_inv _ _ _ _ _ _ _ _ HR e l El) as En. split; auto.
  split; [exact (rep_pose_of _ _ _ _ _ _ _ _ HR e l E El HE)|]. split; [|split].
  - clear X Q L EJ. induction F as [|k col jids cols Hc F IH]; constructor.
    + destruct (lt_nth_error jsorted k (Hk k (or_introl eq_refl))) as (j & Ej). exists j. split; auto.
      exact (jac_col_name _ _ _ _ _ _ _ _ HR rt e (l_name l) E k j col G En Ej Hc).
    + apply IH. intros k' I. apply Hk. now right.
  - exact L.
  - rewrite <- (rep_base _ _ _ _ _ _ _ _ HR). exact EJ.
Qed.

Lemma named_col_det R root sorted jsorted ms mass s m rt n E k c1 c2 : Rep R root sorted jsorted ms mass s m ->
  named_col R root jsorted s rt n E k c1 -> named_col R root jsorted s rt n E k c2 -> c1 = c2.
Proof.
  intros HR (j & Ej & H) (j' & Ej' & H'). assert (j' = j) by congruence. subst j'.
  destruct H as [(X & C & HC & ->)|(X & ->)]; destruct H' as [(X' & C' & HC' & ->)|(X' & ->)]; try tauto; auto.
  now rewrite (rep_pose_det _ _ _ _ _ _ _ _ HR _ _ _ HC HC').
Qed.

Lemma jacobian_det R root sorted jsorted ms mass s m1 m2 e jids rt wb m1' m2' J1 J2 :
  Rep R root sorted jsorted ms mass s m1 -> Rep R root sorted jsorted ms mass s m2 -> Good m1 -> Good m2 ->
  (forall k, In k jids -> k < length jsorted) ->
  get_jacobian e jids rt wb m1 = (m1', Ok J1) -> get_jacobian e jids rt wb m2 = (m2', Ok J2) -> J2 = J1.
Proof.
  intros R1 R2 G1 G2 Hk X1 X2.
  destruct (jacobian_named _ _ _ _ _ _ _ _ _ _ _ _ _ _ R1 G1 Hk X1) as (_ & n & E & cols & En & HE & F & _ & ->).
  destruct (jacobian_named _ _ _ _ _ _ _ _ _ _ _ _ _ _ R2 G2 Hk X2) as (_ & n' & E' & cols' & En' & HE' & F' & _ & ->).
  assert (n' = n) by congruence. subst n'. rewrite (rep_pose_det _ _ _ _ _ _ _ _ R1 _ _ _ HE HE') in *.
  f_equal. f_equal. clear - F F' R1. revert cols' F'. induction F as [|k c jids cols Hc F IH]; intros cols' F'; inversion F' as [|? c' ? cols1 Hc' F1]; subst; auto.
  f_equal; [exact (named_col_det _ _ _ _ _ _ _ _ _ _ _ _ _ _ R1 Hc' Hc) | auto].
Qed.

(** the Jacobian only depends on the configuration *)
Lemma jac_col_det m1 m2 rt e E jid c1 c2 : same_config m1 m2 -> (forall k l, nth_error (links m1) k = Some l -> l_id l = k) ->
  jac_col m1 rt e E jid c1 -> jac_col m2 rt e E jid c2 -> c1 = c2.
Proof.
  intros (s & c & ->) Hid (b & Eb & H) (b' & Eb' & H'). simpl in *. rewrite Eb in Eb'. inversion Eb'; subst b'.
  destruct b; [|congruence]. destruct H as (hj & k & l & C & E1 & E2 & E3 & HC & ->). destruct H' as (hj' & k' & l' & C' & E1' & E2' & E3' & HC' & ->).
  assert (hj' = hj) by congruence. subst. assert (k' = k) by congruence. subst. assert (l' = l) by congruence. subst.
  assert (C' = C) by exact (pose_of_det _ _ _ _ _ _ HC' HC). now subst.
Qed.

End PoseThm.
