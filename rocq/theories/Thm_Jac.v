(** C09, C16, C17: which columns a Jacobian has, and memory safety. *)
From Coq Require Import String List Arith Lia Bool Permutation.
From Verif Require Import Base Num Pose DataStructure Urdf Kin Wrapper Spec_Robot Spec_Hist Spec_Load Spec_Jac
  Pf_Base Pf_Data Inv Pf_FK Pf_Frame Pf_Rp Rep Pf_Ops Pf_Name Pf_Reach Pf_Jac Pf_Safe Pf_Pose Pf_Local RealArith Ex_Robot Ex_Bare.
Import ListNotations.
Local Open Scope m_scope.

(** C09.  After any clean history: the column of a joint that does not carry the link is
    zero; the column of one that does is the geometric column at the link's and the joint
    child's pose. *)
Theorem C09_columns_zero_exactly_off_the_path :
  forall (A : Arith) tinyxml text R root sorted jsorted ops m,
    reached tinyxml text R root sorted jsorted ops m -> clean ops = true ->
    let s := after sorted jsorted ops in
    forall i n jids rt wb m' J, nth_error (get_link_names m) i = Some n ->
      (forall k, In k jids -> k < length (get_joint_names m)) ->
      get_jacobian i jids rt wb m = (m', Ok J) ->
      forall c k j, nth_error jids c = Some k -> nth_error jsorted k = Some j ->
        (~ carries (r_joints R) (as_added s) j n -> column c J = zeros (jac_rows rt)) /\
        (carries (r_joints R) (as_added s) j n ->
           exists E C, pose_at R root jsorted s n E /\ pose_at R root jsorted s (uj_child j) C /\
                       column c J = geometric_column rt j E C).
Proof.
  intros A tinyxml text R root sorted jsorted ops m Hr Hc s i n jids rt wb m' J En Hk X c k j Ec Ej.
  destruct (reached_Rep _ _ _ _ _ _ _ _ Hr) as [HR HC]. specialize (HC Hc). fold s in HR.
  assert (G : Good m) by (split; auto; apply HR).
  rewrite (rep_all_links _ _ _ _ _ _ _ _ HR) in En. rewrite (rep_joint_count _ _ _ _ _ _ _ _ HR) in Hk.
  destruct (jacobian_named _ _ _ _ _ _ _ _ _ _ _ _ _ _ HR G Hk X) as (_ & n' & E & cols & En' & HE & F & L & ->).
  assert (n' = n) by congruence. subst n'.
  destruct (Forall2_nth_l _ _ _ c k F Ec) as (col & Ecol & (j' & Ej' & H)). assert (j' = j) by congruence. subst j'.
  assert (Col : column c (of_cols (jac_rows rt) (cols ++ if wb then base_cols rt (as_base s) E else [])) = col).
  { apply of_cols_column; [|apply L; eapply nth_error_In; eauto]. rewrite nth_error_app1; auto. eapply nth_error_lt; eauto. }
  rewrite Col. destruct H as [(H & C & HCp & ->)|(H & ->)]; split; intros H'; try tauto; auto. exists E, C. auto.
Qed.
Print Assumptions C09_columns_zero_exactly_off_the_path.

(** in the example, joint j2 (id 1) carries the tool (id 3) but not link l1 (id 1), and both
    Jacobians are computed *)
Example C09_example : exists m, reached ex_tinyxml ex_text ex_R "base" ex_sorted ex_jsorted ex_ops m /\ clean ex_ops = true /\
  (exists m' J, get_jacobian 3 [1; 0] XYZW true m = (m', Ok J)) /\ (exists m' J, get_jacobian 1 [1; 0] RPY false m = (m', Ok J)) /\
  let s := after ex_sorted ex_jsorted ex_ops in
  carries (r_joints ex_R) (as_added s) (ex_j 0) "tool" /\ ~ carries (r_joints ex_R) (as_added s) (ex_j 0) "l1".
Proof.
  destruct ex_run as (m & E). exists m. split; [exact (ex_reached _ _ E)|]. split; [reflexivity|].
  split; [apply (observe_answer ex_ops (get_jacobian 3 [1; 0] XYZW true) m E); vm_compute; reflexivity|].
  split; [apply (observe_answer ex_ops (get_jacobian 1 [1; 0] RPY false) m E); vm_compute; reflexivity|].
  intros s. split.
  - change "tool"%string with (nth 2 ["l2"; "l1"; "tool"] "")%string. rewrite <- ex_child.
    apply carries_joint; [rewrite ex_joints; right; right; left; reflexivity|]. rewrite ex_parent. cbn [nth].
    change "l2"%string with (nth 0 ["l2"; "l1"; "tool"] "")%string. rewrite <- ex_child. apply carries_child.
  - apply (not_carries _ _ _ ["l1"; "base"]%string _ [("l1_com", "l1"); ("l2_com", "l2"); ("camera", "tool")]%string _ ex_edges);
      [unfold s; rewrite ex_after | | | rewrite ex_child |]; reflexivity.
Qed.

(** C16.  Shape; and the column of a joint is the same in every Jacobian of the same link
    and rotation type at the same configuration, wherever the joint stands in the list;
    likewise for the six base columns. *)
Theorem C16_jacobian_layout :
  forall (A : Arith) tinyxml text R root sorted jsorted ops m,
    reached tinyxml text R root sorted jsorted ops m -> clean ops = true ->
    forall i jids rt wb m' J, (forall k, In k jids -> k < length (get_joint_names m)) ->
      get_jacobian i jids rt wb m = (m', Ok J) ->
      has_shape (jac_rows rt) (length jids + if wb then 6 else 0) J /\
      forall jids2 wb2 m2' J2, (forall k, In k jids2 -> k < length (get_joint_names m)) ->
        get_jacobian i jids2 rt wb2 m = (m2', Ok J2) ->
        (forall c c2 k, nth_error jids c = Some k -> nth_error jids2 c2 = Some k -> column c J = column c2 J2) /\
        (wb = true -> wb2 = true -> forall b, b < 6 -> column (length jids + b) J = column (length jids2 + b) J2).
Proof.
  intros A tinyxml text R root sorted jsorted ops m Hr Hc i jids rt wb m' J Hk X.
  destruct (reached_Rep _ _ _ _ _ _ _ _ Hr) as [HR HC]. specialize (HC Hc). set (s := after sorted jsorted ops) in *.
  assert (G : Good m) by (split; auto; apply HR).
  rewrite (rep_joint_count _ _ _ _ _ _ _ _ HR) in *.
  destruct (jacobian_named _ _ _ _ _ _ _ _ _ _ _ _ _ _ HR G Hk X) as (_ & n & E & cols & En & HE & F & L & ->).
  assert (Lc : length cols = length jids) by (symmetry; eapply Forall2_len; eauto). split.
  { replace (length jids + (if wb then 6 else 0)) with (length (cols ++ if wb then base_cols rt (as_base s) E else [])).
    - apply of_cols_shape.
    - rewrite app_length, Lc. destruct wb; reflexivity. }
  intros jids2 wb2 m2' J2 Hk2 X2.
  destruct (jacobian_named _ _ _ _ _ _ _ _ _ _ _ _ _ _ HR G Hk2 X2) as (_ & n2 & E2 & cols2 & En2 & HE2 & F2 & L2 & ->).
  assert (n2 = n) by congruence. subst n2. rewrite (rep_pose_det _ _ _ _ _ _ _ _ HR _ _ _ HE2 HE) in *.
  assert (Lc2 : length cols2 = length jids2) by (symmetry; eapply Forall2_len; eauto). split.
  - intros c c2 k Ec Ec2.
    destruct (Forall2_nth_l _ _ _ c k F Ec) as (col & Ecol & H). destruct (Forall2_nth_l _ _ _ c2 k F2 Ec2) as (col2 & Ecol2 & H2).
    pose proof (named_col_det _ _ _ _ _ _ _ _ _ _ _ _ _ _ HR H H2) as Eq. subst col2.
    rewrite (of_cols_column _ _ c col), (of_cols_column _ _ c2 col); auto.
    + rewrite nth_error_app1; auto. eapply nth_error_lt; eauto.
    + apply L. eapply nth_error_In; eauto.
    + rewrite nth_error_app1; auto. eapply nth_error_lt; eauto.
    + apply L. eapply nth_error_In; eauto.
  - intros -> -> b Lb. rewrite <- Lc, <- Lc2.
    destruct (nth_error (base_cols rt (as_base s) E) b) as [col|] eqn:Eb.
    + rewrite (of_cols_column _ _ _ col), (of_cols_column _ _ _ col); auto.
      * rewrite nth_error_app2 by lia. now replace (length cols2 + b - length cols2) with b by lia.
      * apply (base_cols_dim rt (as_base s) E). eapply nth_error_In; eauto.
      * rewrite nth_error_app2 by lia. now replace (length cols + b - length cols) with b by lia.
      * apply (base_cols_dim rt (as_base s) E). eapply nth_error_In; eauto.
    + apply nth_error_None in Eb. rewrite base_cols_length in Eb. lia.
Qed.
Print Assumptions C16_jacobian_layout.

Example C16_example : exists m, reached ex_tinyxml ex_text ex_R "base" ex_sorted ex_jsorted ex_ops m /\ clean ex_ops = true /\
  (exists m' J, get_jacobian 3 [1; 0] XYZW true m = (m', Ok J)) /\ (exists m' J, get_jacobian 3 [0; 0; 1] XYZW true m = (m', Ok J)) /\
  (forall k, In k [0; 0; 1] -> k < length (get_joint_names m)).
Proof.
  destruct ex_run as (m & E). exists m. split; [exact (ex_reached _ _ E)|]. split; [reflexivity|].
  split; [apply (observe_answer ex_ops (get_jacobian 3 [1; 0] XYZW true) m E); vm_compute; reflexivity|].
  split; [apply (observe_answer ex_ops (get_jacobian 3 [0; 0; 1] XYZW true) m E); vm_compute; reflexivity|].
  destruct (reached_Rep _ _ _ _ _ _ _ _ (ex_reached _ _ E)) as [HR _]. rewrite (rep_joint_count _ _ _ _ _ _ _ _ HR).
  intros k [<-|[<-|[<-|[]]]]; simpl; lia.
Qed.

(** C17, the part that holds.  After any history (stale cache or not) in which some link was
    added or the document has some inertial data, if no link has more joints above it than
    the document has links, Jacobian queries succeed with the right shape. *)
Theorem C17_jacobian_memory_safety_partial :
  forall (A : Arith) tinyxml text R root sorted jsorted ops m,
    reached tinyxml text R root sorted jsorted ops m ->
    let added := as_added (after sorted jsorted ops) in
    added <> [] ->
    (forall n d, levels (r_joints R) root added n d -> d <= length (r_links R)) ->
    forall jids rt wb, (forall k, In k jids -> k < length (get_joint_names m)) ->
      (forall i, i < length (get_link_names m) ->
         exists m' J, get_jacobian i jids rt wb m = (m', Ok J) /\ has_shape (jac_rows rt) (length jids + if wb then 6 else 0) J) /\
      exists m' J, get_com_jacobian jids wb m = (m', Ok J) /\ has_shape 3 (length jids + if wb then 6 else 0) J.
Proof.
  intros A tinyxml text R root sorted jsorted ops m Hr added Ha Hl jids rt wb Hk.
  destruct (reached_Rep _ _ _ _ _ _ _ _ Hr) as [HR _]. destruct Hr as (L & O & _). fold added in HR.
  assert (Ls : length sorted = length (r_links R)) by apply (Permutation_length (ord_links _ _ _ O)).
  assert (SK : StackOK m) by (apply (rep_stack_ok _ _ _ _ _ _ _ _ HR); intros n d H; rewrite Ls; eapply Hl; exact H).
  assert (JF : JFit jids m).
  { split; [split; [apply HR | exact SK]|]. split; [intros _; apply (rep_rp _ _ _ _ _ _ _ _ HR Ha)|].
    unfold get_joint_names in Hk. rewrite map_length in Hk. exact Hk. }
  split.
  - intros i Li. unfold get_link_names in Li. rewrite map_length in Li.
    destruct (jacobian_safe i jids rt wb m (conj JF Li)) as (m' & J & E & _ & H). exists m', J. auto.
  - destruct (com_jacobian_safe jids wb m JF) as (m' & J & E & _ & H). exists m', J. auto.
Qed.
Print Assumptions C17_jacobian_memory_safety_partial.

Example C17_example : exists m, reached ex_tinyxml ex_text ex_R "base" ex_sorted ex_jsorted [Op_set_joint_angle 0 n1] m /\
  as_added (after ex_sorted ex_jsorted [Op_set_joint_angle 0 n1]) <> [] /\
  forall n d, levels (r_joints ex_R) "base" (as_added (after ex_sorted ex_jsorted [Op_set_joint_angle 0 n1])) n d -> d <= length (r_links ex_R).
Proof.
  assert (X : exists m, run [Op_set_joint_angle 0 n1] ex_m0 = Some m) by (apply is_some_ex; vm_compute; reflexivity).
  destruct X as (m & E). exists m. split; [exact (ex_reached _ _ E)|]. split; [rewrite ex_after; discriminate|].
  intros n d. apply levels_added_bound; [exact ex_tree|].
  intros x p T I. rewrite ex_links. apply (in_map fst) in I.
  assert (N : map fst (as_added (after ex_sorted ex_jsorted [Op_set_joint_angle 0 n1])) = [("l1_com", "l1"); ("l2_com", "l2")]%string)
    by (rewrite ex_after; reflexivity).
  rewrite N in I. clear - I. cbn [fst] in I. destruct I as [I|[I|[]]]; inversion I; clear - x; simpl; intuition discriminate.
Qed.

(** C17, refuted.  For every document without inertial data, right after construction (and
    after any history without add_new_link), every Jacobian query for at least one joint
    reads outside the relevance table. *)
Theorem C17_jacobian_without_inertial_refuted :
  (forall (A : Arith) tinyxml text R root sorted jsorted ops m,
     reached tinyxml text R root sorted jsorted ops m ->
     as_added (after sorted jsorted ops) = [] ->
     forall i k jids rt wb, i < length (get_link_names m) ->
       snd (get_jacobian i (k :: jids) rt wb m) = UB OutOfBounds) /\
  exists tinyxml text R root sorted jsorted m,
    @reached RA tinyxml text R root sorted jsorted [] m /\ as_added (after sorted jsorted []) = [] /\
    (exists j, In j jsorted) /\ 0 < length (get_link_names m).
Proof.
  split.
  - intros A tinyxml text R root sorted jsorted ops m Hr Ha i k jids rt wb Li.
    destruct (reached_Rep _ _ _ _ _ _ _ _ Hr) as [HR _]. destruct Hr as (L & O & _).
    pose proof (rep_rp0 _ _ _ _ _ _ _ _ HR Ha) as Rp. pose proof (rep_wf _ _ _ _ _ _ _ _ HR) as W.
    unfold get_link_names in Li. rewrite map_length in Li.
    destruct (wf_tree m W i Li) as (d & D). unfold get_jacobian.
    destruct (get_link_pose_safe m i d W D) as [(m' & P & E)|(E & _)].
    + rewrite (bind_ok _ _ _ _ _ E). cbn [length seq combine]. unfold for_each at 1. cbn [fst snd].
      assert (Rp' : rptable m' = []).
      { pose proof (get_link_pose_frame i m) as Fr. rewrite E in Fr. destruct Fr as (sk & cc & Eq & _). cbn [fst] in Eq. subst m'. exact Rp. }
      unfold jacobian_joint at 1. unfold bind, get, lift. rewrite Rp'. unfold isRelevant, vget. destruct i; reflexivity.
    + unfold bind at 1. rewrite E. reflexivity.
  - exists bare_tinyxml, ex_text, bare_R, "base"%string, bare_sorted, bare_jsorted, bare_m0.
    pose proof (bare_reached [] bare_m0 eq_refl) as Hr. split; [exact Hr|].
    split; [reflexivity|]. split; [exists bare_j; left; reflexivity|].
    destruct (reached_Rep _ _ _ _ _ _ _ _ Hr) as [HR _]. rewrite (rep_all_links _ _ _ _ _ _ _ _ HR). simpl; lia.
Qed.
Print Assumptions C17_jacobian_without_inertial_refuted.
