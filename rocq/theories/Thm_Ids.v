(** C25-C28, C30, C44, C45: names, ids, adding links, joint angles, limits. *)
From Coq Require Import String List Arith Lia Bool Permutation Sorted.
From Verif Require Import Base Num Pose DataStructure Urdf Kin Wrapper Spec_Robot Spec_Hist Spec_Load Spec_Jac
  Pf_Base Pf_Data Inv Pf_FK Pf_Frame Pf_Rp Rep Pf_Ops Pf_Name Pf_Reach Pf_Jac Pf_Safe Pf_Pose Pf_Local Pf_Hist RealArith Ex_Robot Ex_Bare.
Import ListNotations.
Local Open Scope m_scope.

(** C25.  Names are pairwise distinct; get_link_ids gives positions in get_link_names; and
    later calls only ever append names. *)
Theorem C25_link_ids_stable_bijection :
  forall (A : Arith) tinyxml text R root sorted jsorted ops m,
    reached tinyxml text R root sorted jsorted ops m ->
    NoDup (get_link_names m) /\
    (forall names, (forall n, In n names -> In n (get_link_names m)) ->
       exists ids, get_link_ids names m = (m, Ok ids) /\
                   Forall2 (fun n i => nth_error (get_link_names m) i = Some n) names ids) /\
    (forall ops2 m2, run ops2 m = Some m2 -> exists new, get_link_names m2 = get_link_names m ++ new).
Proof.
  intros A tinyxml text R root sorted jsorted ops m Hr.
  destruct (reached_Rep _ _ _ _ _ _ _ _ Hr) as [HR _]. pose proof (rep_wf _ _ _ _ _ _ _ _ HR) as W.
  split; [apply (wf_link_names m W)|]. split.
  - intros names Hn. unfold get_link_ids. rewrite bind_get. unfold lift. rewrite (wf_link_ids m W).
    unfold get_link_names in *. set (ns := map l_name (links m)) in *.
    replace (length (links m)) with (length ns) by (unfold ns; apply map_length).
    rewrite ids_of_names_spec.
    + eexists. split; [reflexivity|].
      induction names as [|n names IH]; simpl; constructor; [|apply IH; intros; apply Hn; simpl; auto].
      destruct (assoc n (combine ns (seq 0 (length ns)))) as [i|] eqn:E.
      * now apply (assoc_pos ns n (wf_link_names m W)).
      * apply assoc_pos_none in E. exfalso. apply E, Hn. simpl; auto.
    + intros n I E. apply assoc_pos_none in E. apply E, Hn, I.
  - intros ops2 m2 R2. destruct (reached_Rep _ _ _ _ _ _ _ _ (reached_run _ _ _ _ _ _ _ _ _ _ Hr R2)) as [HR2 _].
    rewrite (rep_all_links _ _ _ _ _ _ _ _ HR), (rep_all_links _ _ _ _ _ _ _ _ HR2). unfold all_links. rewrite after_app.
    destruct (abs_run_added (map fst sorted) ops2 (after sorted jsorted ops)) as (extra & ->).
    rewrite map_app, app_assoc. eauto.
Qed.
Print Assumptions C25_link_ids_stable_bijection.

(** the document's links come first, in name order *)
Example C25_example : exists m ids, reached ex_tinyxml ex_text ex_R "base" ex_sorted ex_jsorted ex_ops m /\
  get_link_names m = ["base"; "l1"; "l2"; "tool"; "l1_com"; "l2_com"; "camera"]%string /\
  get_link_ids ["camera"; "base"; "camera"]%string m = (m, Ok ids) /\ ids = [6; 0; 6].
Proof.
  destruct ex_run as (m & E). exists m, [6; 0; 6]. pose proof (ex_reached _ _ E) as Hr. split; [exact Hr|].
  assert (N : get_link_names m = ["base"; "l1"; "l2"; "tool"; "l1_com"; "l2_com"; "camera"]%string).
  { destruct (reached_Rep _ _ _ _ _ _ _ _ Hr) as [HR _]. rewrite (rep_all_links _ _ _ _ _ _ _ _ HR). unfold all_links. rewrite ex_after. reflexivity. }
  split; [exact N|]. split; [|reflexivity].
  destruct (C25_link_ids_stable_bijection _ _ _ _ _ _ _ _ _ Hr) as (ND & H & _).
  destruct (H ["camera"; "base"; "camera"]%string) as (ids & Ei & F).
  { rewrite N. clear. intros n [<-|[<-|[<-|[]]]]; simpl; auto 10. }
  rewrite Ei. f_equal. f_equal. rewrite N in *. clear - F ND.
  assert (U : forall i k n, nth_error ["base"; "l1"; "l2"; "tool"; "l1_com"; "l2_com"; "camera"]%string k = Some n ->
     nth_error ["base"; "l1"; "l2"; "tool"; "l1_com"; "l2_com"; "camera"]%string i = Some n -> i = k).
  { intros i k n Ek Ei. rewrite NoDup_nth_error in ND. apply ND; [eapply nth_error_lt; exact Ei | congruence]. }
  inversion F as [|? i0 ? r0 H0 F0]; subst. inversion F0 as [|? i1 ? r1 H1 F1]; subst. inversion F1 as [|? i2 ? r2 H2 F2]; subst. inversion F2; subst.
  rewrite (U i0 6 _ eq_refl H0), (U i1 0 _ eq_refl H1), (U i2 6 _ eq_refl H2). reflexivity.
Qed.

(** C26. *)
Theorem C26_joint_ids_stable_bijection :
  forall (A : Arith) tinyxml text R root sorted jsorted ops m,
    reached tinyxml text R root sorted jsorted ops m ->
    StronglySorted name_lt (get_joint_names m) /\ NoDup (get_joint_names m) /\
    (forall n, In n (get_joint_names m) <-> exists j, In j (r_joints R) /\ uj_name j = n /\ is_movable (uj_type j)) /\
    (forall names, (forall n, In n names -> In n (get_joint_names m)) ->
       exists ids, get_joint_ids names m = (m, Ok ids) /\
                   Forall2 (fun n i => nth_error (get_joint_names m) i = Some n) names ids) /\
    (forall ops2 m2, run ops2 m = Some m2 -> get_joint_names m2 = get_joint_names m).
Proof.
  intros A tinyxml text R root sorted jsorted ops m Hr.
  destruct (reached_Rep _ _ _ _ _ _ _ _ Hr) as [HR _]. pose proof (rep_wf _ _ _ _ _ _ _ _ HR) as W.
  assert (N : get_joint_names m = map uj_name jsorted) by (symmetry; apply (jnames_nodup _ _ _ _ _ _ _ _ HR)).
  pose proof (proj1 (proj2 Hr)) as O.
  split; [rewrite N; apply (ord_joints_lt _ _ _ O)|]. split; [apply (wf_joint_names m W)|]. split; [|split].
  - intros n. rewrite N, in_map_iff. split.
    + intros (j & <- & I). apply (ord_joints _ _ _ O) in I. exists j. tauto.
    + intros (j & I & <- & M). exists j. split; auto. apply (ord_joints _ _ _ O). tauto.
  - intros names Hn. unfold get_joint_ids. rewrite bind_get. unfold lift. rewrite (wf_joint_ids m W).
    unfold get_joint_names in *. set (ns := map j_name (joints m)) in *.
    replace (length (joints m)) with (length ns) by (unfold ns; apply map_length).
    rewrite ids_of_names_spec.
    + eexists. split; [reflexivity|].
      induction names as [|n names IH]; simpl; constructor; [|apply IH; intros; apply Hn; simpl; auto].
      destruct (assoc n (combine ns (seq 0 (length ns)))) as [i|] eqn:E.
      * now apply (assoc_pos ns n (wf_joint_names m W)).
      * apply assoc_pos_none in E. exfalso. apply E, Hn. simpl; auto.
    + intros n I E. apply assoc_pos_none in E. apply E, Hn, I.
  - intros ops2 m2 R2. destruct (reached_Rep _ _ _ _ _ _ _ _ (reached_run _ _ _ _ _ _ _ _ _ _ Hr R2)) as [HR2 _].
    rewrite N. symmetry. apply (jnames_nodup _ _ _ _ _ _ _ _ HR2).
Qed.
Print Assumptions C26_joint_ids_stable_bijection.

(** two of the three joints of the example are movable *)
Example C26_example : exists m, reached ex_tinyxml ex_text ex_R "base" ex_sorted ex_jsorted ex_ops m /\
  get_joint_names m = ["j1"; "j2"]%string.
Proof.
  destruct ex_run as (m & E). exists m. pose proof (ex_reached _ _ E) as Hr. split; [exact Hr|].
  destruct (reached_Rep _ _ _ _ _ _ _ _ Hr) as [HR _].
  transitivity (map uj_name ex_jsorted); [symmetry; apply (jnames_nodup _ _ _ _ _ _ _ _ HR)|].
  unfold ex_jsorted. cbn [map]. rewrite !ex_name. reflexivity.
Qed.

(** C27.  An exception exactly when some name is unknown; never a change. *)
Theorem C27_unknown_names_rejected :
  forall (A : Arith),
    (forall tinyxml text R root sorted jsorted ops m, reached tinyxml text R root sorted jsorted ops m -> forall names,
       (snd (get_link_ids names m) = Throw InvalidArgument <-> exists n, In n names /\ ~ In n (get_link_names m)) /\
       ((forall n, In n names -> In n (get_link_names m)) -> exists ids, snd (get_link_ids names m) = Ok ids /\ length ids = length names) /\
       (snd (get_joint_ids names m) = Throw InvalidArgument <-> exists n, In n names /\ ~ In n (get_joint_names m)) /\
       ((forall n, In n names -> In n (get_joint_names m)) -> exists ids, snd (get_joint_ids names m) = Ok ids /\ length ids = length names)) /\
    (forall (m : KM) names, fst (get_link_ids names m) = m /\ fst (get_joint_ids names m) = m).
Proof.
  intros A. split; [|intros; split; reflexivity].
  intros tinyxml text R root sorted jsorted ops m Hr names.
  destruct (reached_Rep _ _ _ _ _ _ _ _ Hr) as [HR _]. pose proof (rep_wf _ _ _ _ _ _ _ _ HR) as W.
  assert (X : forall (ns : list string),
     (ids_of_names (combine ns (seq 0 (length ns))) names = Throw InvalidArgument <-> exists n, In n names /\ ~ In n ns) /\
     ((forall n, In n names -> In n ns) -> exists ids, ids_of_names (combine ns (seq 0 (length ns))) names = Ok ids /\ length ids = length names)).
  { intros ns. assert (Y : (forall n, In n names -> In n ns) -> exists ids, ids_of_names (combine ns (seq 0 (length ns))) names = Ok ids /\ length ids = length names).
    { intros H. rewrite ids_of_names_spec; [eexists; split; [reflexivity | apply map_length]|].
      intros n I E. apply assoc_pos_none in E. apply E, H, I. }
    split; auto. split.
    - intros E. destruct (existsb (fun n => if in_dec string_dec n ns then false else true) names) eqn:Ex.
      + apply existsb_exists in Ex. destruct Ex as (n & I & H). exists n. split; auto. destruct (in_dec string_dec n ns); easy.
      + exfalso. destruct Y as (ids & E' & _); [|congruence]. intros n I.
        destruct (in_dec string_dec n ns) as [|N]; auto. exfalso. apply not_true_iff_false in Ex. apply Ex. apply existsb_exists.
        exists n. split; auto. destruct (in_dec string_dec n ns); easy.
    - intros (n & I & H). apply ids_of_names_throw. exists n. split; auto. now apply assoc_pos_none. }
  destruct (X (get_link_names m)) as [X1 X2]. destruct (X (get_joint_names m)) as [X3 X4].
  unfold get_link_ids, get_joint_ids. rewrite !bind_get. cbn [lift snd].
  rewrite (wf_link_ids m W), (wf_joint_ids m W).
  unfold get_link_names, get_joint_names in *. rewrite !map_length in *. auto.
Qed.
Print Assumptions C27_unknown_names_rejected.

(** "camara" is not a link of the example *)
Example C27_example : exists m, reached ex_tinyxml ex_text ex_R "base" ex_sorted ex_jsorted ex_ops m /\
  snd (get_link_ids ["camera"; "camara"]%string m) = Throw InvalidArgument.
Proof.
  destruct ex_run as (m & E). exists m. pose proof (ex_reached _ _ E) as Hr. split; [exact Hr|].
  apply (proj1 (proj1 (C27_unknown_names_rejected RA) _ _ _ _ _ _ _ _ Hr _)).
  exists "camara"%string. split; [simpl; auto|].
  destruct (reached_Rep _ _ _ _ _ _ _ _ Hr) as [HR _]. rewrite (rep_all_links _ _ _ _ _ _ _ _ HR).
  assert (N : all_links ex_sorted (after ex_sorted ex_jsorted ex_ops) = ["base"; "l1"; "l2"; "tool"; "l1_com"; "l2_com"; "camera"]%string)
    by (unfold all_links; rewrite ex_after; reflexivity).
  rewrite N. clear. simpl. intuition discriminate.
Qed.

(** C28. *)
Theorem C28_added_link_is_rigid_and_disturbs_nothing :
  forall (A : Arith) tinyxml text R root sorted jsorted ops m,
    reached tinyxml text R root sorted jsorted ops m -> clean ops = true ->
    forall name p pos rpy m1,
      w_add_new_link name p pos rpy m = (m1, Ok tt) ->
      get_link_names m1 = get_link_names m ++ [name] /\
      (forall i P m' m1' P1, i < length (get_link_names m) ->
         get_link_pose i m = (m', Ok P) -> get_link_pose i m1 = (m1', Ok P1) -> P1 = P) /\
      (forall i jids rt wb J m' m1' J1, i < length (get_link_names m) -> (forall k, In k jids -> k < length (get_joint_names m)) ->
         get_jacobian i jids rt wb m = (m', Ok J) -> get_jacobian i jids rt wb m1 = (m1', Ok J1) -> J1 = J) /\
      (forall ops2 m2, run ops2 m1 = Some m2 -> clean ops2 = true ->
         forall m' m'' P Q, get_link_pose (length (get_link_names m)) m2 = (m', Ok P) -> get_link_pose p m2 = (m'', Ok Q) ->
           P = pose_transform Q (mkPose pos (setFromRPY (vx rpy) (vy rpy) (vz rpy)))).
Proof.
  intros A tinyxml text R root sorted jsorted ops m Hr Hc name p pos rpy m1 Ea.
  destruct (reached_Rep _ _ _ _ _ _ _ _ Hr) as [HR HC]. specialize (HC Hc). set (s := after sorted jsorted ops) in *.
  assert (G : Good m) by (split; auto; apply HR).
  assert (Hr1 : reached tinyxml text R root sorted jsorted (ops ++ [Op_add_new_link name p pos rpy]) m1).
  { apply (reached_run _ _ _ _ _ _ _ _ _ _ Hr). cbn [run exec]. rewrite Ea. reflexivity. }
  destruct (reached_Rep _ _ _ _ _ _ _ _ Hr1) as [HR1 HC1].
  assert (Hc1 : clean (ops ++ [Op_add_new_link name p pos rpy]) = true) by (unfold clean in *; rewrite fold_left_app, Hc; reflexivity).
  specialize (HC1 Hc1). assert (G1 : Good m1) by (split; auto; apply HR1).
  assert (E1 : after sorted jsorted (ops ++ [Op_add_new_link name p pos rpy]) = abs_step (map fst sorted) (Op_add_new_link name p pos rpy) s)
    by (rewrite after_app; reflexivity).
  destruct (add_link_step _ _ _ _ _ _ name p pos rpy s m m1 (Ok tt) HR Ea) as [X|[(X & _)|(_ & _ & Nn & Lp & _)]]; try discriminate.
  assert (EN : get_link_names m = all_links sorted s) by apply (rep_all_links _ _ _ _ _ _ _ _ HR).
  assert (EN1 : get_link_names m1 = all_links sorted (after sorted jsorted (ops ++ [Op_add_new_link name p pos rpy]))) by apply (rep_all_links _ _ _ _ _ _ _ _ HR1).
  set (T := mkPose pos (setFromRPY (vx rpy) (vy rpy) (vz rpy))).
  destruct (lt_nth_error _ _ Lp) as (pl & Epl).
  assert (Ep : nth_error (get_link_names m) p = Some (l_name pl)) by (unfold get_link_names; rewrite nth_error_map', Epl; reflexivity).
  assert (Es : abs_step (map fst sorted) (Op_add_new_link name p pos rpy) s =
     mkAS (as_added s ++ [(name, l_name pl, T)]) (as_angles s) (as_base s)).
  { cbn [abs_step]. change (map fst sorted ++ map (fun a => fst (fst a)) (as_added s)) with (all_links sorted s). rewrite <- EN.
    replace (existsb (String.eqb name) (get_link_names m)) with false.
    - rewrite (nth_error_nth _ _ _ Ep). reflexivity.
    - symmetry. apply not_true_is_false. intros X. apply existsb_exists in X. destruct X as (x & I & X).
      apply String.eqb_eq in X. subst x. exact (Nn I). }
  set (s1 := mkAS (as_added s ++ [(name, l_name pl, T)]) (as_angles s) (as_base s)) in *.
  assert (EA : after sorted jsorted (ops ++ [Op_add_new_link name p pos rpy]) = s1) by (rewrite E1; exact Es).
  rewrite EA in HR1, EN1. clear E1 Es.
  assert (Names : get_link_names m1 = get_link_names m ++ [name]).
  { rewrite EN, EN1. unfold all_links. cbn [as_added s1]. rewrite map_app. cbn [map fst]. now rewrite app_assoc. }
  split; [exact Names|].
  assert (Mono : forall n P, pose_at R root jsorted s n P -> pose_at R root jsorted s1 n P).
  { unfold pose_at. intros n P H. cbn [as_added as_angles as_base s1].
    induction H as [|j P Ij H IH|x q T' P Ix H IH]; [apply fk_root | apply fk_joint; auto | eapply fk_added; eauto; apply in_or_app; auto]. }
  assert (Nth : forall i n, nth_error (get_link_names m) i = Some n -> nth_error (get_link_names m1) i = Some n).
  { intros i n E. rewrite Names, nth_error_app1; auto. eapply nth_error_lt; eauto. }
  split; [|split].
  - intros i P m' m1' P1 Li X X1. destruct (lt_nth_error _ _ Li) as (n & En). pose proof (Nth _ _ En) as En1.
    rewrite EN in En. rewrite EN1 in En1.
    destruct (get_link_pose_ok m i m' P G X) as [HP _]. destruct (get_link_pose_ok m1 i m1' P1 G1 X1) as [HP1 _].
    apply (rep_pose_of' _ _ _ _ _ _ _ _ HR i n P En) in HP. apply (rep_pose_of' _ _ _ _ _ _ _ _ HR1 i n P1 En1) in HP1.
    exact (rep_pose_det _ _ _ _ _ _ _ _ HR1 n _ _ HP1 (Mono _ _ HP)).
  - intros i jids rt wb J m' m1' J1 Li Hk X X1. rewrite (rep_joint_count _ _ _ _ _ _ _ _ HR) in Hk.
    destruct (jacobian_named _ _ _ _ _ _ _ _ _ _ _ _ _ _ HR G Hk X) as (_ & n & E & cols & En & HE & F & _ & ->).
    destruct (jacobian_named _ _ _ _ _ _ _ _ _ _ _ _ _ _ HR1 G1 Hk X1) as (_ & n' & E' & cols' & En' & HE' & F' & _ & ->).
    rewrite <- EN in En. apply Nth in En. rewrite EN1 in En. assert (n' = n) by congruence. subst n'.
    rewrite (rep_pose_det _ _ _ _ _ _ _ _ HR1 _ _ _ HE' (Mono _ _ HE)) in *. cbn [as_base s1].
    f_equal. f_equal.
    assert (Nfresh : ~ In name (all_links sorted s)) by (rewrite <- EN; exact Nn).
    assert (In_n : In n (all_links sorted s)).
    { rewrite <- EN. destruct (lt_nth_error _ _ Li) as (n0 & E0). pose proof (Nth _ _ E0) as E0'. rewrite EN1 in E0'.
      assert (n0 = n) by congruence. subst. eapply nth_error_In; eauto. }
    assert (C0 : forall j n, In j (r_joints R) -> In n (all_links sorted s) -> carries (r_joints R) (as_added s1) j n -> carries (r_joints R) (as_added s) j n).
    { clear - Nfresh HR Hr. intros j n Ij In0 H. revert In0. induction H as [|j' Ij' H IH|x q T' Ix H IH]; intros In0.
      - apply carries_child.
      - apply carries_joint; auto. apply IH. destruct Hr as (L & O & _).
        destruct (tree_ends _ _ (ld_tree _ _ _ _ L) j' Ij') as [Ip _]. unfold all_links. apply in_or_app. left.
        apply in_map_iff in Ip. destruct Ip as (l0 & <- & Ip). apply in_map. apply (Permutation_in _ (Permutation_sym (ord_links _ _ _ O))), Ip.
      - cbn [as_added s1] in Ix. apply in_app_or in Ix. destruct Ix as [Ix|[Ix|[]]].
        + eapply carries_added; eauto. apply IH.
          destruct (nm_added _ _ _ _ (rep_named _ _ _ _ _ _ _ _ HR) _ _ _ Ix) as (i & l & q' & lq & _ & _ & _ & Eq & <- & _).
          rewrite <- (rep_all_links _ _ _ _ _ _ _ _ HR). unfold get_link_names. apply in_map. eapply nth_error_In; eauto.
        + inversion Ix; subst. contradiction. }
    assert (C1 : forall j n, carries (r_joints R) (as_added s) j n -> carries (r_joints R) (as_added s1) j n).
    { clear. intros j n H. induction H as [|j' Ij' H IH|x q T' Ix H IH]; [apply carries_child | apply carries_joint; auto |
        apply (carries_added _ _ _ x q T'); [apply in_or_app; left; exact Ix | exact IH]]. }
    clear - F F' HR1 Hr C0 C1 In_n Mono. revert cols' F'.
    induction F as [|k c jids cols Hc F IH]; intros cols' F'; inversion F' as [|? c' ? cols1 Hc' F1]; subst; auto.
    f_equal; [|auto]. destruct Hc as (j & Ej & H). destruct Hc' as (j' & Ej' & H'). assert (j' = j) by congruence. subst j'.
    assert (Ij : In j (r_joints R)). { apply (ord_joints _ _ _ (proj1 (proj2 Hr))). eapply nth_error_In; eauto. }
    destruct H as [(Hca & C & HCc & ->)|(Hca & ->)]; destruct H' as [(Hca' & C' & HCc' & ->)|(Hca' & ->)].
    + now rewrite (rep_pose_det _ _ _ _ _ _ _ _ HR1 _ _ _ HCc' (Mono _ _ HCc)).
    + exfalso. apply Hca', C1, Hca.
    + exfalso. apply Hca. apply C0; auto.
    + reflexivity.
  - intros ops2 m2 R2 Hc2 m' m'' P Q X XQ.
    pose proof (reached_run _ _ _ _ _ _ _ _ _ _ Hr1 R2) as Hr2.
    destruct (reached_Rep _ _ _ _ _ _ _ _ Hr2) as [HR2 HC2].
    assert (Hcc : clean ((ops ++ [Op_add_new_link name p pos rpy]) ++ ops2) = true).
    { unfold clean in *. rewrite fold_left_app, Hc1. exact Hc2. }
    specialize (HC2 Hcc). assert (G2 : Good m2) by (split; auto; apply HR2).
    destruct (get_link_pose_ok _ _ _ _ G2 X) as [HP _]. destruct (get_link_pose_ok _ _ _ _ G2 XQ) as [HQ _].
    rewrite after_app, EA in HR2.
    destruct (abs_run_added (map fst sorted) ops2 s1) as (extra & Ex). set (s2 := abs_run (map fst sorted) ops2 s1) in *.
    assert (Old : forall i n, nth_error (get_link_names m1) i = Some n -> nth_error (all_links sorted s2) i = Some n).
    { intros i n E. rewrite EN1 in E. unfold all_links in *. rewrite Ex, map_app, app_assoc, nth_error_app1; auto. eapply nth_error_lt; eauto. }
    apply (rep_pose_of' _ _ _ _ _ _ _ _ HR2 _ (l_name pl)) in HQ; [|apply Old, Nth, Ep].
    apply (rep_pose_of' _ _ _ _ _ _ _ _ HR2 _ name) in HP.
    2:{ apply Old. rewrite Names, nth_error_app2 by lia. now rewrite Nat.sub_diag. }
    apply (rep_pose_det _ _ _ _ _ _ _ _ HR2 name); auto.
    unfold pose_at in *. eapply fk_added; [|exact HQ]. rewrite Ex. apply in_or_app. left. cbn [as_added s1]. apply in_or_app. right. left. reflexivity.
Qed.
Print Assumptions C28_added_link_is_rigid_and_disturbs_nothing.

(** the hypotheses are met: add a link below the tool, then move and query *)
Definition ex_ops2 : list op := [Op_set_joint_angles [0; 1]%nat [n2; nhalf]; Op_get_link_pose 3].
Example C28_example : exists m m1 m2, reached ex_tinyxml ex_text ex_R "base" ex_sorted ex_jsorted [Op_get_link_pose 3] m /\
  w_add_new_link "camera" 3 (V3 n0 n0 n1) v_clear m = (m1, Ok tt) /\ run ex_ops2 m1 = Some m2 /\ clean ex_ops2 = true /\
  (exists m' P, get_link_pose 3 m2 = (m', Ok P)) /\ (exists m' P, get_link_pose 6 m2 = (m', Ok P)).
Proof.
  assert (X : exists m, run [Op_get_link_pose 3] ex_m0 = Some m) by (apply is_some_ex; vm_compute; reflexivity).
  destruct X as (m & E). exists m.
  destruct (observe_answer _ (w_add_new_link "camera" 3 (V3 n0 n0 n1) v_clear) m E) as (m1 & [] & E1); [vm_compute; reflexivity|].
  exists m1. assert (E1' : run [Op_get_link_pose 3; Op_add_new_link "camera" 3 (V3 n0 n0 n1) v_clear] ex_m0 = Some m1).
  { change [Op_get_link_pose 3; Op_add_new_link "camera" 3 (V3 n0 n0 n1) v_clear] with ([Op_get_link_pose 3] ++ [Op_add_new_link "camera" 3 (V3 n0 n0 n1) v_clear]).
    rewrite run_app, E. cbn [run exec]. rewrite E1. reflexivity. }
  destruct (observe_ok _ (run ex_ops2) m1 E1') as (m2 & E2); [vm_compute; reflexivity|].
  exists m2. split; [exact (ex_reached _ _ E)|]. split; [exact E1|]. split; [exact E2|]. split; [reflexivity|].
  assert (E2' : run ([Op_get_link_pose 3; Op_add_new_link "camera" 3 (V3 n0 n0 n1) v_clear] ++ ex_ops2) ex_m0 = Some m2)
    by (rewrite run_app, E1'; exact E2).
  split; [apply (observe_answer _ (get_link_pose 3) m2 E2') | apply (observe_answer _ (get_link_pose 6) m2 E2')]; vm_compute; reflexivity.
Qed.

(** C30.  At the C++ level: after set_joint_angles every listed joint has the last value
    given for it and the others are as before; with distinct ids get_joint_angles gives
    the vector back. *)
Theorem C30_set_get_joint_angles :
  forall (A : Arith) tinyxml text R root sorted jsorted ops m,
    reached tinyxml text R root sorted jsorted ops m ->
    forall jids angles, (forall k, In k jids -> k < length (get_joint_names m)) -> length angles = length jids ->
      exists m', set_joint_angles jids angles m = (m', Ok tt) /\
        (NoDup jids -> get_joint_angles jids m' = (m', Ok angles)) /\
        (forall k, k < length (get_joint_names m) -> ~ In k jids -> angle_of k m' = angle_of k m) /\
        (forall pre k post a, jids = pre ++ k :: post -> ~ In k post -> nth_error angles (length pre) = Some a ->
           angle_of k m' = Ok [a]) /\
        base_pose m' = base_pose m.
Proof.
  intros A tinyxml text R root sorted jsorted ops m Hr jids angles Hk L.
  destruct (reached_Rep _ _ _ _ _ _ _ _ Hr) as [HR _]. pose proof (rep_wf _ _ _ _ _ _ _ _ HR) as W.
  unfold get_joint_names in *. rewrite map_length in *. rewrite <- (wf_angles m W) in *.
  unfold set_joint_angles.
  rewrite (bind_ok _ _ _ _ _ (set_nc_total jids angles m Hk ltac:(lia))). unfold clear_cache. rewrite bind_get.
  eexists. split; [reflexivity|].
  set (v := assign jids angles (joint_angles m)).
  assert (Lv : length v = length (joint_angles m)) by apply assign_length.
  assert (G : forall js (m' : KM), joint_angles m' = v -> (forall j, In j js -> j < length (joint_angles m)) ->
      get_joint_angles js m' = (m', Ok (map (fun j => nth j v n0) js))).
  { intros js m' <- H. apply get_angles_spec. rewrite Lv. exact H. }
  split; [|split; [|split]].
  - intros ND. rewrite (G jids) by auto. f_equal. f_equal.
    apply list_ext. intros i. rewrite nth_error_map'. destruct (nth_error jids i) as [k|] eqn:Ek; simpl.
    + destruct (nth_error_split _ _ Ek) as (pre & post & E & Lp).
      assert (Np : ~ In k post). { rewrite E in ND. apply NoDup_remove_2 in ND. intros I. apply ND. apply in_or_app. auto. }
      assert (Lk : k < length (joint_angles m)) by (apply Hk; eapply nth_error_In; eauto).
      pose proof (assign_last jids pre k post angles (joint_angles m) E Np L Lk) as X. fold v in X. rewrite Lp in X. rewrite <- X.
      symmetry. apply nth_error_nth'. lia.
    + apply nth_error_None in Ek. symmetry. apply nth_error_None. lia.
  - intros k Lk Nk. unfold angle_of. rewrite (G [k]); [|reflexivity|intros j [<-|[]]; auto].
    rewrite get_angles_spec by (intros j [<-|[]]; auto). simpl. f_equal. f_equal.
    pose proof (assign_other jids angles (joint_angles m) k Nk) as X. fold v in X.
    rewrite (nth_error_nth' v n0) in X by lia. rewrite (nth_error_nth' (joint_angles m) n0) in X by lia. congruence.
  - intros pre k post a E Np Ea. assert (Lk : k < length (joint_angles m)) by (apply Hk; rewrite E; apply in_or_app; simpl; auto).
    unfold angle_of. rewrite (G [k]); [|reflexivity|intros j [<-|[]]; auto]. simpl. f_equal. f_equal.
    pose proof (assign_last jids pre k post angles (joint_angles m) E Np L Lk) as X. fold v in X.
    rewrite (nth_error_nth' v n0) in X by lia. congruence.
  - reflexivity.
Qed.
Print Assumptions C30_set_get_joint_angles.

Example C30_example : exists m, reached ex_tinyxml ex_text ex_R "base" ex_sorted ex_jsorted ex_ops m /\
  (forall k, In k [1; 0] -> k < length (get_joint_names m)) /\ NoDup [1; 0].
Proof.
  destruct ex_run as (m & E). exists m. pose proof (ex_reached _ _ E) as Hr. split; [exact Hr|].
  destruct (reached_Rep _ _ _ _ _ _ _ _ Hr) as [HR _]. rewrite (rep_joint_count _ _ _ _ _ _ _ _ HR). split.
  - intros k [<-|[<-|[]]]; simpl; lia.
  - repeat constructor; simpl; intuition discriminate.
Qed.

(** ** Limits *)

(** the number an optional attribute stands for *)
Definition attr_value `{A : Arith} (name : string) (default : option num) (x : xml) (v : num) : Prop :=
  match attribute name x with None => default = Some v | Some s => str_to_double s = Some v end.

(** [x] is the joint element of the document for the joint with id [k] *)
Definition joint_element `{A : Arith} (tinyxml : string -> option (list xml)) (text : string) (m : KM) (k : nat) (x : xml) : Prop :=
  exists top robot n, tinyxml text = Some top /\ hd_error (children "robot" top) = Some robot /\
    In x (children "joint" (x_kids robot)) /\ attribute "name" x = Some n /\ nth_error (get_joint_names m) k = Some n.

Lemma all_joints_in `{A : Arith} l js : all_joints l = Some js -> forall j, In j js -> exists x, In x l /\ parseJoint x = Some j.
Proof.
  revert js. induction l as [|x l IH]; intros js E j I; simpl in E; [inversion E; subst; easy|].
  destruct (parseJoint x) as [j0|] eqn:E0; [|discriminate]. destruct (all_joints l) as [js0|]; [|discriminate]. inversion E; subst.
  destruct I as [<-|I]; [exists x; simpl; auto|]. destruct (IH _ eq_refl j I) as (y & Iy & Ey). exists y; simpl; auto.
Qed.

Definition movable_elem_type (x : xml) (t : JType) : Prop :=
  attribute "type" x = Some (match t with REVOLUTE => "revolute" | CONTINUOUS => "continuous" | _ => "prismatic" end)%string.

Lemma parse_joint_facts `{A : Arith} x j : parseJoint x = Some j -> is_movable (uj_type j) ->
  attribute "name" x = Some (uj_name j) /\ movable_elem_type x (uj_type j) /\
  match first_child "limit" x with
  | None => uj_limits j = None /\ uj_type j = CONTINUOUS
  | Some l => exists lim, uj_limits j = Some lim /\ attr_value "lower" (Some n0) l (lower lim) /\ attr_value "upper" (Some n0) l (upper lim) /\
                          attr_value "effort" None l (effort lim) /\ attr_value "velocity" None l (velocity lim)
  end.
Proof.
  intros E M. unfold parseJoint in E.
  destruct (attribute "name" x) as [name|]; [|discriminate].
  destruct (parse_joint_origin x) as [o|]; [|discriminate].
  destruct (attribute "type" x) as [ts|] eqn:Ets; [|discriminate].
  destruct (joint_type_of_string ts) as [ty|] eqn:Ety; [|discriminate].
  destruct (parse_axis ty x) as [ax|]; [|discriminate].
  destruct (parse_limit ty x) as [lim|] eqn:Elim; [|discriminate].
  destruct (negb (opt_child_ok "safety_controller" parseJointSafety x)); [discriminate|].
  destruct (negb (opt_child_ok "calibration" parseJointCalibration x)); [discriminate|].
  destruct (parse_mimic x) as [mim|]; [|discriminate].
  destruct (negb (opt_child_ok "dynamics" parseJointDynamics x)); [discriminate|].
  inversion E; subst j. cbn [uj_name uj_type uj_limits] in *. split; [reflexivity|]. split.
  - unfold movable_elem_type. rewrite Ets. f_equal. unfold joint_type_of_string in Ety.
    assert (NM : forall t, ty = t -> ~ is_movable t -> False) by (intros t <- H; exact (H M)).
    assert (NM1 : ~ is_movable PLANAR) by (intros [H|[H|H]]; discriminate H).
    assert (NM2 : ~ is_movable FLOATING) by (intros [H|[H|H]]; discriminate H).
    assert (NM3 : ~ is_movable FIXED) by (intros [H|[H|H]]; discriminate H).
    destruct (String.eqb_spec ts "planar"); [inversion Ety; subst; exfalso; eauto|].
    destruct (String.eqb_spec ts "floating"); [inversion Ety; subst; exfalso; eauto|].
    destruct (String.eqb_spec ts "revolute"); [inversion Ety; subst; auto|].
    destruct (String.eqb_spec ts "continuous"); [inversion Ety; subst; auto|].
    destruct (String.eqb_spec ts "prismatic"); [inversion Ety; subst; auto|].
    destruct (String.eqb_spec ts "fixed"); [inversion Ety; subst; exfalso; eauto | discriminate].
  - unfold parse_limit in Elim. destruct (first_child "limit" x) as [l|].
    + destruct (parseJointLimits l) as [v|] eqn:Ev; [|discriminate]. inversion Elim; subst lim. exists v. split; [reflexivity|].
      unfold parseJointLimits in Ev. unfold num_attr, req_num_attr in Ev. unfold attr_value.
      destruct (attribute "lower" l) as [s1|]; [destruct (str_to_double s1); [|discriminate]|];
      (destruct (attribute "upper" l) as [s2|]; [destruct (str_to_double s2); [|discriminate]|]);
      (destruct (attribute "effort" l) as [s3|]; [destruct (str_to_double s3); [|discriminate]|discriminate]);
      (destruct (attribute "velocity" l) as [s4|]; [destruct (str_to_double s4); [|discriminate]|discriminate]);
      inversion Ev; subst; cbn; auto.
    + destruct ty; try discriminate; inversion Elim; subst; split; auto; destruct M as [M|[M|M]]; discriminate M.
Qed.

(** what the model keeps about joint [k] *)
Lemma joint_element_ex `{A : Arith} tinyxml text R root sorted jsorted ops m : reached tinyxml text R root sorted jsorted ops m ->
  forall k, k < length (get_joint_names m) -> exists x J j, joint_element tinyxml text m k x /\ nth_error (joints m) k = Some J /\
    j_type J = uj_type j /\ j_limits J = uj_limits j /\ is_movable (uj_type j) /\ parseJoint x = Some j.
Proof.
  intros Hr k Lk. destruct (reached_Rep _ _ _ _ _ _ _ _ Hr) as [HR _]. destruct Hr as (L & O & _).
  rewrite (rep_joint_count _ _ _ _ _ _ _ _ HR) in Lk. destruct (lt_nth_error _ _ Lk) as (j & Ej).
  destruct (rep_joint _ _ _ _ _ _ _ _ HR k j Ej) as (J & c & lc & EJ & SJ & _ & _ & _ & _ & Ij).
  assert (M : is_movable (uj_type j)) by (apply (ord_joints _ _ _ O); eapply nth_error_In; eauto).
  destruct (ld_xml _ _ _ _ L) as (top & Et & robot & name & E1 & _ & _ & _ & E2).
  unfold robot_of_kids in E2. destruct (all_joints (children "joint" (x_kids robot))) as [js|] eqn:Ejs; [|discriminate].
  inversion E2; subst R. destruct (all_joints_in _ _ Ejs j Ij) as (x & Ix & Ex).
  destruct (parse_joint_facts x j Ex M) as (En & _ & _).
  exists x, J, j. split.
  - exists top, robot, (uj_name j). split; auto. split; auto. split; auto. split; auto.
    unfold get_joint_names. rewrite nth_error_map', EJ. simpl. f_equal. apply SJ.
  - split; auto. split; [apply SJ|]. split; [apply SJ|]. auto.
Qed.

(** C44.  One entry per requested joint: no bounds exactly for joints whose element says
    type="continuous"; for the others the element has a limit child and the bounds are its
    lower and upper attributes, 0 when absent. *)
Theorem C44_position_limits_are_those_of_the_document :
  forall (A : Arith) tinyxml text R root sorted jsorted ops m,
    reached tinyxml text R root sorted jsorted ops m ->
    forall jids, (forall k, In k jids -> k < length (get_joint_names m)) ->
      exists bounds, get_joint_position_limits jids m = (m, Ok bounds) /\
        Forall2 (fun k b => exists x, joint_element tinyxml text m k x /\
          ((attribute "type" x = Some "continuous"%string /\ b = (NegInf, PosInf)) \/
           (attribute "type" x <> Some "continuous"%string /\ exists l lo up,
              first_child "limit" x = Some l /\ attr_value "lower" (Some n0) l lo /\ attr_value "upper" (Some n0) l up /\
              b = (Fin lo, Fin up)))) jids bounds.
Proof.
  intros A tinyxml text R root sorted jsorted ops m Hr jids Hk.
  pose proof (joint_element_ex _ _ _ _ _ _ _ _ Hr) as JE.
  unfold get_joint_position_limits. rewrite bind_get. unfold lift.
  match goal with |- exists bounds, (m, rfor jids [] ?f) = _ /\ Forall2 ?Q _ _ =>
    enough (X : forall acc, exists bounds, rfor jids acc f = Ok (acc ++ bounds) /\ Forall2 Q jids bounds) end.
  { destruct (X []) as (b & E & F). exists b. rewrite E. auto. }
  induction jids as [|k jids IH]; intros acc; simpl.
  { exists []. rewrite app_nil_r. auto. }
  destruct (JE k (Hk k (or_introl eq_refl))) as (x & J & j & Jx & EJ & Et & El & M & P).
  destruct (parse_joint_facts x j P M) as (_ & Ty & Lim). 
  assert (V : vget (joints m) k = Ok J) by (unfold vget; now rewrite EJ). rewrite V. simpl. rewrite Et, El.
  assert (exists b, (match uj_type j with CONTINUOUS => Ok (acc ++ [(NegInf, PosInf)])
       | _ => let? l := deref (uj_limits j) in Ok (acc ++ [(Fin (lower l), Fin (upper l))]) end) = Ok (acc ++ [b]) /\
     ((attribute "type" x = Some "continuous"%string /\ b = (NegInf, PosInf)) \/
           (attribute "type" x <> Some "continuous"%string /\ exists l lo up,
              first_child "limit" x = Some l /\ attr_value "lower" (Some n0) l lo /\ attr_value "upper" (Some n0) l up /\
              b = (Fin lo, Fin up)))) as (b & Eb & Hb).
  { unfold movable_elem_type in Ty. destruct M as [M|[M|M]]; rewrite M in *.
    - destruct (first_child "limit" x) as [l|]; [|destruct Lim; discriminate]. destruct Lim as (lim & -> & H1 & H2 & _).
      eexists. split; [reflexivity|]. right. split; [rewrite Ty; discriminate|]. exists l, (lower lim), (upper lim). auto.
    - eexists. split; [reflexivity|]. left. auto.
    - destruct (first_child "limit" x) as [l|]; [|destruct Lim; discriminate]. destruct Lim as (lim & -> & H1 & H2 & _).
      eexists. split; [reflexivity|]. right. split; [rewrite Ty; discriminate|]. exists l, (lower lim), (upper lim). auto. }
  rewrite Eb. simpl. destruct (IH (fun k' I => Hk k' (or_intror I)) (acc ++ [b])) as (bs & E & F).
  exists (b :: bs). rewrite E, <- app_assoc. split; auto. constructor; eauto.
Qed.
Print Assumptions C44_position_limits_are_those_of_the_document.

Example C44_example : exists m, reached ex_tinyxml ex_text ex_R "base" ex_sorted ex_jsorted ex_ops m /\
  (forall k, In k [1; 0; 1] -> k < length (get_joint_names m)).
Proof.
  destruct ex_run as (m & E). exists m. pose proof (ex_reached _ _ E) as Hr. split; [exact Hr|].
  destruct (reached_Rep _ _ _ _ _ _ _ _ Hr) as [HR _]. rewrite (rep_joint_count _ _ _ _ _ _ _ _ HR).
  intros k [<-|[<-|[<-|[]]]]; simpl; lia.
Qed.

(** C45, the part that holds: for joints whose element has a limit child, the velocity and
    effort attributes. *)
Theorem C45_velocity_effort_limits_partial :
  forall (A : Arith) tinyxml text R root sorted jsorted ops m,
    reached tinyxml text R root sorted jsorted ops m ->
    forall jids, (forall k, In k jids -> k < length (get_joint_names m)) ->
      (forall k x, In k jids -> joint_element tinyxml text m k x -> first_child "limit" x <> None) ->
      exists vs es, get_joint_velocity_limits jids m = (m, Ok vs) /\ get_joint_effort_limits jids m = (m, Ok es) /\
        Forall2 (fun k v => exists x l, joint_element tinyxml text m k x /\ first_child "limit" x = Some l /\ attr_value "velocity" None l v) jids vs /\
        Forall2 (fun k v => exists x l, joint_element tinyxml text m k x /\ first_child "limit" x = Some l /\ attr_value "effort" None l v) jids es.
Proof.
  intros A tinyxml text R root sorted jsorted ops m Hr jids Hk Hl.
  pose proof (joint_element_ex _ _ _ _ _ _ _ _ Hr) as JE.
  assert (X : forall (name : string) (fld : JointLimits -> num),
     (forall l lim, attr_value "lower" (Some n0) l (lower lim) -> attr_value "upper" (Some n0) l (upper lim) ->
        attr_value "effort" None l (effort lim) -> attr_value "velocity" None l (velocity lim) -> attr_value name None l (fld lim)) ->
     exists vs, joint_limit_field fld jids m = (m, Ok vs) /\
       Forall2 (fun k v => exists x l, joint_element tinyxml text m k x /\ first_child "limit" x = Some l /\ attr_value name None l v) jids vs).
  { intros name fld Hf. unfold joint_limit_field. rewrite bind_get. unfold lift.
    match goal with |- exists bounds, (m, rfor jids [] ?f) = _ /\ Forall2 ?Q _ _ =>
      enough (Y : forall acc, exists bounds, rfor jids acc f = Ok (acc ++ bounds) /\ Forall2 Q jids bounds) end.
    { destruct (Y []) as (b & E & F). exists b. rewrite E. auto. }
    induction jids as [|k jids IH]; intros acc; simpl.
    { exists []. rewrite app_nil_r. auto. }
    destruct (JE k (Hk k (or_introl eq_refl))) as (x & J & j & Jx & EJ & Et & El & M & P).
    destruct (parse_joint_facts x j P M) as (_ & Ty & Lim). 
  assert (V : vget (joints m) k = Ok J) by (unfold vget; now rewrite EJ). rewrite V. simpl. rewrite El.
    destruct (first_child "limit" x) as [l|] eqn:Efl; [|exfalso; apply (Hl k x); simpl; auto].
    destruct Lim as (lim & -> & H1 & H2 & H3 & H4). simpl.
    destruct (IH (fun k' I => Hk k' (or_intror I)) (fun k' x' I => Hl k' x' (or_intror I)) (acc ++ [fld lim])) as (bs & E & F).
    exists (fld lim :: bs). rewrite E, <- app_assoc. split; auto. constructor; auto. exists x, l. auto. }
  destruct (X "velocity"%string velocity) as (vs & Ev & Fv); [auto|]. destruct (X "effort"%string effort) as (es & Ee & Fe); [auto|].
  exists vs, es. auto.
Qed.
Print Assumptions C45_velocity_effort_limits_partial.

(** every joint element of the example has a limit *)
Example C45_example : exists m, reached ex_tinyxml ex_text ex_R "base" ex_sorted ex_jsorted ex_ops m /\
  (forall k x, In k [0; 1] -> joint_element ex_tinyxml ex_text m k x -> first_child "limit" x <> None).
Proof.
  destruct ex_run as (m & E). exists m. pose proof (ex_reached _ _ E) as Hr. split; [exact Hr|].
  intros k x _ (top & robot & n & Et & Er & Ix & _). clear - Et Er Ix. inversion Et; subst top.
  inversion Er; subst robot. clear Et Er. revert x Ix.
  change (children "joint" _) with (filter (fun x => match x with XElem "joint" _ _ => true | _ => false end) ex_kids) || idtac.
  intros x Ix. destruct Ix as [<-|[<-|[<-|[]]]]; discriminate.
Qed.

(** C45, refuted in general: a continuous joint without a limit element. *)
Theorem C45_velocity_effort_limits_refuted :
  exists tinyxml text R root sorted jsorted m k,
    @reached RA tinyxml text R root sorted jsorted [] m /\ k < length (get_joint_names m) /\
    get_joint_velocity_limits [k] m = (m, UB NullDeref) /\ get_joint_effort_limits [k] m = (m, UB NullDeref).
Proof.
  exists bare_tinyxml, ex_text, bare_R, "base"%string, bare_sorted, bare_jsorted, bare_m0, 0.
  pose proof (bare_reached [] bare_m0 eq_refl) as Hr. split; [exact Hr|].
  destruct (reached_Rep _ _ _ _ _ _ _ _ Hr) as [HR _]. rewrite (rep_joint_count _ _ _ _ _ _ _ _ HR). split; [simpl; lia|].
  destruct (rep_joint _ _ _ _ _ _ _ _ HR 0 bare_j eq_refl) as (J & c & lc & EJ & SJ & _).
  assert (N : j_limits J = None) by (rewrite (sj_limits _ _ SJ); exact bare_limits).
  unfold get_joint_velocity_limits, get_joint_effort_limits, joint_limit_field. rewrite !bind_get. unfold lift.
  cbn [rfor]. unfold vget. rewrite EJ. cbn [rbind]. rewrite N. split; reflexivity.
Qed.
Print Assumptions C45_velocity_effort_limits_refuted.
