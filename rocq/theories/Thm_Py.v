(** C29-C33, C36, C37, C63-C65: the Python class. *)
From Coq Require Import String List Arith Lia Bool Reals Lra.
From Verif Require Import Base Num Pose DataStructure Urdf Kin Wrapper Py Spec_Robot Spec_Hist Spec_Load Spec_Jac Spec_Py
  Pf_Base Inv Rep Pf_Ops Pf_Name Pf_Reach Pf_Jac Pf_Pose Pf_Local Pf_Hist Pf_Py Pf_Pickle Pf_Shape Pf_PyCalls RealArith Pf_Real Pf_Rpy Ex_Robot Thm_Fk.
Import ListNotations.
Local Open Scope nat_scope.
Local Open Scope m_scope.

(** ** The example robot as a Python object *)
Definition ex_obj : PyModel := mkPy ex_text (Some ex_m0) 0 0.
Definition ex_world : World := mkW [[]] [[]] [ex_obj].
Lemma ex_init : py_init ex_tinyxml ex_text no_objects = (ex_world, Ok 0).
Proof. unfold py_init. replace (String.eqb ex_text EmptyString) with false by reflexivity. rewrite ex_ctor. reflexivity. Qed.
Lemma ex_instance : instance ex_tinyxml [C_new ex_text] ex_world 0 ex_obj ex_m0.
Proof.
  split; [|split; reflexivity]. cbn [py_run py_exec]. unfold pdrop. rewrite (bind_ok _ _ _ _ _ ex_init). reflexivity.
Qed.
Lemma ex_names : get_link_names ex_m0 = ["base"; "l1"; "l2"; "tool"; "l1_com"; "l2_com"]%string.
Proof.
  destruct (reached_Rep _ _ _ _ _ _ _ _ (ex_reached [] ex_m0 eq_refl)) as [HR _].
  rewrite (rep_all_links _ _ _ _ _ _ _ _ HR), ex_after. reflexivity.
Qed.
Lemma ex_joint_count : length (get_joint_names ex_m0) = 2.
Proof.
  destruct (reached_Rep _ _ _ _ _ _ _ _ (ex_reached [] ex_m0 eq_refl)) as [HR _].
  rewrite (rep_joint_count _ _ _ _ _ _ _ _ HR). reflexivity.
Qed.
Lemma ex_WF : WF ex_m0.
Proof. destruct (reached_Rep _ _ _ _ _ _ _ _ (ex_reached [] ex_m0 eq_refl)) as [HR _]. apply (rep_wf _ _ _ _ _ _ _ _ HR). Qed.

(** C29.  Adding a link with a name in use raises; no instance's C++ object changes, and
    other instances pickle as before.  Missing: the instance's own pickled form. *)
Theorem C29_rejected_add_new_link_partial :
  forall (A : Arith) tinyxml cs w i o m R root sorted jsorted,
    instance tinyxml cs w i o m -> loadable tinyxml (py_xml o) R root -> ordered R sorted jsorted ->
    forall name parent pos rpy, In name (get_link_names m) ->
      exists w', py_add_new_link i name parent pos rpy w = (w', Throw InvalidArgument) /\
        (forall j, robot_of w' j = robot_of w j) /\ (forall j, j <> i -> pickled w' j = pickled w j).
Proof.
  intros A tinyxml cs w i o m R root sorted jsorted I L O name parent pos rpy In'.
  pose proof (instance_WF tinyxml _ _ _ _ _ _ _ _ _ I L O) as W. destruct I as (Hc & Ho & Hm).
  rewrite <- (link_ids_names m W) in In'. rewrite (add_known i name parent pos rpy w o m Ho Hm In'). eexists. split; [reflexivity|]. split; [reflexivity|].
  intros j Nj. pose proof (run_tidy tinyxml cs _ _ tidy_none Hc) as T. unfold pickled. cbn [objs heap_add heap_set].
  destruct (nth_error (objs w) j) as [oj|] eqn:Ej; [|reflexivity].
  destruct (ti_own w T j i oj o Ej Ho Nj) as (N1 & _). f_equal. f_equal.
  apply nth_same. now apply hist_append_other.
Qed.
Print Assumptions C29_rejected_add_new_link_partial.

(** The rest of C29 fails: the rejected call stays in the pickled form, which can no longer
    be unpickled. *)
Theorem C29_rejected_add_new_link_pickle_refuted :
  exists tinyxml text w0 w1 name parent pos p0 p1,
    py_init tinyxml text no_objects = (w0, Ok 0) /\ pickled w0 0 = Some p0 /\
    py_add_new_link 0 name parent pos None w0 = (w1, Throw InvalidArgument) /\ pickled w1 0 = Some p1 /\ p1 <> p0 /\
    (forall w, exists w' k, py_loads tinyxml p0 w = (w', Ok k)) /\
    (forall w, exists w', py_loads tinyxml p1 w = (w', Throw InvalidArgument)).
Proof.
  set (a := mkAdd "l1" 0 v_clear None).
  assert (Ia : In (a_name a) (map fst (link_ids ex_m0))) by (rewrite (link_ids_names _ ex_WF), ex_names; right; left; reflexivity).
  exists ex_tinyxml, ex_text, ex_world, (mkW [[a]] [[]] [ex_obj]), "l1"%string, 0, v_clear, (mkPickle ex_text [] []), (mkPickle ex_text [a] []).
  split; [exact ex_init|]. split; [reflexivity|]. split.
  { rewrite (add_known 0 "l1" 0 v_clear None ex_world ex_obj ex_m0 eq_refl eq_refl Ia). reflexivity. }
  split; [reflexivity|]. split; [discriminate|]. split; intros w.
  - destruct (loads_ok ex_tinyxml (mkPickle ex_text [] []) w ex_m0 ex_m0 ex_m0 ex_ctor (st_nil _) (st_nil _)) as (w' & E & _). exists w', (length (objs w)). exact E.
  - unfold py_loads. cbn [pk_xml pk_add pk_set]. apply (setstate_fails ex_tinyxml ex_text _ _ _ [] a [] ex_m0 ex_m0 InvalidArgument ex_ctor); [|constructor|].
    + cbn [heap_add app]. rewrite nth_error_app2, Nat.sub_diag by lia. reflexivity.
    + rewrite (kadd_known a ex_m0 Ia). reflexivity.
Qed.
Print Assumptions C29_rejected_add_new_link_pickle_refuted.

Example C29_example : instance ex_tinyxml [C_new ex_text] ex_world 0 ex_obj ex_m0 /\ loadable ex_tinyxml (py_xml ex_obj) ex_R "base" /\
  ordered ex_R ex_sorted ex_jsorted /\ In "tool"%string (get_link_names ex_m0).
Proof. split; [exact ex_instance|]. split; [exact ex_loadable|]. split; [exact ex_ordered|]. rewrite ex_names. simpl; auto. Qed.

(** C30, for the Python class and every base type. *)
Theorem C30_set_q_get_q :
  forall (A : Arith) tinyxml cs w i o m R root sorted jsorted,
    instance tinyxml cs w i o m -> loadable tinyxml (py_xml o) R root -> ordered R sorted jsorted ->
    forall jids q bt, (forall k, In k jids -> k < length (get_joint_names m)) -> length q = length jids + base_size bt ->
      exists w', py_set_q i jids q bt w = (w', Ok tt) /\
        (NoDup jids -> py_get_q i jids BFIXED w' = (w', Ok (firstn (length jids) q))) /\
        (forall k, k < length (get_joint_names m) -> ~ In k jids -> snd (py_get_q i [k] BFIXED w') = snd (py_get_q i [k] BFIXED w)) /\
        (forall pre k post a, jids = pre ++ k :: post -> ~ In k post -> nth_error q (length pre) = Some a ->
           py_get_q i [k] BFIXED w' = (w', Ok [a])) /\
        (bt = BFIXED -> snd (py_get_q i [] BFLOATING w') = snd (py_get_q i [] BFLOATING w)) /\
        (forall j, j <> i -> robot_of w' j = robot_of w j).
Proof.
  intros A tinyxml cs w i o m R root sorted jsorted I L O jids q bt Hk Lq.
  pose proof (instance_WF tinyxml _ _ _ _ _ _ _ _ _ I L O) as W. destruct I as (Hc & Ho & Hm).
  unfold get_joint_names in *. rewrite map_length, <- (wf_angles m W) in *.
  destruct (set_q_total i jids q bt w o m Ho Hm Hk Lq) as (w' & o' & m' & E & Ho' & Hm' & Ea & Eb & Ej & El & Ei & Oth).
  exists w'. split; [exact E|]. set (a := firstn (length jids) q) in *. assert (La : length a = length jids) by (unfold a; rewrite firstn_length; lia).
  assert (G : forall js, (forall j, In j js -> j < length (joint_angles m)) -> get_joint_angles js m' = (m', Ok (map (fun j => nth j (assign jids a (joint_angles m)) n0) js))).
  { intros js H. rewrite <- Ea. apply get_angles_spec. rewrite Ea, assign_length. exact H. }
  split; [|split; [|split; [|split]]].
  - intros ND. rewrite (get_q_fixed i jids w' o' m' Ho' Hm'), (G jids Hk). cbn [snd]. now rewrite app_nil_r, assign_get.
  - intros k Lk Nk. rewrite (get_q_fixed i [k] w' o' m' Ho' Hm'), (get_q_fixed i [k] w o m Ho Hm).
    rewrite (G [k]), get_angles_spec by (intros j [<-|[]]; exact Lk). cbn [snd map app]. f_equal. f_equal.
    pose proof (assign_other jids a (joint_angles m) k Nk) as X.
    rewrite (nth_error_nth' _ n0) in X by (rewrite assign_length; exact Lk). rewrite (nth_error_nth' (joint_angles m) n0) in X by exact Lk. congruence.
  - intros pre k post x Ep Np Ex. assert (Lk : k < length (joint_angles m)) by (apply Hk; rewrite Ep; apply in_or_app; simpl; auto).
    rewrite (get_q_fixed i [k] w' o' m' Ho' Hm'), (G [k]) by (intros j [<-|[]]; exact Lk). cbn [snd map app]. f_equal. f_equal. f_equal.
    pose proof (assign_last jids pre k post a (joint_angles m) Ep Np La Lk) as X.
    rewrite (nth_error_nth' _ n0) in X by (rewrite assign_length; exact Lk).
    assert (Lp : length pre < length jids) by (rewrite Ep, app_length; simpl; lia).
    unfold a in X at 2. rewrite nth_error_firstn_lt in X by exact Lp. congruence.
  - intros ->. rewrite (get_q_with i [] w' o' m' BFLOATING [] Ho' Hm' eq_refl), (get_q_with i [] w o m BFLOATING [] Ho Hm eq_refl). cbn [snd]. now rewrite Eb.
  - intros j Nj. unfold robot_of. now rewrite (Oth j Nj).
Qed.
Print Assumptions C30_set_q_get_q.

Example C30_set_q_example : (forall k, In k [1; 0] -> k < length (get_joint_names ex_m0)) /\
  length [n1; n2; n0; n1; nhalf] = length [1; 0] + base_size BPLANER /\ NoDup [1; 0].
Proof.
  rewrite ex_joint_count. split; [intros k [<-|[<-|[]]]; lia|]. split; [reflexivity|]. repeat constructor; simpl; intuition discriminate.
Qed.

(** C31.  Over the reals, away from the gimbal lock of the roll-pitch-yaw conversion. *)
Local Open Scope R_scope.
Definition angles_in_range (r p y : @num RA) : Prop :=
  - PI < r <= PI /\ - (PI / 2) < p < PI / 2 /\ Rabs (sin p) < 99999 / 100000 /\ - PI < y <= PI.
Theorem C31_set_q_get_q_base :
  forall tinyxml cs w i o m R root sorted jsorted,
    instance (A := RA) tinyxml cs w i o m -> loadable tinyxml (py_xml o) R root -> ordered R sorted jsorted ->
    forall jids (js : list (@num RA)), (forall k, In k jids -> (k < length (get_joint_names m))%nat) -> length js = length jids -> NoDup jids ->
      (forall x y yaw, - PI < yaw <= PI ->
         exists w', py_set_q i jids (js ++ [x; y; yaw]) BPLANER w = (w', Ok tt) /\
                    py_get_q i jids BPLANER w' = (w', Ok (js ++ [x; y; yaw]))) /\
      (forall x y z roll pitch yaw, angles_in_range roll pitch yaw ->
         exists w', py_set_q i jids (js ++ [x; y; z; roll; pitch; yaw]) BFLOATING w = (w', Ok tt) /\
                    py_get_q i jids BFLOATING w' = (w', Ok (js ++ [x; y; z; roll; pitch; yaw]))).
Proof.
  intros tinyxml cs w i o m R root sorted jsorted I L O jids js Hk Ljs ND.
  pose proof (instance_WF tinyxml _ _ _ _ _ _ _ _ _ I L O) as W. destruct I as (Hc & Ho & Hm).
  unfold get_joint_names in *. rewrite map_length, <- (wf_angles m W) in *.
  assert (G : forall m' : KM, joint_angles m' = assign jids js (joint_angles m) -> get_joint_angles jids m' = (m', Ok js)).
  { intros m' Ea. rewrite get_angles_spec by (rewrite Ea, assign_length; exact Hk). rewrite Ea, assign_get by auto. reflexivity. }
  pose proof PI_RGT_0 as PI0.
  split.
  - intros x y yaw Hy.
    destruct (set_q_total i jids (js ++ [x; y; yaw]) BPLANER w o m Ho Hm Hk ltac:(rewrite app_length; cbn [length base_size]; lia))
      as (w' & o' & m' & E & Ho' & Hm' & Ea & Eb & _).
    exists w'. split; [exact E|]. rewrite firstn_app, <- Ljs, Nat.sub_diag, firstn_all, app_nil_r in Ea.
    rewrite (get_q_with i jids w' o' m' BPLANER js Ho' Hm' (G m' Ea)). rewrite Eb. unfold base_asked. cbn [base_size].
    rewrite app_length. cbn [length]. replace (length js + 3 - 3)%nat with (length js) by lia.
    rewrite skipn_app, skipn_all, Nat.sub_diag. cbn [skipn app nth]. unfold pose6. cbn [nth position rotation].
    assert (X := rpy_round (@n0 RA) (@n0 RA) yaw).
    assert (Z : @n0 RA = 0) by (rnum; reflexivity). rewrite Z in X |- *.
    rewrite X; [reflexivity|lra|exact Hy|lra|rewrite sin_0, Rabs_R0; lra].
  - intros x y z r p yaw (Hr & Hp & Hs & Hy).
    destruct (set_q_total i jids (js ++ [x; y; z; r; p; yaw]) BFLOATING w o m Ho Hm Hk ltac:(rewrite app_length; cbn [length base_size]; lia))
      as (w' & o' & m' & E & Ho' & Hm' & Ea & Eb & _).
    exists w'. split; [exact E|]. rewrite firstn_app, <- Ljs, Nat.sub_diag, firstn_all, app_nil_r in Ea.
    rewrite (get_q_with i jids w' o' m' BFLOATING js Ho' Hm' (G m' Ea)). rewrite Eb. unfold base_asked. cbn [base_size].
    rewrite app_length. cbn [length]. replace (length js + 6 - 6)%nat with (length js) by lia.
    rewrite skipn_app, skipn_all, Nat.sub_diag. cbn [skipn app]. unfold pose6. cbn [nth position rotation].
    rewrite (rpy_round r p yaw) by auto. reflexivity.
Qed.
Print Assumptions C31_set_q_get_q_base.

Example C31_example : angles_in_range PI (1 / 2)%R (- 1)%R.
Proof.
  pose proof PI_RGT_0 as P0. pose proof PI2_3_2 as P1. unfold angles_in_range. split; [lra|]. split; [lra|]. split; [|lra].
  rewrite Rabs_pos_eq.
  - apply Rlt_trans with (1 / 2); [apply sin_lt_x; lra | lra].
  - left. apply sin_gt_0; lra.
Qed.
Local Close Scope R_scope.

(** C32. *)
Theorem C32_ill_sized_vectors_rejected :
  forall (A : Arith) (w : World) i o m, nth_error (objs w) i = Some o -> py_robot o = Some m ->
    (forall jids q bt, length q <> length jids + base_size bt ->
       exists w', py_set_q i jids q bt w = (w', Throw AssertionError) /\ objs w' = objs w) /\
    (forall xyzrpy, length xyzrpy <> 6 -> with_robot i (w_set_base_pose xyzrpy) w = (w, Throw InvalidArgument)) /\
    (forall qs elinks jids rt bt wj uc, well_formed qs ->
       (exists q, In q (waypoints qs) /\ length q <> length jids + base_size bt) ->
       exists e, py_solve_fk i qs elinks jids rt bt wj uc w = (w, Throw e)) /\
    (forall qs jids actions forces bt wj, well_formed qs ->
       (exists q, In q (waypoints qs) /\ length q <> length jids + base_size bt) ->
       exists e, py_solve_com_fk i qs jids actions forces bt wj w = (w, Throw e)).
Proof.
  intros A w i o m Ho Hm. split; [|split; [|split]].
  - intros jids q bt N. pose proof (set_q_eq i (mkSet jids q bt) w o m Ho Hm) as X. cbn [s_jids s_q s_base] in X.
    rewrite (kset_wrong jids q bt m N) in X. cbn [fst snd] in X. rewrite X. eexists. split; [reflexivity|]. rewrite upd_same; auto.
  - intros v N. rewrite (with_robot_eq i _ w o m Ho Hm). unfold w_set_base_pose. rewrite (proj2 (Nat.eqb_neq _ _) N). cbn [throw fst snd]. now rewrite upd_same.
  - intros qs el jids rt bt wj uc Wf (q & Iq & Nq). unfold py_solve_fk. destruct (norm_qs_fk qs) as [[n rows]|] eqn:En; [|eexists; reflexivity].
    assert (Nn : n <> length jids + base_size bt).
    { destruct qs as [l|v|c l]; cbn [norm_qs_fk waypoints well_formed] in *.
      - eapply np_array_bad; eauto.
      - inversion En; subst. destruct Iq as [<-|[]]. exact Nq.
      - inversion En; subst. now rewrite <- (Wf q Iq). }
    unfold bind at 1. rewrite (check_dof_bad bt _ _ rows w Nn). eauto.
  - intros qs jids ac fo bt wj Wf (q & Iq & Nq). unfold py_solve_com_fk. destruct (norm_qs_com qs) as [[n rows]|] eqn:En; [|eexists; reflexivity].
    assert (Nn : n <> length jids + base_size bt).
    { destruct qs as [[|q0 l]|v|c l]; cbn [norm_qs_com waypoints well_formed] in *; try discriminate En.
      - destruct Iq.
      - eapply np_array_bad; eauto.
      - inversion En; subst. now rewrite <- (Wf q Iq). }
    unfold bind at 1. rewrite (check_dof_bad bt _ _ rows w Nn). eauto.
Qed.
Print Assumptions C32_ill_sized_vectors_rejected.

Example C32_example : nth_error (objs ex_world) 0 = Some ex_obj /\ py_robot ex_obj = Some ex_m0 /\
  length [n1; n0; n2; n1] <> length [0; 1] + base_size BPLANER /\
  well_formed (QsList [[n1; n0]; [n1]]) /\ exists q, In q (waypoints (QsList [[n1; n0]; [n1]])) /\ length q <> length [0; 1] + base_size BFIXED.
Proof. repeat split; try (simpl; lia). exists [n1]. simpl. split; [auto | lia]. Qed.

(** C33, for the Python class: every form of waypoints reaches the C++ call unchanged, so
    what is returned is the report of C33. *)
Theorem C33_python_solve_fk :
  forall (A : Arith) tinyxml cs w i o m R root sorted jsorted,
    instance tinyxml cs w i o m -> loadable tinyxml (py_xml o) R root -> ordered R sorted jsorted ->
    exists ops, reached tinyxml (py_xml o) R root sorted jsorted ops m /\
    forall qs elinks jids rt bt wj uc, bt <> BPLANER -> well_formed qs -> waypoints qs <> [] ->
      (forall q, In q (waypoints qs) -> length q = length jids + base_size bt) -> (forall k, In k jids -> k < length (get_joint_names m)) ->
      let floating := match bt with BFIXED => false | _ => true end in
      snd (py_solve_fk i qs elinks jids rt bt wj uc w) = snd (solve_forward_kinematics (waypoints qs) elinks jids rt floating wj uc m) /\
      forall w' P J, py_solve_fk i qs elinks jids rt bt wj false w = (w', Ok (P, J)) ->
        fk_report R root jsorted (after sorted jsorted ops) (get_link_names m) (waypoints qs) elinks jids rt floating wj P J.
Proof.
  intros A tinyxml cs w i o m R root sorted jsorted I L O.
  destruct (instance_reached tinyxml _ _ _ _ _ _ _ _ _ I L O) as (ops & Hr). exists ops. split; [exact Hr|]. destruct I as (_ & Ho & Hm).
  intros qs el jids rt bt wj uc Nb Wf Ne Hq Hk floating.
  assert (G : forall uc, snd (py_solve_fk i qs el jids rt bt wj uc w) = snd (solve_forward_kinematics (waypoints qs) el jids rt floating wj uc m)).
  { intros c. unfold py_solve_fk. rewrite (norm_fk_ok qs (length jids + base_size bt) Wf Ne Hq).
    unfold bind at 1. rewrite (check_dof_ok bt (length jids) (waypoints qs) w Nb). unfold bind. rewrite (with_robot_eq i _ w o m Ho Hm). cbn [snd].
    replace (with_base_of bt) with floating by reflexivity.
    destruct (solve_forward_kinematics (waypoints qs) el jids rt floating wj c m) as [m' [[P J]|e|u|]]; cbn [fst snd]; try reflexivity. destruct bt; [reflexivity | easy | reflexivity]. }
  split; [apply G|]. intros w' P J E. pose proof (G false) as X. rewrite E in X. cbn [snd] in X.
  destruct (solve_forward_kinematics (waypoints qs) el jids rt floating wj false m) as [m' r] eqn:Ef. cbn [snd] in X. subst r.
  destruct (C33_solve_fk_each_waypoint _ _ _ _ _ _ _ _ _ Hr (waypoints qs) el jids rt floating wj Hk) as (H & _). exact (H m' P J Ef).
Qed.
Print Assumptions C33_python_solve_fk.

Example C33_python_example : exists w P J, py_solve_fk 0 (QsArr1 [n1; n2]) [3] [0; 1] RPY BFIXED true false ex_world = (w, Ok (P, J)).
Proof.
  assert (B : (match snd (py_solve_fk 0 (QsArr1 [n1; n2]) [3] [0; 1] RPY BFIXED true false ex_world) with Ok _ => true | _ => false end) = true)
    by (vm_compute; reflexivity).
  revert B. generalize (py_solve_fk 0 (QsArr1 [n1; n2]) [3] [0; 1] RPY BFIXED true false ex_world).
  intros [w [[P J]|e|u|]] B; try discriminate B. eauto.
Qed.

(** C36. *)
Definition same_failure {B C} (r : res B) (r' : res C) : Prop :=
  match r, r' with Throw e, Throw e' => e = e' | UB u, UB u' => u = u' | Diverge, Diverge => True | _, _ => False end.
Theorem C36_planar_is_floating :
  forall (A : Arith) (w : World) i elinks jids rt wj uc qs qs', planar_args (length jids) qs qs' ->
    let (w1, planar) := py_solve_fk i qs elinks jids rt BPLANER wj uc w in
    let (w2, floating) := py_solve_fk i qs' elinks jids rt BFLOATING wj uc w in
    w1 = w2 /\
    match planar, floating with
    | Ok (P, J), Ok (P', J') => P = P' /\ Forall2 (planar_columns (length jids)) J' J
    | r, r' => same_failure r r'
    end.
Proof.
  intros A w i el jids rt wj uc qs qs' H. set (n := length jids).
  assert (G : (norm_qs_fk qs = None /\ norm_qs_fk qs' = None) \/
    exists l l', norm_qs_fk qs = Some (n + 3, l) /\ norm_qs_fk qs' = Some (n + 6, l') /\ Forall2 (planar_of n) l l').
  { destruct qs as [l|v|c l], qs' as [l'|v'|c' l']; try contradiction; cbn [planar_args norm_qs_fk] in *.
    - destruct (planar_width _ _ _ H) as (W1 & W2). destruct H as [|q q' l l' Hq Hl]; [left; split; reflexivity|]. right.
      exists (q :: l), (q' :: l'). unfold np_array.
      rewrite (W1 q), (W2 q') by (simpl; auto).
      rewrite (proj2 (forallb_forall _ (q :: l))) by (intros x Ix; apply Nat.eqb_eq, W1, Ix).
      rewrite (proj2 (forallb_forall _ (q' :: l'))) by (intros x Ix; apply Nat.eqb_eq, W2, Ix).
      split; [reflexivity|]. split; [reflexivity|]. constructor; auto.
    - right. exists [v], [v']. assert (F : Forall2 (planar_of n) [v] [v']) by (constructor; [exact H|constructor]).
      destruct (planar_width _ _ _ F) as (W1 & W2). rewrite (W1 v), (W2 v') by (simpl; auto). auto.
    - destruct H as (-> & -> & F). right. eauto. }
  unfold py_solve_fk. destruct G as [[-> ->]|(l & l' & -> & -> & F)].
  { split; reflexivity. }
  unfold check_dof. fold n. rewrite !Nat.eqb_refl. unfold assert_. rewrite (planar_modify n l l' F).
  rewrite (bind_ok _ _ w w l' eq_refl), (bind_ok _ _ w w l' eq_refl). cbn [with_base_of]. unfold bind.
  destruct (with_robot i (solve_forward_kinematics l' el jids rt true wj uc) w) as [w1 [[P J]|e|u|]] eqn:E;
    [|split; reflexivity|split; reflexivity|split; reflexivity].
  cbn [ret fst snd]. split; [reflexivity|]. split; [reflexivity|]. apply extract_columns.
  unfold with_robot in E. destruct (nth_error (objs w) i) as [o|]; [|discriminate]. destruct (py_robot o) as [m|]; [|discriminate].
  destruct (solve_forward_kinematics l' el jids rt true wj uc m) as [m' r] eqn:Ef. inversion E; subst.
  pose proof (fk_shape l' el jids rt true wj uc m m' _ Ef) as (_ & S'). cbn [snd] in S'. destruct S' as (_ & S'). exact S'.
Qed.
Print Assumptions C36_planar_is_floating.

(** and so do the squared distances between links and their gradients *)
Theorem C36_planar_distances :
  forall (A : Arith) (w : World) i pairs jids uc l l', Forall2 (planar_of (length jids)) l l' -> l <> [] ->
    let (w1, planar) := py_compute_inter_link_sqdists i (QsList l) pairs jids BPLANER true uc w in
    let (w2, floating) := py_compute_inter_link_sqdists i (QsList l') pairs jids BFLOATING true uc w in
    w1 = w2 /\
    match planar, floating with
    | Ok (V, J), Ok (V', J') => V = V' /\ Forall2 (planar_columns (length jids)) J' J
    | r, r' => same_failure r r'
    end.
Proof.
  intros A w i pairs jids uc l l' F Nl. set (n := length jids) in *.
  destruct (planar_width _ _ _ F) as (W1 & W2). unfold py_compute_inter_link_sqdists. fold n.
  assert (N1 : norm_qs_dist BPLANER n (QsList l) = Ok l').
  { unfold norm_qs_dist, np_array. destruct l as [|q l]; [easy|]. rewrite (W1 q) by (simpl; auto).
    rewrite (proj2 (forallb_forall _ (q :: l))) by (intros x Ix; apply Nat.eqb_eq, W1, Ix). now rewrite (planar_modify n _ _ F). }
  rewrite N1. cbn [norm_qs_dist]. rewrite !(bind_lift_ok (Ok l') l' _ _ eq_refl). destruct pairs as [|pr pairs]; [split; reflexivity|].
  cbn [with_base_of]. unfold bind. set (ps := pr :: pairs).
  destruct (with_robot i (compute_inter_link_squared_dists l' (map fst ps) (map snd ps) jids true true uc) w) as [w1 [[V J]|e|u|]] eqn:E;
    [|split; reflexivity|split; reflexivity|split; reflexivity].
  cbn [ret fst snd]. split; [reflexivity|]. split; [reflexivity|]. apply extract_columns.
  unfold with_robot in E. destruct (nth_error (objs w) i) as [o|]; [|discriminate]. destruct (py_robot o) as [m|]; [|discriminate].
  destruct (compute_inter_link_squared_dists l' (map fst ps) (map snd ps) jids true true uc m) as [m' r] eqn:Ef. inversion E; subst.
  pose proof (sqdists_shape l' _ _ jids true uc m m' _ Ef) as S'. cbn [snd] in S'. destruct S' as (_ & S'). exact S'.
Qed.
Print Assumptions C36_planar_distances.

Example C36_example : planar_args (length [0; 1]) (QsList [[n1; n2; n1; n0; nhalf]]) (QsList [[n1; n2; n1; n0; n0; n0; n0; nhalf]]) /\
  exists w P J, py_solve_fk 0 (QsList [[n1; n2; n1; n0; nhalf]]) [3] [0; 1] XYZW BPLANER true false ex_world = (w, Ok (P, J)).
Proof.
  split.
  - constructor; [|constructor]. exists [n1; n2], n1, n0, nhalf. repeat split; reflexivity.
  - assert (B : (match snd (py_solve_fk 0 (QsList [[n1; n2; n1; n0; nhalf]]) [3] [0; 1] XYZW BPLANER true false ex_world) with Ok _ => true | _ => false end) = true)
      by (vm_compute; reflexivity).
    revert B. generalize (py_solve_fk 0 (QsList [[n1; n2; n1; n0; nhalf]]) [3] [0; 1] XYZW BPLANER true false ex_world).
    intros [w [[P J]|e|u|]] B; try discriminate B. eauto.
Qed.

(** C37.  For a fixed or floating base the Jacobian of the centre of mass has three rows per
    waypoint and a column per coordinate of q. *)
Theorem C37_com_jacobian_columns_partial :
  forall (A : Arith) (w w' : World) i qs jids actions forces bt wj P J, bt <> BPLANER -> well_formed qs ->
    py_solve_com_fk i qs jids actions forces bt wj w = (w', Ok (P, J)) ->
    forall q, In q (waypoints qs) -> has_shape (3 * length (waypoints qs)) (length q) J.
Proof.
  intros A w w' i qs jids ac fo bt wj P J Nb Wf E q Iq. unfold py_solve_com_fk in E.
  destruct (norm_qs_com qs) as [[n rows]|] eqn:En; [|discriminate].
  assert (X : rows = waypoints qs /\ length q = n).
  { destruct qs as [[|q0 l]|v|c l]; cbn [norm_qs_com waypoints well_formed] in *; try discriminate En; [easy| |].
    - unfold np_array in En. destruct (forallb _ (q0 :: l)) eqn:F; [|discriminate]. inversion En; subst. split; [reflexivity|].
      rewrite forallb_forall in F. apply Nat.eqb_eq. now apply F.
    - inversion En; subst. auto. }
  destruct X as (-> & Lq).
  destruct (bind_inv_ok _ _ _ _ _ E) as (w1 & rows' & Ec & E1). clear E.
  destruct (bind_inv_ok _ _ _ _ _ E1) as (w2 & af & Ea & E2). clear E1.
  assert (Y : rows' = waypoints qs /\ n = length jids + if with_base_of bt then 6 else 0).
  { unfold check_dof in Ec. destruct bt; [| easy |].
    - destruct (bind_inv_ok _ _ _ _ _ Ec) as (w3 & u & Eu & Er). unfold assert_ in Eu.
      destruct (Nat.eqb n (length jids)) eqn:Q; [|discriminate]. apply Nat.eqb_eq in Q. inversion Er; subst. cbn [with_base_of]. split; [reflexivity | lia].
    - destruct (bind_inv_ok _ _ _ _ _ Ec) as (w3 & u & Eu & Er). unfold assert_ in Eu.
      destruct (Nat.eqb n (length jids + 6)) eqn:Q; [|discriminate]. apply Nat.eqb_eq in Q. inversion Er; subst. cbn [with_base_of]. split; [reflexivity | lia]. }
  destruct Y as (-> & Ln). unfold with_robot in E2. destruct (nth_error (objs w2) i) as [o|]; [|discriminate]. destruct (py_robot o) as [m|]; [|discriminate].
  destruct (solve_com_forward_kinematics _ _ _ _ _ _ m) as [m' r] eqn:Ef. inversion E2; subst.
  pose proof (com_fk_shape _ _ _ _ _ _ m m' _ Ef) as (_ & S'). cbn [snd] in S'. rewrite Ln. exact S'.
Qed.
Print Assumptions C37_com_jacobian_columns_partial.

(** It fails for a planar base: there are always three columns too many. *)
Theorem C37_com_jacobian_columns_planar_refuted :
  exists (w w' : @World RA) qs jids P J,
    py_solve_com_fk 0 qs jids None None BPLANER true w = (w', Ok (P, J)) /\ well_formed qs /\
    exists q row, In q (waypoints qs) /\ In row J /\ length row = length q + 3.
Proof.
  set (q := [n1; n2; n1; n0; nhalf]).
  assert (B : (match snd (py_solve_com_fk 0 (QsList [q]) [0; 1] None None BPLANER true ex_world) with
               | Ok (P, row :: J) => Nat.eqb (length row) 8 | _ => false end) = true) by (vm_compute; reflexivity).
  exists ex_world. revert B.
  assert (X : exists r, py_solve_com_fk 0 (QsList [q]) [0; 1] None None BPLANER true ex_world = r) by eauto. destruct X as (r & X). rewrite X.
  destruct r as [w' [[P [|row J]]|e|u|]]; cbn [snd]; intros B; try discriminate B. apply Nat.eqb_eq in B.
  exists w', (QsList [q]), [0; 1], P, (row :: J). split; [exact X|]. split; [exact I|]. exists q, row.
  split; [left; reflexivity|]. split; [left; reflexivity|]. exact B.
Qed.
Print Assumptions C37_com_jacobian_columns_planar_refuted.

Example C37_example : exists w' P J, py_solve_com_fk 0 (QsList [[n1; n2]]) [0; 1] (Some [3]) (Some [n1]) BFIXED true ex_world = (w', Ok (P, J)).
Proof.
  assert (B : (match snd (py_solve_com_fk 0 (QsList [[n1; n2]]) [0; 1] (Some [3]) (Some [n1]) BFIXED true ex_world) with Ok _ => true | _ => false end) = true)
    by (vm_compute; reflexivity).
  revert B. generalize (py_solve_com_fk 0 (QsList [[n1; n2]]) [0; 1] (Some [3]) (Some [n1]) BFIXED true ex_world).
  intros [w [[P J]|e|u|]] B; try discriminate B. eauto.
Qed.

(** C63.  Whatever a program does with other instances, including making new ones from
    instance [i]'s pickled form, instance [i] keeps its C++ object and its pickled form. *)
Theorem C63_instances_independent :
  forall (A : Arith) tinyxml cs w cs' w' i,
    py_run tinyxml cs no_objects = Some w -> py_run tinyxml cs' w = Some w' -> i < length (objs w) ->
    (forall c, In c cs' -> target c <> Some i) ->
    robot_of w' i = robot_of w i /\ pickled w' i = pickled w i.
Proof.
  intros A tinyxml cs w cs' w' i Hc H' Li Ht.
  pose proof (run_tidy tinyxml cs _ _ tidy_none Hc) as T. clear Hc.
  destruct (nth_error (objs w) i) as [o|] eqn:Eo; [|apply nth_error_None in Eo; lia]. clear Li.
  enough (X : nth_error (objs w') i = Some o /\ nth_error (heap_add w') (py_add o) = nth_error (heap_add w) (py_add o) /\ nth_error (heap_set w') (py_set o) = nth_error (heap_set w) (py_set o)).
  { destruct X as (X1 & X2 & X3). unfold robot_of, pickled. rewrite X1, Eo. split; [reflexivity|]. f_equal. f_equal; now apply nth_same. }
  revert w T Eo H'. induction cs' as [|c cs' IH]; intros w T Eo H'; cbn [py_run] in H'.
  - inversion H'; subst. auto.
  - destruct (py_exec tinyxml c w) as [w1 r] eqn:E.
    assert (On : on i c = false).
    { unfold on. destruct (target c) as [k|] eqn:Ek; [|reflexivity]. apply Nat.eqb_neq. intros ->. apply (Ht c); [left; reflexivity | exact Ek]. }
    assert (Fr : fine r) by (destruct r; simpl; auto; discriminate).
    destruct (exec_keeps tinyxml c w w1 r T E Fr) as (T1 & K). destruct (K i o Eo On) as (K1 & K2 & K3).
    assert (H1 : py_run tinyxml cs' w1 = Some w') by (destruct r; simpl in Fr; try contradiction; exact H').
    destruct (IH (fun c' I => Ht c' (or_intror I)) w1 T1 K1 H1) as (X1 & X2 & X3). rewrite X1, X2, X3. auto.
Qed.
Print Assumptions C63_instances_independent.

(** a program on three instances: the second is moved, extended, queried, rejected and copied *)
Definition ex_prog : list call :=
  [C_new ex_text; C_loads (mkPickle ex_text [] []); C_set_q 1 [0; 1] [n1; n2] BFIXED; C_add_new_link 1 "hand" 3 (V3 n0 n0 n1) None;
   C_add_new_link 1 "l1" 0 v_clear None; C_solve_fk 1 (QsList [[n2; n1]]) [6; 3] [0; 1] XYZW BFIXED true false; C_get_q 1 [0] BFLOATING;
   C_solve_fk 1 (QsList [[n2]]) [6; 3] [0; 1] XYZW BFIXED true false; C_copy 1; C_new ex_text; C_sqdists 2 (QsArr2 2 [[n1; n1]]) [(0, 3)] [0; 1] BFIXED true true].
Example C63_example : exists w w', py_run ex_tinyxml [C_new ex_text] no_objects = Some w /\ py_run ex_tinyxml (tl ex_prog) w = Some w' /\ 0 < length (objs w) /\
  (forall c, In c (tl ex_prog) -> target c <> Some 0).
Proof.
  assert (B : is_some (match py_run ex_tinyxml [C_new ex_text] no_objects with Some w => py_run ex_tinyxml (tl ex_prog) w | None => None end) = true) by (vm_compute; reflexivity).
  destruct ex_instance as (Hr & _). exists ex_world. rewrite Hr in B. destruct (is_some_ex _ B) as (w' & E). exists w'.
  split; [exact Hr|]. split; [exact E|]. split; [simpl; lia|].
  intros c Ic. unfold ex_prog, tl in Ic.
  repeat (destruct Ic as [<-|Ic]; [discriminate|]). destruct Ic.
Qed.

(** C64.  After any program, every instance wraps a C++ object made by the constructor from
    the instance's own document and then only changed by calls of the C++ class (so the
    theorems about these apply to it); instances never lose it. *)
Theorem C64_instances_wrap_reached_objects :
  forall (A : Arith) tinyxml cs w, py_run tinyxml cs no_objects = Some w ->
    (forall i o, nth_error (objs w) i = Some o ->
       exists m0 ops m, ctor tinyxml (py_xml o) = Ok m0 /\ run ops m0 = Some m /\ py_robot o = Some m) /\
    (forall cs' w' i m, py_run tinyxml cs' w = Some w' -> robot_of w i = Some m ->
       exists ops m', run ops m = Some m' /\ robot_of w' i = Some m').
Proof.
  intros A tinyxml cs w Hc. split.
  - intros i o Ho. exact (genuine_all tinyxml cs w i o Hc Ho).
  - intros cs' w' i m H' Hm. unfold robot_of in Hm. destruct (nth_error (objs w) i) as [o|] eqn:Eo; [|discriminate].
    destruct (py_run_evolves tinyxml cs' w w' H') as (_ & K & _). destruct (K i o Eo) as (o' & Eo' & _ & Mv). rewrite Hm in Mv.
    destruct Mv as (ops & m' & E1 & E2). exists ops, m'. unfold robot_of. rewrite Eo'. auto.
Qed.
Print Assumptions C64_instances_wrap_reached_objects.

Example C64_example : exists w, py_run ex_tinyxml ex_prog no_objects = Some w.
Proof. apply is_some_ex. vm_compute. reflexivity. Qed.

(** C65 fails, for every instance: vectors shorter than the joint list are not rejected by
    compute_total_inertia_matrix and compute_inter_link_sqdists but read past their end. *)
Theorem C65_short_vectors_refuted :
  forall (A : Arith) tinyxml cs w i o m, instance tinyxml cs w i o m ->
    (forall q jids, length q < length jids -> snd (py_compute_total_inertia_matrix i q jids w) = UB OutOfBounds) /\
    (forall q p pairs jids wj uc, length q < length jids ->
       snd (py_compute_inter_link_sqdists i (QsList [q]) (p :: pairs) jids BFIXED wj uc w) = UB OutOfBounds).
Proof.
  intros A tinyxml cs w i o m (_ & Ho & Hm).
  assert (Sh : forall q jids (m : KM), length q < length jids -> snd (set_joint_angles_nc jids q m) = UB OutOfBounds).
  { intros q jids m' L. destruct (set_nc_cases jids q m') as (v & _ & _ & [(_ & _ & _ & C)|(C & _)]); [lia | exact C]. }
  split.
  - intros q jids L. unfold py_compute_total_inertia_matrix. rewrite (with_robot_eq i _ w o m Ho Hm). cbn [snd].
    unfold compute_total_inertia_matrix. unfold bind at 1. specialize (Sh q jids m L).
    destruct (set_joint_angles_nc jids q m) as [m1 r1]. cbn [snd] in Sh. now rewrite Sh.
  - intros q p pairs jids wj uc L. unfold py_compute_inter_link_sqdists. cbn [norm_qs_dist]. rewrite (bind_lift_ok (Ok [q]) [q] _ _ eq_refl). unfold bind at 1.
    rewrite (with_robot_eq i _ w o m Ho Hm).
    assert (X : snd (compute_inter_link_squared_dists [q] (map fst (p :: pairs)) (map snd (p :: pairs)) jids (with_base_of BFIXED) wj uc m) = UB OutOfBounds).
    { unfold compute_inter_link_squared_dists. cbn [enumerate length seq combine for_each with_base_of snd]. unfold bind at 1. unfold bind at 1. unfold goto_waypoint. unfold bind at 1.
      specialize (Sh q jids m L). destruct (set_joint_angles_nc jids q m) as [m1 r1]. cbn [snd] in Sh. now rewrite Sh. }
    destruct (compute_inter_link_squared_dists _ _ _ _ _ _ _ m) as [m1 r1]. cbn [snd fst] in *. now rewrite X.
Qed.
Print Assumptions C65_short_vectors_refuted.
Example C65_example : instance (A := RA) ex_tinyxml [C_new ex_text] ex_world 0 ex_obj ex_m0.
Proof. exact ex_instance. Qed.
