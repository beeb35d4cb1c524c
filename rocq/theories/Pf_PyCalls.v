(** Single calls on instances of the Python class. *)
From Coq Require Import String List Arith Lia Bool.
From Verif Require Import Base Num Pose DataStructure Urdf Kin Wrapper Py Spec_Robot Spec_Hist Spec_Load Spec_Jac Spec_Py
  Pf_Base Inv Rep Pf_Ops Pf_Name Pf_Reach Pf_Jac Pf_Pose Pf_Local Pf_Hist Pf_Py Pf_Pickle Pf_Shape.
Import ListNotations.
Local Open Scope m_scope.

Section Calls.
Context `{A : Arith}.
Context (tinyxml : string -> option (list xml)).

Lemma instance_reached cs w i o m R root sorted jsorted :
  instance tinyxml cs w i o m -> loadable tinyxml (py_xml o) R root -> ordered R sorted jsorted ->
  exists ops, reached tinyxml (py_xml o) R root sorted jsorted ops m.
Proof.
  intros (Hc & Ho & Hm) L O. destruct (genuine_all tinyxml cs w i o Hc Ho) as (m0 & ops & m1 & E0 & E1 & E2).
  assert (m1 = m) by congruence. subst. exists ops. split; [exact L|]. split; [exact O|]. eauto.
Qed.
Lemma instance_WF cs w i o m R root sorted jsorted :
  instance tinyxml cs w i o m -> loadable tinyxml (py_xml o) R root -> ordered R sorted jsorted -> WF m.
Proof.
  intros I L O. destruct (instance_reached _ _ _ _ _ _ _ _ _ I L O) as (ops & Hr). destruct (reached_Rep _ _ _ _ _ _ _ _ Hr) as [HR _].
  apply (rep_wf _ _ _ _ _ _ _ _ HR).
Qed.

Lemma link_ids_names m : WF m -> map fst (link_ids m) = get_link_names m.
Proof.
  intros W. rewrite (wf_link_ids m W). unfold get_link_names. rewrite <- (map_length l_name (links m)).
  generalize (map l_name (links m)), 0. intros l. induction l as [|x l IH]; intros k; [reflexivity|]. simpl. now rewrite IH.
Qed.

Lemma add_known i name parent pos rpy w o m : nth_error (objs w) i = Some o -> py_robot o = Some m -> In name (map fst (link_ids m)) ->
  py_add_new_link i name parent pos rpy w =
  (mkW (hist_append (heap_add w) (py_add o) (mkAdd name parent pos rpy)) (heap_set w) (objs w), Throw InvalidArgument).
Proof.
  intros Ho Hm I. set (a := mkAdd name parent pos rpy).
  change (py_add_new_link i name parent pos rpy w) with (py_add_new_link i (a_name a) (a_parent a) (a_pos a) (a_rpy a) w).
  rewrite (add_eq i a w o m Ho Hm), (kadd_known a m I). cbn [fst snd]. f_equal.
  now rewrite upd_same.
Qed.

Lemma nth_same {B} (l l' : list B) k d : nth_error l k = nth_error l' k -> nth k l d = nth k l' d.
Proof.
  intros E. destruct (nth_error l k) as [x|] eqn:E1.
  - rewrite (nth_error_nth _ _ _ E1). symmetry in E. now rewrite (nth_error_nth _ _ _ E).
  - symmetry in E. apply nth_error_None in E1, E. now rewrite !nth_overflow.
Qed.
Lemma copy_eq i w o : nth_error (objs w) i = Some o -> py_copy tinyxml i w = py_setstate tinyxml (py_xml o) (py_add o) (py_set o) w.
Proof. unfold py_copy. now intros ->. Qed.
Lemma loads_eq p w : py_loads tinyxml p w = py_setstate tinyxml (pk_xml p) (length (heap_add w)) (length (heap_set w))
             (mkW (heap_add w ++ [pk_add p]) (heap_set w ++ [pk_set p]) (objs w)).
Proof. reflexivity. Qed.
Lemma robot_of_objs w w' j : objs w' = objs w -> robot_of w' j = robot_of w j.
Proof. unfold robot_of. now intros ->. Qed.
Lemma robot_of_instance w i o m : nth_error (objs w) i = Some o -> py_robot o = Some m -> robot_of w i = Some m.
Proof. unfold robot_of. now intros -> ->. Qed.

(** get_q only reads *)
Definition reads {B} (f : M KM B) : Prop := forall m, fst (f m) = m.
Lemma reads_robot {B} i (f : M KM B) w o m : reads f -> nth_error (objs w) i = Some o -> py_robot o = Some m -> with_robot i f w = (w, snd (f m)).
Proof. intros Hf Ho Hm. rewrite (with_robot_eq i f w o m Ho Hm), Hf. f_equal. now apply upd_same. Qed.
Lemma reads_angles jids : reads (get_joint_angles jids).
Proof. intros m. unfold get_joint_angles. rewrite bind_get. reflexivity. Qed.
Lemma reads_base : reads w_get_base_pose.
Proof. intros m. unfold w_get_base_pose. rewrite bind_get. reflexivity. Qed.

Lemma get_q_fixed i jids w o m : nth_error (objs w) i = Some o -> py_robot o = Some m ->
  py_get_q i jids BFIXED w = (w, match snd (get_joint_angles jids m) with Ok a => Ok (a ++ []) | Throw e => Throw e | UB u => UB u | Diverge => Diverge end).
Proof.
  intros Ho Hm. unfold py_get_q. rewrite (bind_ok _ _ w w [] eq_refl). unfold bind at 1.
  rewrite (reads_robot i _ w o m (reads_angles jids) Ho Hm). destruct (snd (get_joint_angles jids m)); reflexivity.
Qed.
Lemma get_q_with i jids w o m bt a : nth_error (objs w) i = Some o -> py_robot o = Some m -> get_joint_angles jids m = (m, Ok a) ->
  let b := v_list (position (base_pose m)) ++ v_list (getRPY (rotation (base_pose m))) in
  py_get_q i jids bt w = (w, Ok (a ++ match bt with BFIXED => [] | BPLANER => [nth 0 b n0; nth 1 b n0; last b n0] | BFLOATING => b end)).
Proof.
  intros Ho Hm Ea b. unfold py_get_q.
  assert (Eb : with_robot i w_get_base_pose w = (w, Ok b)).
  { rewrite (reads_robot i _ w o m reads_base Ho Hm). unfold w_get_base_pose. rewrite bind_get. reflexivity. }
  assert (Er : with_robot i (get_joint_angles jids) w = (w, Ok a)) by (rewrite (reads_robot i _ w o m (reads_angles jids) Ho Hm), Ea; reflexivity).
  destruct bt.
  - rewrite (bind_ok _ _ w w [] eq_refl), (bind_ok _ _ _ _ _ Er). reflexivity.
  - rewrite bind_assoc, (bind_ok _ _ _ _ _ Eb), (bind_ok _ _ w w _ eq_refl), (bind_ok _ _ _ _ _ Er). reflexivity.
  - rewrite (bind_ok _ _ _ _ _ Eb), (bind_ok _ _ _ _ _ Er). reflexivity.
Qed.

Lemma get_q_eq i jids w o m bt : nth_error (objs w) i = Some o -> py_robot o = Some m ->
  let b := v_list (position (base_pose m)) ++ v_list (getRPY (rotation (base_pose m))) in
  py_get_q i jids bt w = (w, match snd (get_joint_angles jids m) with
    | Ok a => Ok (a ++ match bt with BFIXED => [] | BPLANER => [nth 0 b n0; nth 1 b n0; last b n0] | BFLOATING => b end)
    | Throw e => Throw e | UB u => UB u | Diverge => Diverge end).
Proof.
  intros Ho Hm b. unfold py_get_q.
  assert (Eb : with_robot i w_get_base_pose w = (w, Ok b)).
  { rewrite (reads_robot i _ w o m reads_base Ho Hm). unfold w_get_base_pose. rewrite bind_get. reflexivity. }
  pose proof (reads_robot i _ w o m (reads_angles jids) Ho Hm) as Er.
  destruct bt.
  - rewrite (bind_ok _ _ w w [] eq_refl). unfold bind. rewrite Er. destruct (snd (get_joint_angles jids m)); reflexivity.
  - rewrite bind_assoc, (bind_ok _ _ _ _ _ Eb), (bind_ok _ _ w w _ eq_refl). unfold bind. rewrite Er. destruct (snd (get_joint_angles jids m)); reflexivity.
  - rewrite (bind_ok _ _ _ _ _ Eb). unfold bind. rewrite Er. destruct (snd (get_joint_angles jids m)); reflexivity.
Qed.
Lemma get_q_same i k jids bt w w' o o' m m' : nth_error (objs w) i = Some o -> py_robot o = Some m -> nth_error (objs w') k = Some o' -> py_robot o' = Some m' ->
  joint_angles m' = joint_angles m -> base_pose m' = base_pose m -> snd (py_get_q k jids bt w') = snd (py_get_q i jids bt w).
Proof.
  intros Ho Hm Ho' Hm' Ea Eb. rewrite (get_q_eq i jids w o m bt Ho Hm), (get_q_eq k jids w' o' m' bt Ho' Hm'). cbn [snd].
  rewrite Eb. unfold get_joint_angles. rewrite !bind_get. unfold lift. now rewrite Ea.
Qed.

(** the base pose a configuration vector asks for *)
Definition base_asked (bt : BaseType) (q : list num) (old : Pose) : Pose :=
  let b := skipn (length q - base_size bt) q in
  match bt with
  | BFIXED => old
  | BPLANER => pose6 [nth 0 b n0; nth 1 b n0; n0; n0; n0; nth 2 b n0]
  | BFLOATING => pose6 b
  end.

Lemma kset_total jids q bt m : (forall k, In k jids -> k < length (joint_angles m)) -> length q = length jids + base_size bt ->
  exists m', kset (mkSet jids q bt) m = (m', Ok tt) /\ joint_angles m' = assign jids (firstn (length jids) q) (joint_angles m) /\
    base_pose m' = base_asked bt q (base_pose m) /\ joints m' = joints m /\ links m' = links m /\ link_ids m' = link_ids m.
Proof.
  intros Hk L.
  assert (G : forall a, length a = length jids -> set_joint_angles jids a m = (set_tcache (cache_clear (tcache (set_angles (assign jids a (joint_angles m)) m))) (set_angles (assign jids a (joint_angles m)) m), Ok tt)).
  { intros a La. unfold set_joint_angles. rewrite (bind_ok _ _ _ _ _ (set_nc_total jids a m Hk ltac:(lia))). reflexivity. }
  unfold kset. cbn [s_base s_q s_jids]. destruct bt; cbn [base_size] in *; rewrite ?Nat.add_0_r in L; unfold assert_; rewrite L, Nat.eqb_refl.
  - rewrite (bind_ok _ _ m m tt eq_refl), (G q) by lia. eexists. split; [reflexivity|].
    cbn [joint_angles set_tcache set_angles base_pose base_asked joints links link_ids]. rewrite firstn_all2 by lia. repeat split; reflexivity.
  - rewrite (bind_ok _ _ m m tt eq_refl). unfold drop_last, last_k. rewrite L. replace (length jids + 3 - 3) with (length jids) by lia.
    rewrite (bind_ok _ _ _ _ _ (G (firstn (length jids) q) ltac:(rewrite firstn_length; lia))).
    unfold w_set_base_pose. cbn [length Nat.eqb]. rewrite w6_total by (simpl; lia). eexists. split; [reflexivity|].
    cbn [joint_angles set_tcache set_angles set_base base_pose base_asked base_size joints links link_ids]. rewrite L. replace (length jids + 3 - 3) with (length jids) by lia. repeat split; reflexivity.
  - rewrite (bind_ok _ _ m m tt eq_refl). unfold drop_last, last_k. rewrite L. replace (length jids + 6 - 6) with (length jids) by lia.
    rewrite (bind_ok _ _ _ _ _ (G (firstn (length jids) q) ltac:(rewrite firstn_length; lia))).
    assert (Lb : length (skipn (length jids) q) = 6) by (rewrite skipn_length; lia).
    unfold w_set_base_pose. rewrite Lb. cbn [Nat.eqb]. rewrite w6_total by lia. eexists. split; [reflexivity|].
    cbn [joint_angles set_tcache set_angles set_base base_pose base_asked base_size joints links link_ids]. rewrite L. replace (length jids + 6 - 6) with (length jids) by lia. repeat split; reflexivity.
Qed.

Lemma kset_wrong jids q bt m : length q <> length jids + base_size bt -> kset (mkSet jids q bt) m = (m, Throw AssertionError).
Proof.
  intros L. unfold kset. cbn [s_base s_q s_jids].
  destruct bt; cbn [base_size] in L; unfold assert_; rewrite (proj2 (Nat.eqb_neq _ _)) by lia; reflexivity.
Qed.

Lemma set_q_total i jids q bt w o m : nth_error (objs w) i = Some o -> py_robot o = Some m ->
  (forall k, In k jids -> k < length (joint_angles m)) -> length q = length jids + base_size bt ->
  exists w' o' m', py_set_q i jids q bt w = (w', Ok tt) /\ nth_error (objs w') i = Some o' /\ py_robot o' = Some m' /\
    joint_angles m' = assign jids (firstn (length jids) q) (joint_angles m) /\ base_pose m' = base_asked bt q (base_pose m) /\
    joints m' = joints m /\ links m' = links m /\ link_ids m' = link_ids m /\ (forall j, j <> i -> nth_error (objs w') j = nth_error (objs w) j).
Proof.
  intros Ho Hm Hk L. destruct (kset_total jids q bt m Hk L) as (m' & E & Ea & Eb & Ej & El & Ei).
  pose proof (set_q_eq i (mkSet jids q bt) w o m Ho Hm) as X. cbn [s_jids s_q s_base] in X. rewrite E in X. cbn [fst snd] in X.
  eexists _, _, m'. split; [exact X|]. split; [apply upd_at with (o0 := o); exact Ho|]. repeat split; auto.
  intros j Nj. unfold upd, w_put_obj. cbn [objs]. rewrite nth_error_list_set_ne; auto.
Qed.

Lemma assign_get jids a v : NoDup jids -> length a = length jids -> (forall j, In j jids -> j < length v) ->
  map (fun j => nth j (assign jids a v) n0) jids = a.
Proof.
  intros ND L Hk. apply list_ext. intros i. rewrite nth_error_map'. destruct (nth_error jids i) as [k|] eqn:Ek; simpl.
  - destruct (nth_error_split _ _ Ek) as (pre & post & E & Lp).
    assert (Np : ~ In k post). { rewrite E in ND. apply NoDup_remove_2 in ND. intros I. apply ND. apply in_or_app. auto. }
    assert (Lk : k < length v) by (apply Hk; eapply nth_error_In; eauto).
    pose proof (assign_last jids pre k post a v E Np L Lk) as X. rewrite Lp in X. rewrite <- X.
    symmetry. apply nth_error_nth'. rewrite assign_length. lia.
  - apply nth_error_None in Ek. symmetry. apply nth_error_None. lia.
Qed.

(** ** Sizes of waypoints *)
Lemma np_array_bad rows k : (exists r, In r rows /\ length r <> k) -> forall n rs, np_array rows = Some (n, rs) -> n <> k.
Proof.
  intros (r & I & Nr) n rs E. destruct rows as [|r0 rows]; [discriminate|]. unfold np_array in E.
  destruct (forallb _ (r0 :: rows)) eqn:F; [|discriminate]. inversion E; subst. rewrite forallb_forall in F.
  specialize (F r I). apply Nat.eqb_eq in F. lia.
Qed.
Lemma check_dof_bad bt nj nd rows w : nd <> nj + base_size bt -> check_dof bt nj nd rows w = (w, Throw AssertionError).
Proof.
  intros N. unfold check_dof. destruct bt; cbn [base_size] in N; unfold assert_; rewrite (proj2 (Nat.eqb_neq _ _)) by lia; reflexivity.
Qed.

Lemma norm_fk_ok qs k : well_formed qs -> waypoints qs <> [] -> (forall q, In q (waypoints qs) -> length q = k) -> norm_qs_fk qs = Some (k, waypoints qs).
Proof.
  intros Wf Ne Hq. destruct qs as [[|q l]|v|c l]; cbn [norm_qs_fk waypoints well_formed np_array] in *; [easy| | |].
  - rewrite (Hq q) by (left; reflexivity). now rewrite (proj2 (forallb_forall _ (q :: l))) by (intros x Ix; apply Nat.eqb_eq, Hq, Ix).
  - now rewrite (Hq v (or_introl eq_refl)).
  - destruct l as [|q l]; [easy|]. now rewrite <- (Hq q (or_introl eq_refl)), (Wf q (or_introl eq_refl)).
Qed.
Lemma check_dof_ok bt nj rows w : bt <> BPLANER -> check_dof bt nj (nj + base_size bt) rows w = (w, Ok rows).
Proof.
  intros N. unfold check_dof. destruct bt; [|easy|]; cbn [base_size]; unfold assert_; rewrite ?Nat.add_0_r, Nat.eqb_refl; reflexivity.
Qed.

(** ** Planar calls *)
Lemma planar_modify n qs qs' : Forall2 (planar_of n) qs qs' -> modify_3dof n (n + 3) qs = Some qs'.
Proof.
  intros F. unfold modify_3dof. rewrite (proj2 (Nat.ltb_ge _ _)) by lia. f_equal.
  induction F as [|q q' qs qs' (js & x & y & w & L & -> & ->) F IH]; [reflexivity|]. cbn [map]. rewrite IH. f_equal.
  replace (n + 3 + 3 - (n + 2) - 1) with 3 by lia. subst n.
  rewrite firstn_app, firstn_all2 by lia. replace (length js + 2 - length js) with 2 by lia.
  rewrite app_nth2 by lia. replace (length js + 2 - length js) with 2 by lia. cbn [firstn repeat nth]. now rewrite <- !app_assoc.
Qed.
Lemma planar_width n qs qs' : Forall2 (planar_of n) qs qs' -> (forall q, In q qs -> length q = n + 3) /\ (forall q, In q qs' -> length q = n + 6).
Proof.
  induction 1 as [|q q' qs qs' (js & x & y & w & L & -> & ->) F [I1 I2]]; [split; intros ? []|].
  split; intros p [<-|I]; auto; rewrite app_length; simpl; lia.
Qed.
Lemma seq_nth_map (row : list num) n : n <= length row -> map (fun c => nth c row n0) (seq 0 n) = firstn n row.
Proof.
  intros L. apply list_ext. intros i. rewrite nth_error_map'. destruct (Nat.lt_ge_cases i n) as [H|H].
  - rewrite (nth_error_nth' (seq 0 n) 0) by (rewrite seq_length; lia). rewrite seq_nth by lia. cbn [option_map Nat.add].
    rewrite nth_error_firstn_lt by lia. symmetry. apply nth_error_nth'. lia.
  - rewrite (proj2 (nth_error_None (seq 0 n) i)) by (rewrite seq_length; lia). cbn [option_map]. symmetry. apply nth_error_None. rewrite firstn_length. lia.
Qed.
Lemma split6 (row : list num) n : length row = n + 6 -> exists js x y z r p w, length js = n /\ row = js ++ [x; y; z; r; p; w].
Proof.
  intros L. assert (L2 : length (skipn n row) = 6) by (rewrite skipn_length; lia).
  destruct (skipn n row) as [|x [|y [|z [|r [|p [|w [|u t]]]]]]] eqn:E; try discriminate L2.
  exists (firstn n row), x, y, z, r, p, w. split; [rewrite firstn_length; lia|]. rewrite <- E. symmetry. apply firstn_skipn.
Qed.
Lemma extract_columns n (J : mat) : (forall row, In row J -> length row = n + 6) -> Forall2 (planar_columns n) J (extract_planar n J).
Proof.
  induction J as [|row J IH]; intros H; [constructor|]. cbn [extract_planar map]. constructor; [|apply IH; intros; apply H; simpl; auto].
  destruct (split6 row n (H row (or_introl eq_refl))) as (js & x & y & z & r & p & w & L & ->).
  exists js, x, y, z, r, p, w. split; [exact L|]. split; [reflexivity|]. rewrite map_app, seq_nth_map by (rewrite app_length; simpl; lia).
  rewrite firstn_app, firstn_all2 by lia. rewrite <- L, Nat.sub_diag, firstn_O, app_nil_r. f_equal.
  cbn [map]. rewrite !app_nth2 by lia. replace (length js - length js) with 0 by lia.
  replace (length js + 1 - length js) with 1 by lia. replace (length js + 5 - length js) with 5 by lia. reflexivity.
Qed.

(** the gradients have a column per coordinate *)
Lemma sqdists_shape qs i1 i2 jids wb uc : gives (compute_inter_link_squared_dists qs i1 i2 jids wb true uc)
  (fun x => has_shape (length i1 * length qs) (length jids + if wb then 6 else 0) (snd x)).
Proof.
  unfold compute_inter_link_squared_dists. apply gives_for.
  2: { cbn [snd]. apply shape_zero. }
  intros iq acc H. apply gives_bind. intros _. apply gives_for; [|exact H]. intros jl acc' H'.
  apply gives_bind; intros id2. apply gives_bind; intros p1. apply gives_bind; intros p2. apply gives_bind; intros sd.
  apply gives_bind; intros jac1. apply gives_bind; intros jac2.
  apply (gives_bind' _ _ _ (has_shape (length i1 * length qs) (length jids + if wb then 6 else 0))).
  - apply gives_lift, shape_vset; [exact H'|]. unfold grad_row. now rewrite map_length, seq_length.
  - intros g Hg. apply gives_ret. exact Hg.
Qed.
End Calls.
