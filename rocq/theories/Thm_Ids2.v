(** C97: ids that were never handed out. *)
From Coq Require Import Reals String List Arith Lia Bool.
From Verif Require Import Base Num Pose DataStructure Urdf Kin Wrapper Py Spec_Robot Spec_Hist Spec_Load Spec_Py
  Pf_Base Inv Rep Pf_Ops Pf_Local Pf_Reach Pf_Hist Pf_Pickle Pf_Py Pf_PyCalls RealArith Ex_Robot Thm_Py.
Import ListNotations.
Local Open Scope nat_scope.
Local Open Scope m_scope.

Lemma rfor_stuck {S B} (body : S -> B -> res B) (bad : S -> Prop) l : (forall x, In x l -> bad x \/ ~ bad x) ->
  (forall x acc, bad x -> body x acc = UB OutOfBounds) ->
  (forall x acc, ~ bad x -> (exists acc', body x acc = Ok acc') \/ exists u, body x acc = UB u) ->
  (exists x, In x l /\ bad x) -> forall acc, exists u, rfor l acc body = UB u.
Proof.
  intros D H1 H2. induction l as [|x l IH]; intros (y & I & Y) acc; [destruct I|]. cbn [rfor].
  destruct (D x (or_introl eq_refl)) as [K|K]; [rewrite (H1 x acc K); cbn; eauto|].
  destruct (H2 x acc K) as [(acc' & E)|(u & E)]; rewrite E; cbn; [|eauto]. apply IH; [intros z Z; apply D; right; exact Z|]. exists y. split; [|exact Y].
  destruct I as [-> |I]; [contradiction|exact I].
Qed.

Section Ids.
Context `{A : Arith}.
Lemma angles_stuck (m : KM) jids k : In k jids -> length (joint_angles m) <= k -> exists u, get_joint_angles jids m = (m, UB u).
Proof.
  intros I L. unfold get_joint_angles, bind, get, lift.
  destruct (rfor_stuck (fun j acc => let? a := vget (joint_angles m) j in Ok (acc ++ [a])) (fun j => length (joint_angles m) <= j) jids) with (acc := @nil num) as (u & ->); [| | | |eauto].
  - intros x _. destruct (le_lt_dec (length (joint_angles m)) x); [left|right]; lia.
  - intros x acc B. unfold vget. rewrite (proj2 (nth_error_None _ _) B). reflexivity.
  - intros x acc B. unfold vget. destruct (nth_error (joint_angles m) x) eqn:E; [left; eexists; reflexivity|]. apply nth_error_None in E. lia.
  - eauto.
Qed.
Lemma limits_stuck (m : KM) jids k : In k jids -> length (joints m) <= k -> exists u, get_joint_position_limits jids m = (m, UB u).
Proof.
  intros I L. unfold get_joint_position_limits, bind, get, lift.
  match goal with |- context [rfor jids [] ?b] => destruct (rfor_stuck b (fun j => length (joints m) <= j) jids) with (acc := @nil (ext * ext)) as (u & ->); [| | | |eauto] end.
  - intros x _. destruct (le_lt_dec (length (joints m)) x); [left|right]; lia.
  - intros x acc B. unfold vget. rewrite (proj2 (nth_error_None _ _) B). reflexivity.
  - intros x acc B. unfold vget. destruct (nth_error (joints m) x) as [j|] eqn:E; [|apply nth_error_None in E; lia].
    cbn. destruct (j_type j); destruct (j_limits j); cbn; solve [left; eexists; reflexivity|right; eexists; reflexivity].
  - eauto.
Qed.
Lemma set_stuck (m : KM) jids q k : In k jids -> length (joint_angles m) <= k -> snd (set_joint_angles_nc jids q m) = UB OutOfBounds.
Proof.
  intros I L. destruct (set_nc_cases jids q m) as (v & _ & _ & [(_ & _ & C & _)|(C & _)]); [|exact C]. specialize (C k I). lia.
Qed.
Lemma pose_stuck (m : KM) e : length (cache_pred (tcache m)) <= e -> get_link_pose e m = (m, UB OutOfBounds).
Proof.
  intros L. unfold get_link_pose, bind, get, lift, get_cache, vget. rewrite (proj2 (nth_error_None _ _) L). reflexivity.
Qed.
Lemma WF_pred (m : KM) : WF m -> length (cache_pred (tcache m)) = length (links m) /\ cache_size (tcache m) = length (links m).
Proof. intros W. destruct (wf_cache m W) as [(_ & C) S]. split; congruence. Qed.
Lemma fk_stuck_joint (m : KM) q qs el jids k rt wb wj uc : In k jids -> length (joint_angles m) <= k ->
  (if wb : bool then length q = length jids + 6 else True) -> snd (solve_forward_kinematics (q :: qs) el jids rt wb wj uc m) = UB OutOfBounds.
Proof.
  intros I L Q. unfold solve_forward_kinematics. cbn [length enumerate seq combine for_each]. unfold bind at 1.
  assert (C : (if wb then q0 <- lift (vget (q :: qs) 0);;
                (if (List.length q0 <? 6) || negb (List.length jids =? List.length q0 - 6) then throw InvalidArgument else ret tt)
               else ret tt) m = (m, Ok tt)).
  { destruct wb; [|reflexivity]. unfold bind, lift, vget. cbn [nth_error]. replace (length q <? 6) with false by (symmetry; apply Nat.ltb_ge; lia).
    replace (length jids =? length q - 6) with true by (symmetry; apply Nat.eqb_eq; lia). reflexivity. }
  rewrite C. unfold enumerate. cbn [length seq combine for_each]. unfold bind at 1. unfold bind at 1. unfold goto_waypoint. unfold bind at 1. cbn [snd fst].
  pose proof (set_stuck m jids q k I L) as S. destruct (set_joint_angles_nc jids q m) as [m1 r1]. cbn [snd] in S. now rewrite S.
Qed.
Lemma fk_stuck_link (m : KM) q qs e el jids rt wj uc : WF m -> (forall k, In k jids -> k < length (joint_angles m)) -> length jids <= length q ->
  length (links m) <= e -> snd (solve_forward_kinematics (q :: qs) (e :: el) jids rt false wj uc m) = UB OutOfBounds.
Proof.
  intros W K Q L. destruct (WF_pred m W) as [P1 P2]. unfold solve_forward_kinematics. unfold bind at 1. cbn [ret]. unfold enumerate. cbn [length seq combine for_each].
  unfold bind at 1. unfold bind at 1. unfold goto_waypoint. unfold bind at 1. cbn [snd fst]. rewrite (set_nc_total jids q m K Q). unfold bind at 1. cbn [ret].
  assert (G : forall m2 P, length (cache_pred (tcache m2)) <= e -> snd (fk_poses rt 0 (e :: el) P m2) = UB OutOfBounds).
  { intros m2 P H. unfold fk_poses, enumerate. cbn [length seq combine for_each]. unfold bind. cbn [snd fst]. rewrite (pose_stuck m2 e H). reflexivity. }
  destruct uc; cbn [negb].
  - cbn [ret]. unfold bind at 1. match goal with |- context [fk_poses rt 0 (e :: el) ?P ?m2] => specialize (G m2 P); destruct (fk_poses rt 0 (e :: el) P m2) as [m3 r3] end.
    cbn [snd] in G. rewrite G; [reflexivity|]. cbn. lia.
  - unfold clear_cache. unfold bind at 1. unfold bind at 1. cbn [get put]. 
    match goal with |- context [fk_poses rt 0 (e :: el) ?P ?m2] => specialize (G m2 P); destruct (fk_poses rt 0 (e :: el) P m2) as [m3 r3] end.
    cbn [snd] in G. rewrite G; [reflexivity|]. cbn. rewrite repeat_length. lia.
Qed.
Lemma add_stuck (m : KM) name p pos rpy : length (links m) <= p -> ~ In name (get_link_names m) -> WF m -> snd (w_add_new_link name p pos rpy m) = UB OutOfBounds.
Proof.
  intros L N W. unfold w_add_new_link, add_new_link, add_new_link_pose, bind, get, lift.
  assert (E : assoc name (link_ids m) = None).
  { rewrite (wf_link_ids m W). unfold get_link_names in N. revert N. generalize (seq 0 (length (links m))). induction (map l_name (links m)) as [|a l IH]; intros s N; [reflexivity|].
    destruct s as [|b s]; [reflexivity|]. cbn. destruct (String.eqb name a) eqn:X; [apply String.eqb_eq in X; subst; exfalso; apply N; left; reflexivity|].
    apply IH. intros I. apply N. right. exact I. }
  rewrite E. unfold vget. rewrite (proj2 (nth_error_None _ _) L). reflexivity.
Qed.
End Ids.

(** C97 fails, for every instance: an id that the model never handed out is not rejected but
    used as an index outside of the tables. *)
Theorem C97_unknown_ids_refuted :
  forall (A : Arith) tinyxml cs w i o m R root sorted jsorted,
    instance tinyxml cs w i o m -> loadable tinyxml (py_xml o) R root -> ordered R sorted jsorted ->
    (forall jids k, In k jids -> length (get_joint_names m) <= k ->
       (forall q bt, length q = length jids + base_size bt -> snd (py_set_q i jids q bt w) = UB OutOfBounds) /\
       (exists u, snd (py_get_q i jids BFIXED w) = UB u) /\
       (exists u, snd (py_get_joint_limits i jids w) = UB u) /\
       (forall q elinks rt wj uc, length q = length jids -> snd (py_solve_fk i (QsList [q]) elinks jids rt BFIXED wj uc w) = UB OutOfBounds)) /\
    (forall k, length (get_link_names m) <= k ->
       (forall name pos rpy, ~ In name (get_link_names m) -> snd (py_add_new_link i name k pos rpy w) = UB OutOfBounds) /\
       (forall q elinks jids rt wj uc, (forall j, In j jids -> j < length (get_joint_names m)) -> length q = length jids ->
          snd (py_solve_fk i (QsList [q]) (k :: elinks) jids rt BFIXED wj uc w) = UB OutOfBounds)).
Proof.
  intros A tinyxml cs w i o m R root sorted jsorted I L O. pose proof (instance_WF tinyxml _ _ _ _ _ _ _ _ _ I L O) as W. destruct I as (_ & Ho & Hm).
  assert (NJ : length (joint_angles m) = length (get_joint_names m)) by (unfold get_joint_names; rewrite map_length; apply (wf_angles m W)).
  assert (NJ' : length (joints m) = length (get_joint_names m)) by (unfold get_joint_names; rewrite map_length; reflexivity).
  assert (NL : length (links m) = length (get_link_names m)) by (unfold get_link_names; rewrite map_length; reflexivity).
  assert (SFK : forall q elinks jids rt wj uc, length q = length jids ->
    snd (solve_forward_kinematics [q] elinks jids rt false wj uc m) = UB OutOfBounds -> snd (py_solve_fk i (QsList [q]) elinks jids rt BFIXED wj uc w) = UB OutOfBounds).
  { intros q elinks jids rt wj uc Q S. unfold py_solve_fk. cbn [norm_qs_fk np_array forallb]. rewrite Nat.eqb_refl. cbn [andb]. unfold check_dof. rewrite Q, Nat.eqb_refl.
    cbn [assert_]. unfold bind at 1 2. cbn [ret]. unfold bind at 1. rewrite (with_robot_eq i _ w o m Ho Hm). cbn [with_base_of].
    destruct (solve_forward_kinematics [q] elinks jids rt false wj uc m) as [m1 r1]. cbn [snd fst] in *. now rewrite S. }
  split.
  - intros jids k Ik Lk. split; [|split; [|split]].
    + intros q bt Q.
      assert (SS : forall q', snd (set_joint_angles jids q' m) = UB OutOfBounds).
      { intros q'. unfold set_joint_angles, bind. pose proof (set_stuck m jids q' k Ik ltac:(lia)) as S. destruct (set_joint_angles_nc jids q' m) as [m1 r1]. cbn [snd] in S. now rewrite S. }
      unfold py_set_q. unfold bind at 1. unfold append_set. rewrite Ho. set (w1 := mkW _ _ _).
      assert (Ho1 : nth_error (objs w1) i = Some o) by exact Ho.
      destruct bt; cbn [base_size] in Q; unfold bind at 1; unfold assert_; rewrite Q;
        [rewrite Nat.add_0_r|..]; rewrite Nat.eqb_refl; cbn [ret]; try unfold bind at 1; rewrite (with_robot_eq i _ w1 o m Ho1 Hm); cbn [snd fst]; rewrite SS; reflexivity.
    + unfold py_get_q. unfold bind at 1. cbn [ret]. unfold bind at 1. rewrite (with_robot_eq i _ w o m Ho Hm).
      destruct (angles_stuck m jids k Ik ltac:(lia)) as (u & E). rewrite E. exists u. reflexivity.
    + unfold py_get_joint_limits. unfold bind at 1. rewrite (with_robot_eq i _ w o m Ho Hm).
      destruct (limits_stuck m jids k Ik ltac:(lia)) as (u & E). rewrite E. exists u. reflexivity.
    + intros q elinks rt wj uc Q. apply SFK; [exact Q|]. apply (fk_stuck_joint m q [] elinks jids k rt false wj uc Ik); [lia|exact Logic.I].
  - intros k Lk. split.
    + intros name pos rpy N. unfold py_add_new_link. unfold bind at 1. unfold append_add. rewrite Ho. set (w1 := mkW _ _ _).
      assert (Ho1 : nth_error (objs w1) i = Some o) by exact Ho. rewrite (with_robot_eq i _ w1 o m Ho1 Hm). cbn [snd]. apply add_stuck; [lia|exact N|exact W].
    + intros q elinks jids rt wj uc J Q. apply SFK; [exact Q|]. apply fk_stuck_link; [exact W|intros j Ij; specialize (J j Ij); lia|lia|lia].
Qed.
Print Assumptions C97_unknown_ids_refuted.

(** C97, partial: with ids that were handed out none of this happens.  For solve_fk and
    add_new_link see C08 and C28. *)
Theorem C97_known_ids_partial :
  forall (A : Arith) tinyxml cs w i o m R root sorted jsorted,
    instance tinyxml cs w i o m -> loadable tinyxml (py_xml o) R root -> ordered R sorted jsorted ->
    forall jids, (forall k, In k jids -> k < length (get_joint_names m)) ->
      (forall bt, exists q, py_get_q i jids bt w = (w, Ok q) /\ length q = length jids + base_size bt) /\
      (forall q bt, length q = length jids + base_size bt -> exists w', py_set_q i jids q bt w = (w', Ok tt)).
Proof.
  intros A tinyxml cs w i o m R root sorted jsorted I L O jids K. split.
  - pose proof (instance_WF tinyxml _ _ _ _ _ _ _ _ _ I L O) as W. destruct I as (_ & Ho & Hm). intros bt.
    assert (G : get_joint_angles jids m = (m, Ok (map (fun j => nth j (joint_angles m) n0) jids))).
    { apply get_angles_spec. intros k Ik. rewrite (wf_angles m W). specialize (K k Ik). unfold get_joint_names in K. rewrite map_length in K. exact K. }
    assert (B : exists v, w_get_base_pose m = (m, Ok v) /\ length v = 6) by (eexists; split; reflexivity). destruct B as (v & B & Lv).
    assert (G' : with_robot i (get_joint_angles jids) w = (w, Ok (map (fun j => nth j (joint_angles m) n0) jids))).
    { rewrite (with_robot_eq i _ w o m Ho Hm), G. cbn [fst snd]. rewrite (upd_same i o m w Ho Hm). reflexivity. }
    assert (B' : with_robot i w_get_base_pose w = (w, Ok v)).
    { rewrite (with_robot_eq i _ w o m Ho Hm), B. cbn [fst snd]. rewrite (upd_same i o m w Ho Hm). reflexivity. }
    clear G B. unfold py_get_q. destruct bt; unfold bind; cbn [ret]; try rewrite B'; cbn [ret]; rewrite G'; cbn [ret]; eexists; (split; [reflexivity|]);
      rewrite app_length, map_length; cbn [length base_size]; lia.
  - intros q bt Q. destruct (C30_set_q_get_q A tinyxml cs w i o m R root sorted jsorted I L O jids q bt K Q) as (w' & E & _). eauto.
Qed.
Print Assumptions C97_known_ids_partial.

Example C97_example :
  instance (A := RA) ex_tinyxml [C_new ex_text] ex_world 0 ex_obj ex_m0 /\ loadable (A := RA) ex_tinyxml (py_xml ex_obj) ex_R "base" /\ ordered ex_R ex_sorted ex_jsorted /\
  length (get_joint_names ex_m0) = 2 /\ length (get_link_names ex_m0) = 6.
Proof. split; [exact ex_instance|]. split; [exact ex_loadable|]. split; [exact ex_ordered|]. split; [exact ex_joint_count|]. rewrite ex_names. reflexivity. Qed.
