(** add_new_link keeps the invariants. *)
From Coq Require Import String List Arith Lia Bool.
From Verif Require Import Base Num Pose DataStructure Urdf Kin Pf_Base Pf_Data Inv Pf_FK Pf_Frame Pf_Rp.
Import ListNotations.
Local Open Scope m_scope.

Section Add.
Context `{A : Arith}.

(** [ls'] extends [ls] without changing what is above the old links *)
Definition up_ext (ls ls' : list Link) : Prop :=
  forall i l, nth_error ls i = Some l ->
    exists l', nth_error ls' i = Some l' /\ l_parent l' = l_parent l /\ l_pjoint l' = l_pjoint l.

Lemma up_ext_depth ls ls' i d : up_ext ls ls' -> Depth ls i d -> Depth ls' i d.
Proof.
  intros U D; induction D as [i l E1 E2 | i l p d E1 E2 D IH]; destruct (U i l E1) as (l' & E1' & Ep & _).
  - eapply Depth_root; eauto. congruence.
  - eapply Depth_step; eauto. congruence.
Qed.

Lemma up_ext_pose ls ls' loc base i P : up_ext ls ls' -> pose_of ls loc base i P -> pose_of ls' loc base i P.
Proof.
  intros U D; induction D as [i l E1 E2 | i l p j t P E1 E2 E3 E4 D IH]; destruct (U i l E1) as (l' & E1' & Ep & Ej).
  - eapply pose_of_root; eauto. congruence.
  - eapply pose_of_step; eauto; congruence.
Qed.

Lemma up_ext_anc ls ls' a i : up_ext ls ls' -> length ls <= length ls' -> Anc ls a i -> Anc ls' a i.
Proof.
  intros U L H; induction H as [La | i l p E1 E2 H IH].
  - apply Anc_refl. lia.
  - destruct (U i l E1) as (l' & E1' & Ep & _). eapply Anc_step; eauto. congruence.
Qed.

Definition new_link (name : string) (id p : nat) (pose : Pose) : Link :=
  mkLink name id None (Some p) (Some (fixed_joint pose)) [].

Definition links_after (name : string) (p : nat) (pose : Pose) (ls : list Link) (pl : Link) : list Link :=
  list_set ls p (push_child (length ls) pl) ++ [new_link name (length ls) p pose].

Section Links.
Variables (name : string) (p : nat) (pose : Pose) (ls : list Link) (pl : Link).
Hypothesis Ep : nth_error ls p = Some pl.
Let ls' := links_after name p pose ls pl.

Lemma la_length : length ls' = S (length ls).
Proof. unfold ls', links_after. rewrite app_length, list_set_length. simpl. lia. Qed.

Lemma la_new : nth_error ls' (length ls) = Some (new_link name (length ls) p pose).
Proof.
  unfold ls', links_after. rewrite nth_error_app2; rewrite list_set_length; [|lia]. now rewrite Nat.sub_diag.
Qed.

Lemma la_old i l : nth_error ls i = Some l ->
  nth_error ls' i = Some (if Nat.eqb p i then push_child (length ls) l else l).
Proof.
  intros E. pose proof (nth_error_lt _ _ _ E) as L. unfold ls', links_after.
  rewrite nth_error_app1 by (rewrite list_set_length; auto). rewrite nth_error_list_set.
  destruct (Nat.eqb_spec p i); auto. subst. replace (i <? length ls) with true by (symmetry; now apply Nat.ltb_lt).
  congruence.
Qed.

Lemma la_inv i l' : nth_error ls' i = Some l' ->
  (i = length ls /\ l' = new_link name (length ls) p pose) \/
  (i < length ls /\ exists l, nth_error ls i = Some l /\ l' = if Nat.eqb p i then push_child (length ls) l else l).
Proof.
  intros E. pose proof (nth_error_lt _ _ _ E) as L. rewrite la_length in L.
  destruct (Nat.eq_dec i (length ls)) as [->|N].
  - left. split; auto. rewrite la_new in E. congruence.
  - right. split; [lia|]. destruct (lt_nth_error ls i ltac:(lia)) as (l & El). exists l. split; auto.
    rewrite (la_old i l El) in E. congruence.
Qed.

Lemma la_up : up_ext ls ls'.
Proof.
  intros i l E. eexists. split; [apply la_old; eauto|]. destruct (Nat.eqb p i); auto.
Qed.

End Links.

Lemma push_child_fields (b : bool) n l :
  let l' := if b then push_child n l else l in
  l_name l' = l_name l /\ l_id l' = l_id l /\ l_inertial l' = l_inertial l /\ l_parent l' = l_parent l /\ l_pjoint l' = l_pjoint l.
Proof. destruct b; simpl; auto. Qed.

Lemma tl_old_parent (ls : list Link) root i l q : TreeLinks ls root -> nth_error ls i = Some l -> l_parent l = Some q -> q < length ls.
Proof.
  intros T E Eq. destruct (tl_tree ls root T i) as (d & D); [eapply nth_error_lt; eauto|].
  inversion D; subst; try congruence. assert (l0 = l) by congruence; subst. assert (p = q) by congruence; subst.
  eapply Depth_lt; eauto.
Qed.

Lemma combine_seq_snoc (names : list string) n a :
  combine (names ++ [n]) (seq a (S (length names))) = combine names (seq a (length names)) ++ [(n, a + length names)].
Proof.
  revert a; induction names as [|x names IH]; intros a.
  - simpl. now rewrite Nat.add_0_r.
  - simpl app. simpl length. change (seq a (S (S (length names)))) with (a :: seq (S a) (S (length names))).
    cbn [combine]. rewrite IH. simpl. repeat f_equal. lia.
Qed.

Lemma map_fst_combine_seq (names : list string) a : map fst (combine names (seq a (length names))) = names.
Proof. revert a; induction names; intros; simpl; f_equal; auto. Qed.

Lemma la_names name p pose ls pl : nth_error ls p = Some pl ->
  map l_name (links_after name p pose ls pl) = map l_name ls ++ [name].
Proof.
  intros E. unfold links_after. rewrite map_app, map_list_set. simpl. f_equal.
  apply list_set_same. rewrite nth_error_map', E. reflexivity.
Qed.

(** The state in which add_new_link calls update_rptable. *)
Definition grown (name : string) (p : nat) (pose : Pose) (pl : Link) (m : KM) : KM :=
  set_tcache (cache_extend pose_clear (tcache m))
    (set_links (links_after name p pose (links m) pl) (link_ids m ++ [(name, length (links m))]) m).

Lemma WF_rptable t m : WF m -> WF (set_rptable t m).
Proof. intros W; destruct W; constructor; auto. Qed.

Lemma WF_grown name p pose pl m : WF m -> nth_error (links m) p = Some pl -> assoc name (link_ids m) = None ->
  WF (grown name p pose pl m).
Proof.
  intros W Ep Nn. pose proof (WF_TreeLinks m W) as T.
  set (ls := links m). set (n := length ls). set (ls' := links_after name p pose ls pl).
  assert (Lp : p < n) by (eapply nth_error_lt; eauto).
  pose proof (la_up name p pose ls pl Ep) as U. fold ls' in U.
  assert (Nn' : ~ In name (map l_name ls)).
  { rewrite (wf_link_ids m W) in Nn. apply assoc_none in Nn. fold ls in Nn.
    rewrite <- (map_length l_name ls) in Nn. now rewrite map_fst_combine_seq in Nn. }
  assert (LL : length ls' = S n) by apply la_length.
  assert (NM : map l_name ls' = map l_name ls ++ [name]) by (now apply la_names).
  assert (Dnew : forall d, Depth ls p d -> Depth ls' n (S d)).
  { intros d D. eapply Depth_step; [apply (la_new name p pose ls pl)|reflexivity|].
    eapply up_ext_depth; eauto. }
  constructor; unfold grown; simpl; fold ls; fold ls'.
  - intros i l E. apply la_inv in E; auto. destruct E as [(-> & ->) | (L & l0 & E & ->)]; auto.
    destruct (push_child_fields (p =? i) (length ls) l0) as (_ & -> & _). now apply (wf_ids m W).
  - destruct (wf_root m W) as (l & E & Ea). destruct (U _ _ E) as (l' & E' & Ea' & _). exists l'. split; auto. congruence.
  - intros i l E Ea. apply la_inv in E; auto. destruct E as [(-> & ->) | (L & l0 & E & ->)]; [discriminate|].
    destruct (push_child_fields (p =? i) (length ls) l0) as (_ & _ & _ & X & _). rewrite X in Ea.
    eapply (wf_only_root m W); eauto.
  - intros i l q E Ea. apply la_inv in E; auto. destruct E as [(-> & ->) | (L & l0 & E & ->)].
    + eexists. split; [reflexivity|]. left. reflexivity.
    + destruct (push_child_fields (p =? i) (length ls) l0) as (_ & _ & _ & X & Y). rewrite X in Ea. rewrite Y.
      eapply (wf_joint m W); eauto.
  - intros i L. rewrite LL in L. destruct (Nat.eq_dec i n) as [->|N].
    + destruct (wf_tree m W p Lp) as (d & D). exists (S d). now apply Dnew.
    + destruct (wf_tree m W i ltac:(unfold n, ls in *; lia)) as (d & D). exists d. eapply up_ext_depth; eauto.
  - intros q l c E. apply la_inv in E; auto. destruct E as [(-> & ->) | (L & l0 & E & ->)].
    + simpl. split; [easy|]. intros (lc & Ec & Ea). apply la_inv in Ec; auto.
      destruct Ec as [(-> & ->) | (L & l0 & E & ->)].
      * simpl in Ea. inversion Ea. unfold n in Lp. lia.
      * destruct (push_child_fields (p =? c) (length ls) l0) as (_ & _ & _ & X & _). rewrite X in Ea.
        pose proof (tl_old_parent _ _ _ _ _ T E Ea) as Lq. unfold ls in Lq. lia.
    + assert (H1 : In c (l_children l0) <-> exists lc, nth_error ls c = Some lc /\ l_parent lc = Some q)
        by (apply (wf_children m W); auto).
      assert (H2 : (exists lc, nth_error ls c = Some lc /\ l_parent lc = Some q) ->
                   exists lc, nth_error ls' c = Some lc /\ l_parent lc = Some q).
      { intros (lc & Ec & Ea). destruct (U _ _ Ec) as (lc' & Ec' & Ea' & _). exists lc'. split; auto. congruence. }
      split.
      * intros I. destruct (Nat.eqb_spec p q) as [->|Np]; [|now apply H2, H1].
        simpl in I. apply in_app_iff in I. destruct I as [I|[<-|[]]]; [now apply H2, H1|].
        exists (new_link name (length ls) q pose). split; auto. apply (la_new name q pose ls pl).
      * intros (lc & Ec & Ea). apply la_inv in Ec; auto. destruct Ec as [(-> & ->) | (Lc & lc0 & Ec & ->)].
        -- simpl in Ea. inversion Ea; subst. rewrite Nat.eqb_refl. simpl. apply in_app_iff. right. now left.
        -- destruct (push_child_fields (p =? c) (length ls) lc0) as (_ & _ & _ & X & _). rewrite X in Ea.
           assert (I : In c (l_children l0)) by (apply H1; eauto).
           destruct (Nat.eqb p q); auto. simpl. apply in_app_iff. now left.
  - intros q l E. apply la_inv in E; auto. destruct E as [(-> & ->) | (L & l0 & E & ->)]; [constructor|].
    pose proof (wf_children_nodup m W q l0 E) as N. destruct (Nat.eqb p q); auto. simpl.
    rewrite <- (rev_involutive (l_children l0 ++ [length ls])). apply NoDup_rev. rewrite rev_app_distr. simpl.
    constructor; [|now apply NoDup_rev]. intros I. apply in_rev in I.
    apply (wf_children m W q l0 _ E) in I. destruct I as (lc & Ec & _). apply nth_error_lt in Ec. unfold ls in Ec. lia.
  - rewrite NM, LL. unfold n. rewrite (wf_link_ids m W). fold ls.
    rewrite <- (map_length l_name ls). now rewrite combine_seq_snoc.
  - rewrite NM. rewrite <- (rev_involutive (map l_name ls ++ [name])). apply NoDup_rev. rewrite rev_app_distr.
    simpl. constructor; [|apply NoDup_rev; apply W]. intros I. now apply in_rev in I.
  - apply (wf_joint_ids m W).
  - apply (wf_joint_names m W).
  - apply (wf_angles m W).
  - apply (wf_num_dof m W).
  - intros k j E. destruct (wf_joints m W k j E) as (H1 & H2 & c & l & Ec & El & Ej & Ea). split; auto. split; auto.
    destruct (U c l El) as (l' & El' & Ea' & Ej'). exists c, l'. split; auto. split; auto. split; congruence.
  - destruct (wf_cache m W) as [CW CS]. split; [now apply cache_extend_wf|].
    rewrite LL. simpl. unfold n, ls. now rewrite CS.
  - intros i I. destruct (wf_com m W i I) as (l & ine & El & Ei). exists (if p =? i then push_child (length ls) l else l), ine.
    split; [now apply la_old|]. destruct (push_child_fields (p =? i) (length ls) l) as (_ & _ & -> & _). auto.
Qed.

Lemma grown_cache_empty name p pose pl m i : WF m -> nth_error (links m) p = Some pl ->
  i < length (links (grown name p pose pl m)) -> get_cache i (tcache (grown name p pose pl m)) = Ok None.
Proof.
  intros W Ep L. simpl in *. destruct (wf_cache m W) as [CW CS]. rewrite la_length in L.
  unfold cache_extend. apply get_cache_blank.
  - destruct CW as [C1 C2]. split; simpl; rewrite app_length; simpl; lia.
  - simpl. lia.
Qed.

(** add_new_link: what it does when it succeeds *)
Lemma add_new_link_pose_ok name p pose m pl : WF m -> nth_error (links m) p = Some pl -> assoc name (link_ids m) = None ->
  exists t, add_new_link_pose name p pose m = (set_rptable t (grown name p pose pl m), Ok (length (links m))) /\
    WF (set_rptable t (grown name p pose pl m)) /\ CacheOK (set_rptable t (grown name p pose pl m)) /\
    RpExact (set_rptable t (grown name p pose pl m)).
Proof.
  intros W Ep Nn. unfold add_new_link_pose. rewrite bind_get, Nn.
  rewrite (bind_lift_ok _ pl) by (now apply vget_ok).
  assert (Lp : p < length (links m)) by (eapply nth_error_lt; eauto).
  rewrite (bind_lift_ok _ pl) by (apply vget_ok; rewrite nth_error_app1; auto).
  rewrite (bind_lift_ok _ (links_after name p pose (links m) pl)).
  2:{ apply vset_ok. split; [rewrite app_length; lia|]. unfold links_after. now rewrite list_set_app_l. }
  rewrite bind_put.
  change (set_tcache _ _) with (grown name p pose pl m).
  assert (Wg : WF (grown name p pose pl m)) by (now apply WF_grown).
  destruct (update_rptable_ok (grown name p pose pl m)) as (t & E & R).
  - now apply WF_TreeLinks.
  - now apply WF_JointsOK.
  - rewrite (wf_link_ids _ Wg), combine_length, map_length, seq_length. lia.
  - exists t. rewrite (bind_ok _ _ _ _ _ E). simpl. split; [reflexivity|]. split; [now apply WF_rptable|]. split; auto.
    apply CacheOK_cleared; [now apply WF_rptable|]. intros i L. now apply grown_cache_empty.
Qed.

Lemma add_new_link_pose_dup name p pose m i : assoc name (link_ids m) = Some i ->
  add_new_link_pose name p pose m = (m, Throw InvalidArgument).
Proof. intros E. unfold add_new_link_pose. rewrite bind_get, E. reflexivity. Qed.

Lemma add_new_link_pose_oob name p pose m : assoc name (link_ids m) = None -> length (links m) <= p ->
  add_new_link_pose name p pose m = (m, UB OutOfBounds).
Proof.
  intros E L. unfold add_new_link_pose. rewrite bind_get, E. unfold bind, lift. now rewrite vget_ub.
Qed.

End Add.
