(** Proofs about get_link_pose. *)
From Coq Require Import String List Arith Lia Bool.
From Verif Require Import Base Num Pose DataStructure Urdf Kin Pf_Base Pf_Data Inv.
Import ListNotations.

Section FK.
Context `{A : Arith}.

Lemma Depth_det ls i d1 d2 : Depth ls i d1 -> Depth ls i d2 -> d1 = d2.
Proof.
  intros H; revert d2; induction H; intros d2 H2; inversion H2; subst; try congruence.
  f_equal. apply IHDepth. congruence.
Qed.

Lemma Depth_lt ls i d : Depth ls i d -> i < length ls.
Proof. intros H; destruct H; eapply nth_error_lt; eauto. Qed.

Lemma pose_of_det ls loc base i P1 P2 : pose_of ls loc base i P1 -> pose_of ls loc base i P2 -> P1 = P2.
Proof.
  intros H; revert P2; induction H as [i l E1 E2 | i l p j t P E1 E2 E3 E4 H IH]; intros P2 H2;
    inversion H2; subst; try congruence.
  assert (l0 = l) by congruence; subst. assert (p0 = p) by congruence; subst.
  assert (j0 = j) by congruence; subst. assert (t0 = t) by congruence; subst.
  now rewrite (IH _ H5).
Qed.

Lemma pose_of_lt ls loc base i P : pose_of ls loc base i P -> i < length ls.
Proof. intros H; destruct H; eapply nth_error_lt; eauto. Qed.

(** The local transform of a joint above a link is always defined. *)
Lemma tf_plink_total m i j :
  length (joint_angles m) = length (joints m) -> joint_above_ok (joints m) i j ->
  exists t, tf_plink_to_hlink m j = Ok t.
Proof.
  intros LA [E | (Hm & _ & k & Ek & En)].
  - unfold tf_plink_to_hlink. rewrite E. eauto.
  - unfold tf_plink_to_hlink.
    assert (Lk : k < length (joint_angles m)) by (rewrite LA; eapply nth_error_lt; eauto).
    destruct (vget_lt _ _ Lk) as (a & Ea & _).
    rewrite Ek. simpl. rewrite Ea. simpl. unfold joint_transform.
    destruct (j_type j); simpl in *; try discriminate; eauto.
Qed.

Lemma PoseOf_total m i : WF m -> i < length (links m) -> exists P, PoseOf m i P.
Proof.
  intros W L. destruct (wf_tree m W i L) as (d & D). clear L.
  induction D as [i l E1 E2 | i l p d E1 E2 D IH].
  - exists (base_pose m). eapply pose_of_root; eauto.
  - destruct IH as (P & HP). destruct (wf_joint m W i l p E1 E2) as (j & Ej & Hj).
    destruct (tf_plink_total m i j (wf_angles m W) Hj) as (t & Et).
    eexists. eapply pose_of_step; eauto.
Qed.

(** What the walk towards the root leaves on the stack. *)
Inductive UpChain (m : KM) : nat -> list (nat * Pose) -> Pose -> Prop :=
| UC_stop h tf : PoseOf m h tf -> UpChain m h [] tf
| UC_step h l p j t path tf :
    nth_error (links m) h = Some l -> l_parent l = Some p -> l_pjoint l = Some j ->
    tf_plink_to_hlink m j = Ok t -> UpChain m p path tf -> UpChain m h ((h, t) :: path) tf.

Lemma UpChain_last m h path k t tf :
  UpChain m h (path ++ [(k, t)]) tf ->
  PoseOf m k (pose_transform tf t) /\ UpChain m h path (pose_transform tf t).
Proof.
  revert h; induction path as [|[k' t'] path IH]; intros h H; simpl in H.
  - inversion H as [|? ? ? ? ? ? ? E1 E2 E3 E4 U]; subst. inversion U as [? ? HP|]; subst.
    assert (PoseOf m k (pose_transform tf t)) by (eapply pose_of_step; eauto).
    split; auto. now apply UC_stop.
  - inversion H as [|? ? ? ? ? ? ? E1 E2 E3 E4 U]; subst. destruct (IH _ U) as [H1 H2]. split; auto. eapply UC_step; eauto.
Qed.

Lemma walk_up_spec m : WF m -> CacheOK m ->
  forall fuel h d stk, Depth (links m) h d ->
  stack_wf stk ->
  length (stack_data stk) - stack_idx stk < fuel ->
  (exists stk' tf path, walk_up fuel m h stk = Ok (stk', tf) /\ stack_wf stk' /\
      length (stack_data stk') = length (stack_data stk) /\
      stack_list stk' = stack_list stk ++ path /\ UpChain m h path tf) \/
  (walk_up fuel m h stk = UB OutOfBounds /\ length (stack_data stk) < stack_idx stk + d).
Proof.
  intros W C. induction fuel as [|fuel IH]; intros h d stk D SW F; [lia|].
  destruct D as [h l E1 E2 | h l p d E1 E2 D].
  - left. exists stk, (base_pose m), []. cbn [walk_up]. unfold vget. rewrite E1. cbn [rbind]. rewrite E2.
    rewrite app_nil_r. repeat split; auto. apply UC_stop. eapply pose_of_root; eauto.
  - cbn [walk_up]. rewrite (proj2 (vget_ok _ _ _) E1). cbn [rbind]. rewrite E2.
    rewrite (wf_ids m W h l E1).
    destruct (wf_cache m W) as [CW CS].
    assert (Lh : h < length (links m)) by (eapply nth_error_lt; eauto).
    destruct (get_cache_lt (tcache m) h CW ltac:(lia)) as (o & Eo). rewrite Eo. cbn [rbind].
    destruct o as [tf|].
    + left. exists stk, tf, []. rewrite app_nil_r. repeat split; auto. apply UC_stop. now apply C.
    + destruct (wf_joint m W h l p E1 E2) as (j & Ej & Hj).
      destruct (tf_plink_total m h j (wf_angles m W) Hj) as (t & Et).
      rewrite Ej. cbn [deref rbind]. rewrite Et. cbn [rbind].
      destruct (Nat.lt_ge_cases (stack_idx stk) (length (stack_data stk))) as [Ls|Ls].
      * destruct (stack_push_total stk (h, t) Ls) as (stk1 & Es). rewrite Es. cbn [rbind].
        destruct (stack_push_ok stk (h, t) stk1 Es SW) as (SW1 & SL1 & SD1 & _ & SI1).
        destruct (IH p d stk1 D SW1 ltac:(lia)) as [(stk' & tf & path & R1 & R2 & R3 & R4 & R5) | (R1 & R2)].
        -- left. exists stk', tf, ((h, t) :: path). split; auto. split; auto. split; [lia|]. split.
           ++ rewrite R4, SL1, <- app_assoc. reflexivity.
           ++ eapply UC_step; eauto.
        -- right. split; auto. lia.
      * right. rewrite stack_push_full by auto. split; auto. lia.
Qed.

Lemma unwind_spec m h : WF m ->
  forall path n stk c tf, stack_wf stk -> stack_list stk = path -> UpChain m h path tf ->
  length path <= n ->
  cache_wf c -> cache_size c = length (links m) ->
  (forall i P, get_cache i c = Ok (Some P) -> PoseOf m i P) ->
  exists stk' c' P, unwind n stk c tf = Ok (stk', c', P) /\
    stack_wf stk' /\ length (stack_data stk') = length (stack_data stk) /\ PoseOf m h P /\
    cache_wf c' /\ cache_size c' = length (links m) /\
    (forall i P, get_cache i c' = Ok (Some P) -> PoseOf m i P).
Proof.
  intros W path. induction path as [|[k t] path IH] using rev_ind; intros n stk c tf SW SL UC Ln CW CS CO.
  - exists stk, c, tf. inversion UC; subst.
    assert (E : stack_empty stk = true) by (apply stack_empty_list; auto).
    destruct n; simpl; rewrite E; auto 10.
  - destruct (UpChain_last _ _ _ _ _ _ UC) as [Hk UC'].
    rewrite app_length in Ln. simpl in Ln. destruct n as [|n]; [lia|].
    destruct (stack_top_pop stk path (k, t) SW SL) as (E1 & stk1 & E2 & SW1 & SL1 & SD1 & _).
    cbn [unwind].
    assert (E : stack_empty stk = false).
    { destruct (stack_empty stk) eqn:E; auto. apply stack_empty_list in E; auto. rewrite SL in E.
      destruct path; discriminate. }
    rewrite E, E1. cbn [rbind]. rewrite E2. cbn [rbind fst snd].
    assert (Lk : k < cache_size c) by (rewrite CS; eapply pose_of_lt; apply Hk).
    pose proof (set_cache_lt c k (pose_transform tf t) CW Lk) as Es. rewrite Es. cbn [rbind].
    destruct (set_cache_wf _ _ _ _ CW Es) as [CW1 CS1].
    destruct (IH n stk1 _ (pose_transform tf t) SW1 SL1 UC' ltac:(lia) CW1 ltac:(lia)) as (stk' & c' & P & R1 & R2 & R3 & R4).
    + intros i P G. rewrite (get_set_cache _ _ _ _ i CW Es) in G.
      destruct (Nat.eqb_spec k i); [|auto]. inversion G; subst. auto.
    + exists stk', c', P. split; auto. split; auto. split; [lia|auto].
Qed.

(** ** get_link_pose: either the composed pose, or an overflow of the stack. *)
Lemma WF_scratch m s c : WF m -> cache_wf c -> cache_size c = length (links m) -> WF (set_scratch s c m).
Proof. intros W CW CS. destruct W. constructor; simpl; auto. Qed.

Lemma get_link_pose_cases m i d : WF m -> CacheOK m -> Depth (links m) i d ->
  (exists s c P, get_link_pose i m = (set_scratch s c m, Ok P) /\ PoseOf m i P /\
     cache_wf c /\ cache_size c = length (links m) /\ stack_wf s /\
     length (stack_data s) = length (stack_data (tstack m)) /\
     CacheOK (set_scratch s c m)) \/
  (get_link_pose i m = (m, UB OutOfBounds) /\ length (stack_data (tstack m)) < d) \/
  (exists P, get_link_pose i m = (m, Ok P) /\ PoseOf m i P).
Proof.
  intros W C D. destruct (wf_cache m W) as [CW CS].
  assert (Li : i < length (links m)) by (eapply Depth_lt; eauto).
  unfold get_link_pose. rewrite bind_get.
  destruct (get_cache_lt (tcache m) i CW ltac:(lia)) as (o & Eo).
  rewrite (bind_lift_ok _ _ _ _ Eo).
  destruct o as [P|].
  - right; right. exists P. split; auto.
  - unfold get_link_pose_inner.
    set (stk := stack_reset (tstack m)).
    assert (SW : stack_wf stk) by (unfold stack_wf; simpl; lia).
    destruct (walk_up_spec m W C (S (length (stack_data stk))) i d stk D SW ltac:(lia))
      as [(stk' & tf & path & R1 & R2 & R3 & R4 & R5) | (R1 & R2)].
    + left. rewrite R1.
      pose proof (stack_list_length stk' R2) as Hl. rewrite R4 in Hl. simpl in Hl.
      destruct (unwind_spec m i W path (stack_size stk') stk' (tcache m) tf R2 R4 R5) as
        (s & c & P & U1 & U2 & U3 & U4 & U5 & U6 & U7); auto.
      * unfold stack_size. lia.
      * rewrite U1. exists s, c, P. split; auto. split; auto. split; auto. split; auto. split; auto.
        split; [rewrite U3, R3; reflexivity|]. exact U7.
    + right; left. rewrite R1. split; auto.
Qed.

Definition same_config (m m' : KM) : Prop := exists s c, m' = set_scratch s c m.

Lemma set_scratch_id m : set_scratch (tstack m) (tcache m) m = m.
Proof. now destruct m. Qed.

Lemma set_scratch_twice m s c s' c' : set_scratch s' c' (set_scratch s c m) = set_scratch s' c' m.
Proof. reflexivity. Qed.

Lemma same_config_refl m : same_config m m.
Proof. exists (tstack m), (tcache m). now rewrite set_scratch_id. Qed.

Lemma same_config_trans m1 m2 m3 : same_config m1 m2 -> same_config m2 m3 -> same_config m1 m3.
Proof. intros (s & c & ->) (s' & c' & ->). exists s', c'. reflexivity. Qed.

(** A state from which pose queries work. *)
Definition Good (m : KM) : Prop := WF m /\ CacheOK m.

(** [m'] is [m] with another cache, still good, and with the same stack capacity *)
Definition Query (m m' : KM) : Prop :=
  same_config m m' /\ Good m' /\ length (stack_data (tstack m')) = length (stack_data (tstack m)).

Lemma Query_refl m : Good m -> Query m m.
Proof. intros G. split; [apply same_config_refl|]. auto. Qed.

Lemma Query_trans m1 m2 m3 : Query m1 m2 -> Query m2 m3 -> Query m1 m3.
Proof.
  intros (S1 & G1 & L1) (S2 & G2 & L2). split; [eapply same_config_trans; eauto|]. split; auto. lia.
Qed.

Lemma get_link_pose_good m i : Good m -> i < length (links m) ->
  (exists m' P, get_link_pose i m = (m', Ok P) /\ PoseOf m i P /\ Query m m') \/
  (get_link_pose i m = (m, UB OutOfBounds) /\ exists d, Depth (links m) i d /\ length (stack_data (tstack m)) < d).
Proof.
  intros (W & C) L. destruct (wf_tree m W i L) as (d & D).
  destruct (get_link_pose_cases m i d W C D) as [(s & c & P & E & HP & CW & CS & SW & SD & CO) | [(E & L') | (P & E & HP)]].
  - left. eexists _, P. split; [exact E|]. split; auto. split; [now exists s, c|]. split; auto.
    split; auto. apply WF_scratch; auto.
  - right. eauto.
  - left. exists m, P. split; auto. split; auto. now apply Query_refl.
Qed.

Lemma get_link_pose_total m i : Good m -> StackOK m -> i < length (links m) ->
  exists m' P, get_link_pose i m = (m', Ok P) /\ PoseOf m i P /\ Query m m'.
Proof.
  intros G S L. destruct (get_link_pose_good m i G L) as [H|(_ & d & D & L')]; auto.
  specialize (S i d D). lia.
Qed.

Lemma get_link_pose_oob m i : WF m -> length (links m) <= i -> get_link_pose i m = (m, UB OutOfBounds).
Proof.
  intros W L. destruct (wf_cache m W) as [CW CS]. unfold get_link_pose. rewrite bind_get.
  unfold bind, lift. rewrite get_cache_range by (auto; lia). reflexivity.
Qed.

Lemma get_link_pose_ok m i m' P : Good m -> get_link_pose i m = (m', Ok P) -> PoseOf m i P /\ Query m m'.
Proof.
  intros G E. destruct (Nat.lt_ge_cases i (length (links m))) as [L|L].
  - destruct (get_link_pose_good m i G L) as [(m1 & P1 & E1 & H1 & H2) | (E1 & _)]; rewrite E in E1; inversion E1; subst; auto.
  - rewrite get_link_pose_oob in E by (auto; apply G). discriminate.
Qed.

Lemma same_config_PoseOf m m' i P : same_config m m' -> (PoseOf m' i P <-> PoseOf m i P).
Proof. intros (s & c & ->). reflexivity. Qed.

Lemma same_config_StackOK m m' : same_config m m' -> length (stack_data (tstack m')) = length (stack_data (tstack m)) ->
  StackOK m -> StackOK m'.
Proof. intros (s & c & ->) L S i d D. rewrite L. exact (S i d D). Qed.

Lemma Query_StackOK m m' : Query m m' -> StackOK m -> StackOK m'.
Proof. intros (S & _ & L). now apply same_config_StackOK. Qed.

Lemma CacheOK_cleared m : WF m -> (forall i, i < length (links m) -> get_cache i (tcache m) = Ok None) -> CacheOK m.
Proof.
  intros W H i P E. destruct (wf_cache m W) as [CW CS].
  destruct (Nat.lt_ge_cases i (length (links m))) as [L|L].
  - rewrite H in E by auto. discriminate.
  - rewrite get_cache_range in E by (auto; lia). discriminate.
Qed.

End FK.
