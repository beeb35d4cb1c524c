(** The relevance table: update_rptable marks exactly the links below each joint. *)
From Coq Require Import String List Arith Lia Bool.
From Verif Require Import Base Num Pose DataStructure Urdf Kin Pf_Base Pf_Data Inv Pf_FK.
Import ListNotations.
Local Open Scope m_scope.

Section Rp.
Context `{A : Arith}.

(** [a] is [i] or an ancestor of [i] *)
Inductive Anc (ls : list Link) (a : nat) : nat -> Prop :=
| Anc_refl : a < length ls -> Anc ls a a
| Anc_step i l p : nth_error ls i = Some l -> l_parent l = Some p -> Anc ls a p -> Anc ls a i.

Lemma Anc_lt ls a i : Anc ls a i -> i < length ls.
Proof. intros H; destruct H; auto. eapply nth_error_lt; eauto. Qed.

Lemma Anc_lt_l ls a i : Anc ls a i -> a < length ls.
Proof. intros H; induction H; auto. Qed.

Lemma Anc_trans ls a b c : Anc ls a b -> Anc ls b c -> Anc ls a c.
Proof. intros H1 H2. induction H2; auto. eapply Anc_step; eauto. Qed.

Lemma Anc_depth ls a i da di : Anc ls a i -> Depth ls a da -> Depth ls i di -> da <= di.
Proof.
  intros H. revert di; induction H as [L | i l p E1 E2 H IH]; intros di D1 D2.
  - assert (da = di) by (eapply Depth_det; eauto). lia.
  - inversion D2; subst; try congruence. assert (l0 = l) by congruence; subst.
    assert (p0 = p) by congruence; subst. specialize (IH _ D1 H2). lia.
Qed.

(** Two ancestors of a link at the same depth are equal. *)
Lemma Anc_same_depth ls a b i d : Anc ls a i -> Anc ls b i -> Depth ls a d -> Depth ls b d -> a = b.
Proof.
  intros H1; revert b; induction H1 as [L | i l p E1 E2 H IH]; intros b H2 D1 D2.
  - inversion H2 as [| ? l p E1 E2 H2']; subst; auto.
    assert (exists dp, Depth ls p dp /\ d = S dp) as (dp & Dp & ->).
    { inversion D1; subst; try congruence. assert (l0 = l) by congruence; subst.
      assert (p0 = p) by congruence; subst. eauto. }
    pose proof (Anc_depth _ _ _ _ _ H2' D2 Dp). lia.
  - inversion H2 as [| ? l' p' E1' E2' H2']; subst.
    + assert (exists dp, Depth ls p dp /\ d = S dp) as (dp & Dp & ->).
      { inversion D2; subst; try congruence. assert (l0 = l) by congruence; subst.
        assert (p0 = p) by congruence; subst. eauto. }
      pose proof (Anc_depth _ _ _ _ _ H D1 Dp). lia.
    + assert (l' = l) by congruence; subst. assert (p' = p) by congruence; subst. auto.
Qed.

(** The path to the root has no repetition, so depths are below the number of links. *)
Lemma depth_path ls i d : Depth ls i d ->
  exists path, length path = S d /\ NoDup path /\ forall x, In x path -> x < length ls /\ exists dx, Depth ls x dx /\ dx <= d.
Proof.
  intros H; induction H as [i l E1 E2 | i l p d E1 E2 H IH].
  - exists [i]. split; auto. split; [constructor; simpl; auto; constructor|].
    intros x [<-|[]]. split; [eapply nth_error_lt; eauto|]. exists 0. split; auto. eapply Depth_root; eauto.
  - destruct IH as (path & L & N & F). exists (i :: path). split; [simpl; auto|]. split.
    + constructor; auto. intros I. destruct (F i I) as (_ & dx & Dx & Lx).
      assert (dx = S d) by (eapply Depth_det; eauto; eapply Depth_step; eauto). lia.
    + intros x [<-|I].
      * split; [eapply nth_error_lt; eauto|]. exists (S d). split; auto. eapply Depth_step; eauto.
      * destruct (F x I) as (? & dx & ? & ?). split; auto. exists dx. split; auto.
Qed.

Lemma nodup_bound (l : list nat) n : NoDup l -> (forall x, In x l -> x < n) -> length l <= n.
Proof.
  intros N F. rewrite <- (seq_length n 0). apply NoDup_incl_length; auto.
  intros x I. apply in_seq. specialize (F x I). lia.
Qed.

Lemma depth_bound ls i d : Depth ls i d -> d < length ls.
Proof.
  intros H. destruct (depth_path _ _ _ H) as (path & L & N & F).
  assert (length path <= length ls) by (apply nodup_bound; auto; intros x I; apply F; auto). lia.
Qed.

(** ** Tables *)
Definition tset (i k : nat) (t : list (list bool)) : list (list bool) :=
  list_set t i (list_set (nth i t []) k true).

Definition tshape (n dof : nat) (t : list (list bool)) : Prop :=
  length t = n /\ forall i row, nth_error t i = Some row -> length row = dof.

Lemma table_set_ok n dof t i k : tshape n dof t -> i < n -> k < dof ->
  table_set i k t = Ok (tset i k t) /\ tshape n dof (tset i k t).
Proof.
  intros [L R] Li Lk. unfold table_set, tset.
  destruct (vget_lt t i ltac:(lia)) as (row & E & E'). rewrite E. cbn [rbind].
  rewrite (nth_error_nth _ _ _ E').
  rewrite vset_lt by (rewrite (R i row E'); auto). cbn [rbind]. rewrite vset_lt by lia. split; auto.
  split; [now rewrite list_set_length|].
  intros x row' Ex. rewrite nth_error_list_set in Ex. destruct (Nat.eqb_spec i x); [|eapply R; eauto].
  destruct (Nat.ltb i (length t)); inversion Ex; subst. rewrite list_set_length. eapply R; eauto.
Qed.

Definition tent (t : list (list bool)) (i k : nat) : option bool :=
  match nth_error t i with Some row => nth_error row k | None => None end.

Lemma tent_tset n dof t i k i' k' : tshape n dof t -> i < n -> k < dof ->
  tent (tset i k t) i' k' = if (Nat.eqb i i' && Nat.eqb k k')%bool then Some true else tent t i' k'.
Proof.
  intros [L R] Li Lk. unfold tent, tset. rewrite nth_error_list_set.
  destruct (Nat.eqb_spec i i') as [->|N]; simpl; auto.
  assert (Lt : (i' <? length t) = true) by (apply Nat.ltb_lt; lia). rewrite Lt.
  destruct (lt_nth_error t i' ltac:(lia)) as (row & E). rewrite (nth_error_nth _ _ _ E), E.
  rewrite nth_error_list_set. destruct (Nat.eqb_spec k k'); auto.
  assert (Lt' : (k <? length row) = true) by (apply Nat.ltb_lt; rewrite (R _ _ E); auto). now rewrite Lt'.
Qed.

Definition marks (l : list nat) (k : nat) (t : list (list bool)) := fold_left (fun t i => tset i k t) l t.

Lemma marks_app l1 l2 k t : marks (l1 ++ l2) k t = marks l2 k (marks l1 k t).
Proof. apply fold_left_app. Qed.

Lemma marks_spec n dof k l : k < dof -> forall t, tshape n dof t -> (forall x, In x l -> x < n) ->
  tshape n dof (marks l k t) /\
  forall i k', tent (marks l k t) i k' = if (existsb (Nat.eqb i) l && Nat.eqb k k')%bool then Some true else tent t i k'.
Proof.
  intros Lk. induction l as [|x l IH]; intros t T F; simpl; auto.
  destruct (table_set_ok n dof t x k T (F x (or_introl eq_refl)) Lk) as [_ T1].
  destruct (IH (tset x k t) T1 (fun y I => F y (or_intror I))) as [T2 E2]. split; auto.
  intros i k'. rewrite E2, (tent_tset n dof) by (auto; apply F; now left). rewrite (Nat.eqb_sym x i).
  destruct (existsb (Nat.eqb i) l), (Nat.eqb i x), (Nat.eqb k k'); simpl; auto.
Qed.

Lemma existsb_eqb i l : existsb (Nat.eqb i) l = true <-> In i l.
Proof.
  rewrite existsb_exists. split.
  - intros (x & I & E). apply Nat.eqb_eq in E. now subst.
  - intros I. exists i. split; auto. apply Nat.eqb_refl.
Qed.

(** ** The traversal *)
(** What the traversal needs of the links. *)
Record TreeLinks (ls : list Link) (root : nat) : Prop := {
  tl_ids : forall i l, nth_error ls i = Some l -> l_id l = i;
  tl_tree : forall i, i < length ls -> exists d, Depth ls i d;
  tl_only_root : forall i l, nth_error ls i = Some l -> l_parent l = None -> i = root;
  tl_children : forall p l c, nth_error ls p = Some l ->
             (In c (l_children l) <-> exists lc, nth_error ls c = Some lc /\ l_parent lc = Some p);
  tl_children_nodup : forall p l, nth_error ls p = Some l -> NoDup (l_children l)
}.

Lemma WF_TreeLinks m : WF m -> TreeLinks (links m) (root_link_id m).
Proof. intros W. destruct W. constructor; auto. Qed.

Lemma Anc_child ls root p l x : TreeLinks ls root -> nth_error ls p = Some l ->
  (Anc ls p x <-> x = p \/ exists c, In c (l_children l) /\ Anc ls c x).
Proof.
  intros T E. split.
  - intros H; induction H as [L | i li q E1 E2 H IH]; auto.
    right. destruct IH as [->|(c & I & Hc)].
    + exists i. split; [|apply Anc_refl; eapply nth_error_lt; eauto].
      apply (tl_children ls root T p l i E). eauto.
    + exists c. split; auto. eapply Anc_step; eauto.
  - intros [->|(c & I & H)].
    + apply Anc_refl. eapply nth_error_lt; eauto.
    + apply (tl_children ls root T p l c E) in I. destruct I as (lc & E1 & E2).
      eapply Anc_trans; eauto. eapply Anc_step; eauto. apply Anc_refl. eapply nth_error_lt; eauto.
Qed.

Lemma child_depth ls root p l c d : TreeLinks ls root -> nth_error ls p = Some l -> In c (l_children l) ->
  Depth ls p d -> Depth ls c (S d).
Proof.
  intros T E I D. apply (tl_children ls root T p l c E) in I. destruct I as (lc & E1 & E2). eapply Depth_step; eauto.
Qed.

Definition visits (ls : list Link) (dof k : nat) (cs : list nat) : Prop :=
  exists l, NoDup l /\ (forall x, In x l <-> exists c, In c cs /\ Anc ls c x) /\
    forall rest t, tshape (length ls) dof t -> loopn (length l) (rp_step ls k) (cs ++ rest, t) = inl (rest, marks l k t).

Lemma visits_list ls root dof k cs d : TreeLinks ls root -> k < dof ->
  NoDup cs -> (forall c, In c cs -> Depth ls c d /\ visits ls dof k [c]) -> visits ls dof k cs.
Proof.
  intros T Lk. induction cs as [|c cs IH]; intros N F.
  - exists []. split; [constructor|]. split; [|intros; reflexivity].
    intros x. simpl. split; [easy | intros (c & [] & _)].
  - inversion N; subst. destruct (F c (or_introl eq_refl)) as (Dc & l1 & N1 & I1 & V1).
    destruct (IH H2 (fun c' I => F c' (or_intror I))) as (l2 & N2 & I2 & V2).
    exists (l1 ++ l2). split; [|split].
    + clear IH V1 V2. revert N1. assert (Dj : forall x, In x l1 -> ~ In x l2).
      { intros x J1 J2. apply I1 in J1. apply I2 in J2. destruct J1 as (c1 & [<-|[]] & A1).
        destruct J2 as (c2 & J2 & A2). destruct (F c2 (or_intror J2)) as (Dc2 & _).
        assert (c = c2) by (eapply Anc_same_depth; eauto). subst. auto. }
      clear I1. induction l1 as [|y l1 IH]; intros N1; simpl; auto.
      inversion N1; subst. constructor.
      * rewrite in_app_iff. intros [J|J]; auto. apply (Dj y (or_introl eq_refl)); auto.
      * apply IH; auto. intros x J. apply Dj. now right.
    + intros x. rewrite in_app_iff, I1, I2. simpl. split.
      * intros [(c1 & [<-|[]] & A1)|(c2 & J & A2)]; eauto.
      * intros (c1 & [<-|J] & A1); eauto.
    + intros rest t S0. rewrite app_length, loopn_add. simpl app.
      specialize (V1 (cs ++ rest) t S0). simpl app in V1. rewrite V1.
      rewrite V2; [now rewrite marks_app|].
      apply marks_spec; auto. intros x J. apply I1 in J. destruct J as (c1 & _ & A1). eapply Anc_lt; eauto.
Qed.

Lemma visits_one ls root dof k : TreeLinks ls root -> k < dof ->
  forall h i d, Depth ls i d -> length ls - d <= h -> visits ls dof k [i].
Proof.
  intros T Lk. induction h as [|h IH]; intros i d D L.
  - apply depth_bound in D. lia.
  - pose proof (Depth_lt _ _ _ D) as Li. destruct (lt_nth_error ls i Li) as (l & E).
    assert (V : visits ls dof k (rev (l_children l))).
    { apply (visits_list ls root dof k _ (S d)); auto.
      - apply NoDup_rev. eapply tl_children_nodup; eauto.
      - intros c I. apply in_rev in I. pose proof (child_depth ls root i l c d T E I D) as Dc. split; auto.
        apply (IH c (S d)); auto. lia. }
    destruct V as (l2 & N2 & I2 & V2).
    exists (i :: l2). split; [|split].
    + constructor; auto. intros J. apply I2 in J. destruct J as (c & Ic & Hc). apply in_rev in Ic.
      pose proof (child_depth ls root i l c d T E Ic D) as Dc. pose proof (Anc_depth _ _ _ _ _ Hc Dc D). lia.
    + intros x. simpl. rewrite I2. split.
      * intros [<-|(c & J & Hc)]; [exists i; split; auto; now apply Anc_refl|].
        exists i. split; auto. apply (Anc_child ls root i l x T E). right. exists c. split; auto. now apply in_rev.
      * intros (c & [<-|[]] & H). apply (Anc_child ls root i l x T E) in H. destruct H as [->|(c & J & Hc)]; auto.
        right. exists c. split; auto. now apply in_rev in J.
    + intros rest t S0. destruct (table_set_ok (length ls) dof t i k S0 Li Lk) as [Es Ss].
      assert (St : rp_step ls k (i :: rest, t) = inl (rev (l_children l) ++ rest, tset i k t)).
      { unfold rp_step. cbn [fst snd]. rewrite E, (tl_ids ls root T i l E), Es. reflexivity. }
      cbn [length loopn app]. rewrite St. rewrite V2; auto.
Qed.

Lemma edges_bound ls root : TreeLinks ls root -> length ls <= S (num_edges ls).
Proof.
  intros T. unfold num_edges.
  assert (E : list_sum (map (fun l => length (l_children l)) ls) = length (concat (map l_children ls))).
  { clear T. induction ls as [|l ls IH]; simpl; auto. now rewrite app_length, IH. }
  rewrite E. clear E.
  assert (I : incl (seq 0 (length ls)) (root :: concat (map l_children ls))).
  { intros i Hi. apply in_seq in Hi. destruct (lt_nth_error ls i ltac:(lia)) as (l & El).
    destruct (l_parent l) as [p|] eqn:Ep.
    - right. destruct (tl_tree ls root T i ltac:(lia)) as (d & D). inversion D; subst; try congruence.
      assert (l0 = l) by congruence; subst. assert (p0 = p) by congruence; subst.
      pose proof (Depth_lt _ _ _ H1) as Lp. destruct (lt_nth_error ls p Lp) as (lp & Elp).
      apply in_concat. exists (l_children lp). split.
      + apply in_map_iff. exists lp. split; auto. eapply nth_error_In; eauto.
      + apply (tl_children ls root T p lp i Elp). eauto.
    - left. symmetry. eapply tl_only_root; eauto. }
  apply NoDup_incl_length in I; [|apply seq_NoDup]. rewrite seq_length in I. simpl in I. lia.
Qed.

Lemma pow2_gt n : n < 2 ^ n.
Proof. induction n; simpl; lia. Qed.

Lemma rp_joint_ok ls root dof k c t : TreeLinks ls root -> k < dof -> c < length ls -> tshape (length ls) dof t ->
  exists t', rp_joint ls k c t = Ok t' /\ tshape (length ls) dof t' /\
    forall i k' b, tent t i k' = Some b ->
      (k' <> k -> tent t' i k' = Some b) /\
      (k' = k -> tent t' i k' = Some true /\ Anc ls c i \/ tent t' i k' = Some b /\ ~ Anc ls c i).
Proof.
  intros T Lk Lc S0. destruct (tl_tree ls root T c Lc) as (d & D).
  destruct (visits_one ls root dof k T Lk _ c d D (le_n _)) as (l & N & I & V).
  assert (F : forall x, In x l -> x < length ls).
  { intros x J. apply I in J. destruct J as (c' & _ & H). eapply Anc_lt; eauto. }
  destruct (marks_spec (length ls) dof k l Lk t S0 F) as [S1 E1].
  exists (marks l k t). split; [|split; auto].
  - unfold rp_joint. rewrite loop2_loopn.
    rewrite (loopn_mono (length l + 1) _ _ _ (Ok (marks l k t))); auto.
    + rewrite loopn_add. specialize (V [] t S0). simpl app in V. rewrite V. reflexivity.
    + pose proof (nodup_bound _ _ N F). pose proof (edges_bound ls root T). pose proof (pow2_gt (S (num_edges ls))). lia.
  - intros i k' b Eb. rewrite E1. split.
    + intros Nk. destruct (Nat.eqb_spec k k'); [congruence|]. now rewrite andb_false_r.
    + intros ->. rewrite Nat.eqb_refl, andb_true_r. destruct (existsb (Nat.eqb i) l) eqn:X.
      * left. split; auto. apply existsb_eqb in X. apply I in X. destruct X as (c' & [<-|[]] & H). auto.
      * right. split; auto. intros H. assert (In i l) by (apply I; exists c; simpl; auto).
        apply existsb_eqb in H0. congruence.
Qed.

(** ** update_rptable *)
Definition RpExact (m : KM) : Prop :=
  length (rptable m) = length (links m) /\
  forall i k j c, i < length (links m) -> nth_error (joints m) k = Some j -> j_child j = Some c ->
    exists b, isRelevant (rptable m) i k = Ok b /\ (b = true <-> Anc (links m) c i).

Lemma isRelevant_tent t i k b : isRelevant t i k = Ok b <-> tent t i k = Some b.
Proof.
  unfold isRelevant, tent, vget. destruct (nth_error t i) as [row|]; simpl; [|split; discriminate].
  destruct (nth_error row k); split; intros E; inversion E; auto.
Qed.

(** the joints as update_rptable sees them *)
Record JointsOK (m : KM) : Prop := {
  jo_ids : joint_ids m = combine (map j_name (joints m)) (seq 0 (length (joints m)));
  jo_names : NoDup (map j_name (joints m));
  jo_child : forall k j, nth_error (joints m) k = Some j -> exists c, j_child j = Some c /\ c < length (links m) }.

Lemma WF_JointsOK m : WF m -> JointsOK m.
Proof.
  intros W. constructor; try apply W. intros k j E. destruct (wf_joints m W k j E) as (_ & _ & c & l & Ec & El & _).
  exists c. split; auto. eapply nth_error_lt; eauto.
Qed.

Lemma assoc_combine_seq (names : list string) k n : NoDup names -> nth_error names k = Some n ->
  forall a, assoc n (combine names (seq a (length names))) = Some (a + k).
Proof.
  revert k; induction names as [|x names IH]; intros k N E a; [destruct k; discriminate|].
  inversion N; subst. simpl. destruct k; simpl in E.
  - inversion E; subst. rewrite String.eqb_refl. f_equal; lia.
  - destruct (String.eqb_spec n x).
    + subst. exfalso. apply H1. eapply nth_error_In; eauto.
    + rewrite (IH k); auto. f_equal; lia.
Qed.

Lemma update_rptable_ok m : TreeLinks (links m) (root_link_id m) -> JointsOK m ->
  length (link_ids m) = length (links m) ->
  exists t, update_rptable m = (set_rptable t m, Ok tt) /\ RpExact (set_rptable t m).
Proof.
  intros T JO LL. unfold update_rptable. rewrite bind_get.
  assert (LJ : length (joint_ids m) = length (joints m)).
  { rewrite (jo_ids m JO). rewrite combine_length, map_length, seq_length. lia. }
  set (t0 := repeat (repeat false (length (joint_ids m))) (length (link_ids m))).
  assert (S0 : tshape (length (links m)) (length (joints m)) t0).
  { unfold t0. split; [rewrite repeat_length; auto|]. intros i row E. apply nth_error_In, repeat_spec in E.
    subst. now rewrite repeat_length. }
  assert (Z0 : forall i k, i < length (links m) -> k < length (joints m) -> tent t0 i k = Some false).
  { intros i k Li Lk. unfold tent, t0. rewrite nth_error_repeat'. rewrite LL.
    replace (i <? length (links m)) with true by (symmetry; now apply Nat.ltb_lt).
    rewrite nth_error_repeat', LJ. replace (k <? length (joints m)) with true by (symmetry; now apply Nat.ltb_lt). auto. }
  pose (I := fun (pre : list Joint) t => tshape (length (links m)) (length (joints m)) t /\
     forall i k j c, i < length (links m) -> nth_error (joints m) k = Some j -> j_child j = Some c ->
       if Nat.ltb k (length pre) then exists b, tent t i k = Some b /\ (b = true <-> Anc (links m) c i)
       else tent t i k = Some false).
  destruct (rfor_total I (fun j t =>
            let? jid := match assoc (j_name j) (joint_ids m) with Some i => Ok i | None => Throw OutOfRange end in
            let? c := deref (j_child j) in
            rp_joint (links m) jid c t) (joints m) [] t0) as (t & E & It).
  - split; auto. intros i k j c Li Ek _. simpl. apply Z0; auto. eapply nth_error_lt; eauto.
  - intros pre j post t Epre _ [St Et]. simpl in Epre.
    assert (Ek : nth_error (joints m) (length pre) = Some j).
    { rewrite <- Epre. rewrite nth_error_app2 by lia. now rewrite Nat.sub_diag. }
    assert (En : nth_error (map j_name (joints m)) (length pre) = Some (j_name j)).
    { rewrite nth_error_map', Ek. reflexivity. }
    pose proof (assoc_combine_seq _ _ _ (jo_names m JO) En 0) as Ea. rewrite map_length in Ea.
    rewrite (jo_ids m JO), Ea. cbn [rbind]. destruct (jo_child m JO _ _ Ek) as (c & Ec & Lc). rewrite Ec. cbn [deref rbind].
    assert (Lk : length pre < length (joints m)) by (eapply nth_error_lt; eauto).
    destruct (rp_joint_ok (links m) _ (length (joints m)) (length pre) c t T Lk Lc St) as (t' & E' & S' & H').
    exists t'. split; auto. split; auto. intros i k j' c' Li Ek' Ec'. rewrite app_length. simpl.
    specialize (Et i k j' c' Li Ek' Ec').
    destruct (Nat.ltb_spec k (length pre)).
    + destruct Et as (b & Eb & Hb). replace (k <? length pre + 1) with true by (symmetry; apply Nat.ltb_lt; lia).
      exists b. split; auto. apply (H' i k b Eb). lia.
    + destruct (H' i k false Et) as [H1 H2]. destruct (Nat.ltb_spec k (length pre + 1)).
      * assert (k = length pre) by lia. subst k. assert (j' = j) by congruence; subst. assert (c' = c) by congruence; subst.
        destruct (H2 eq_refl) as [(E1 & E2)|(E1 & E2)]; [exists true | exists false]; split; auto; split; auto; try discriminate.
      * apply H1. lia.
  - exists t. fold t0. unfold bind, lift. rewrite E. split; [reflexivity|]. destruct It as [[St1 St2] Et]. split; auto.
    intros i k j c Li Ek Ec. simpl in *. specialize (Et i k j c Li Ek Ec).
    assert (k < length (joints m)) by (eapply nth_error_lt; eauto).
    replace (k <? length (joints m)) with true in Et by (symmetry; now apply Nat.ltb_lt).
    destruct Et as (b & Eb & Hb). exists b. split; auto. now apply isRelevant_tent.
Qed.

End Rp.
