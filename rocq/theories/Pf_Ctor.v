(** The constructor on a tree description. *)
From Coq Require Import String List Arith Lia Bool Permutation Sorted.
From Verif Require Import Base Num Pose DataStructure Urdf Kin Wrapper Spec_Robot Spec_Hist Spec_Load Pf_Base Pf_Data Inv Pf_FK Pf_Frame Pf_Rp Pf_Add Rep Pf_Ops Pf_Urdf.
Import ListNotations.

Section Ctor.
Context `{A : Arith}.

(** ** Positions of names *)
Lemma pos_of_some n l k : pos_of n l = Some k -> nth_error l k = Some n.
Proof.
  revert k; induction l as [|x l IH]; intros k E; simpl in *; [discriminate|].
  destruct (String.eqb_spec n x); [inversion E; subst; reflexivity|].
  destruct (pos_of n l); inversion E; subst. simpl. auto.
Qed.
Lemma pos_of_nth n l k : NoDup l -> nth_error l k = Some n -> pos_of n l = Some k.
Proof.
  revert k; induction l as [|x l IH]; intros k N E; [destruct k; discriminate|]. inversion N as [|? ? N1 N2]; subst.
  destruct k; simpl in *.
  - inversion E; subst. now rewrite String.eqb_refl.
  - destruct (String.eqb_spec n x) as [->|]; [apply nth_error_In in E; easy|]. now rewrite (IH k).
Qed.
Lemma pos_of_in n l : In n l -> exists k, pos_of n l = Some k.
Proof.
  induction l as [|x l IH]; simpl; [easy|]. intros I. destruct (String.eqb_spec n x) as [_|D]; [eauto|].
  destruct I as [E|I]; [congruence|]. destruct (IH I) as (k & ->). exists (S k); reflexivity.
Qed.

Lemma nth_error_ext' {B} (l l' : list B) : (forall i, nth_error l i = nth_error l' i) -> l = l'.
Proof.
  revert l'; induction l as [|x l IH]; intros [|y l'] H; auto; try (specialize (H 0); discriminate).
  f_equal; [specialize (H 0); now inversion H | apply IH; intros i; apply (H (S i))].
Qed.

Lemma nth_error_enumerate {B} (l : list B) i : nth_error (enumerate l) i = option_map (fun b => (i, b)) (nth_error l i).
Proof.
  unfold enumerate. rewrite nth_error_combine. destruct (nth_error l i) eqn:E.
  - rewrite nth_error_seq by (eapply nth_error_lt; eauto). reflexivity.
  - destruct (nth_error (seq 0 (length l)) i); reflexivity.
Qed.

Lemma sorted_filter {B} (key : B -> string) f (l : list B) :
  StronglySorted name_lt (map key l) -> StronglySorted name_lt (map key (filter f l)).
Proof.
  induction l as [|x l IH]; simpl; intros S; [constructor|]. inversion S as [|? ? S' F]; subst.
  destruct (f x); auto. simpl. constructor; auto. rewrite Forall_forall in *. intros y I. apply F.
  apply in_map_iff in I. destruct I as (z & <- & I). apply filter_In in I. now apply in_map.
Qed.

Lemma NoDup_map_filter {B C} (g : B -> C) f l : NoDup (map g l) -> NoDup (map g (filter f l)).
Proof.
  induction l as [|x l IH]; simpl; intros N; auto. inversion N as [|? ? N1 N2]; subst. destruct (f x); auto.
  simpl. constructor; auto. intros I. apply N1. apply in_map_iff in I. destruct I as (y & <- & I). apply filter_In in I.
  now apply in_map.
Qed.

Lemma app_com_inj a b s : (a ++ s)%string = (b ++ s)%string -> a = b.
Proof.
  revert b; induction a as [|x a IH]; intros [|y b] E; simpl in *; auto.
  - exfalso. assert (L : String.length s = String.length (String y (b ++ s))) by (now rewrite <- E).
    simpl in L. clear E. assert (forall t, String.length (t ++ s) >= String.length s) as H.
    { induction t; simpl; lia. } specialize (H b). lia.
  - exfalso. assert (L : String.length s = String.length (String x (a ++ s))) by (now rewrite E).
    simpl in L. clear E. assert (forall t, String.length (t ++ s) >= String.length s) as H.
    { induction t; simpl; lia. } specialize (H a). lia.
  - inversion E; subst. f_equal. now apply IH.
Qed.

(** ** The members before the COM links *)
Section Members.
Variables (R : Robot) (root : string) (sorted : list (string * option Inertial)) (jall : list UJoint) (mi : ModelInterface).
Hypothesis T : is_tree R root.
Hypothesis RA : ReadsAs R root sorted jall mi.
Hypothesis SUP : forall j, In j (r_joints R) -> supported (uj_type j) = true.

Let ln := map fst sorted.
Definition jsorted_of := filter (fun j => movable (uj_type j)) jall.
Notation jsorted := jsorted_of.
Let jn := map uj_name jsorted.
Let MJ := mk_joint ln jn.
Let m0 := ctor_members mi.

Lemma c_ln : map fst (mi_links mi) = ln.
Proof. rewrite (ra_links _ _ _ _ _ RA), map_map. reflexivity. Qed.

Lemma c_ujs : filter (fun kj => movable (uj_type (snd kj))) (mi_joints mi) = map jkey jsorted.
Proof.
  rewrite (ra_joints _ _ _ _ _ RA). unfold jsorted_of. clear. induction jall as [|j l IH]; simpl; auto.
  destruct (movable (uj_type j)); simpl; now rewrite IH.
Qed.

Lemma c_jn : map fst (map jkey jsorted) = jn.
Proof. rewrite map_map. reflexivity. Qed.

Lemma c_joints : joints m0 = map MJ jsorted.
Proof. unfold m0, ctor_members. cbn [joints]. rewrite c_ujs, c_ln, c_jn, map_map. reflexivity. Qed.

Definition lk (i : nat) (ni : string * option Inertial) : Link := mk_link mi ln jn i (ulink_of jall ni).

Lemma c_links i : nth_error (links m0) i = option_map (lk i) (nth_error sorted i).
Proof.
  unfold m0, ctor_members. cbn [links]. rewrite nth_error_map', nth_error_enumerate, (ra_links _ _ _ _ _ RA), nth_error_map'.
  rewrite <- (ra_links _ _ _ _ _ RA), c_ln, c_ujs, c_jn. destruct (nth_error sorted i); reflexivity.
Qed.

Lemma c_length : length (links m0) = length sorted.
Proof.
  unfold m0, ctor_members. cbn [links]. rewrite map_length. unfold enumerate. rewrite combine_length, seq_length.
  rewrite (ra_links _ _ _ _ _ RA), map_length. lia.
Qed.

Lemma c_link i l : nth_error (links m0) i = Some l -> exists ni, nth_error sorted i = Some ni /\ l = lk i ni.
Proof. rewrite c_links. destruct (nth_error sorted i) as [ni|]; intros E; inversion E; subst; eauto. Qed.

Lemma in_jall j : In j jall <-> In j (r_joints R).
Proof. split; apply Permutation_in; [|apply Permutation_sym]; apply RA. Qed.
Lemma in_sorted n : In n ln <-> In n (link_names R).
Proof. split; apply Permutation_in; [|apply Permutation_sym]; apply Permutation_map; apply RA. Qed.
Lemma ln_nodup : NoDup ln.
Proof. apply sorted_nodup, RA. Qed.
Lemma jall_child_nodup : NoDup (map uj_child jall).
Proof. eapply Permutation_NoDup; [apply Permutation_map, Permutation_sym, RA|]. apply T. Qed.
Lemma jn_nodup : NoDup jn.
Proof. unfold jn. apply NoDup_map_filter. apply sorted_nodup, RA. Qed.

Lemma lk_name i ni : l_name (lk i ni) = fst ni.
Proof. unfold lk, mk_link, ulink_of. cbn [l_name snd]. now rewrite (proj1 (link_steps_static _ _ _)). Qed.
Lemma lk_inertial i ni : l_inertial (lk i ni) = snd ni.
Proof. unfold lk, mk_link, ulink_of. cbn [l_inertial snd]. now rewrite (proj2 (link_steps_static _ _ _)). Qed.

Lemma nth_ln i ni : nth_error sorted i = Some ni -> nth_error ln i = Some (fst ni).
Proof. intros E. unfold ln. now rewrite nth_error_map', E. Qed.
Lemma ln_pos n : In n (link_names R) -> exists p np, nth_error sorted p = Some np /\ fst np = n /\ pos_of n ln = Some p.
Proof.
  intros I. apply in_sorted in I. destruct (pos_of_in _ _ I) as (p & Ep). pose proof (pos_of_some _ _ _ Ep) as E.
  unfold ln in E. rewrite nth_error_map' in E. destruct (nth_error sorted p) as [np|] eqn:Es; [|discriminate E]. assert (H0 : fst np = n) by (now inversion E). exists p, np. auto.
Qed.

Lemma lk_root i ni : fst ni = root -> l_parent (lk i ni) = None /\ l_pjoint (lk i ni) = None.
Proof.
  intros E. unfold lk, mk_link, ulink_of. cbn [l_parent l_pjoint snd].
  destruct (link_steps_noparent (fst ni) (map jkey jall)) with (l := snd (blank ni)) as [-> ->]; auto.
  intros jj I. apply in_map_iff in I. destruct I as (j & <- & Ij). simpl. rewrite E. apply (tree_root_top _ _ T). now apply in_jall.
Qed.

Lemma assoc_jall j : In j jall -> assoc (uj_name j) (mi_joints mi) = Some j.
Proof.
  intros I. rewrite (ra_joints _ _ _ _ _ RA). apply assoc_nodup.
  - rewrite map_map. simpl. apply sorted_nodup, RA. - apply (in_map jkey _ _ I).
Qed.

Lemma lk_child i j ni : In j (r_joints R) -> uj_child j = fst ni ->
  exists p np, nth_error sorted p = Some np /\ fst np = uj_parent j /\ l_parent (lk i ni) = Some p /\ l_pjoint (lk i ni) = Some (MJ j).
Proof.
  intros Ij Ec. destruct (tree_ends _ _ T j Ij) as [Ip _]. destruct (ln_pos _ Ip) as (p & np & E1 & E2 & E3).
  exists p, np. split; auto. split; auto. unfold lk, mk_link, ulink_of. cbn [l_parent l_pjoint snd].
  destruct (link_steps_parent (fst ni) (map jkey jall) (jkey j)) with (l := snd (blank ni)) as [-> ->]; auto.
  - rewrite map_map. apply jall_child_nodup.
  - apply in_map. now apply in_jall.
  - cbn [jkey fst snd]. rewrite E3, assoc_jall by (now apply in_jall). auto.
Qed.

Lemma lk_cases i ni : nth_error sorted i = Some ni ->
  (fst ni = root /\ l_parent (lk i ni) = None /\ l_pjoint (lk i ni) = None) \/
  (fst ni <> root /\ exists j p np, In j (r_joints R) /\ uj_child j = fst ni /\ nth_error sorted p = Some np /\ fst np = uj_parent j /\
     l_parent (lk i ni) = Some p /\ l_pjoint (lk i ni) = Some (MJ j)).
Proof.
  intros E. destruct (string_dec (fst ni) root) as [D|D].
  - left. split; auto. now apply lk_root.
  - right. split; auto. assert (I : In (fst ni) (link_names R)).
    { apply in_sorted. apply nth_ln in E. eapply nth_error_In; eauto. }
    destruct (tree_connected_child R root _ T I D) as (j & Ij & Ej).
    destruct (lk_child i j ni Ij Ej) as (p & np & H). exists j, p, np. tauto.
Qed.

Lemma lk_children i ni c : In c (l_children (lk i ni)) <->
  exists j nc, In j (r_joints R) /\ uj_parent j = fst ni /\ nth_error sorted c = Some nc /\ fst nc = uj_child j.
Proof.
  unfold lk, mk_link, ulink_of. cbn [l_children snd]. rewrite link_steps_children. simpl app. rewrite in_flat_map. split.
  - intros (n & I & Ic). apply in_map_iff in I. destruct I as (jj & <- & I). apply filter_In in I. destruct I as [I Ep].
    apply in_map_iff in I. destruct I as (j & <- & Ij). cbn [jkey snd] in *. apply String.eqb_eq in Ep.
    destruct (pos_of (uj_child j) ln) as [k|] eqn:Ek; [|easy]. destruct Ic as [<-|[]].
    apply pos_of_some in Ek. unfold ln in Ek. rewrite nth_error_map' in Ek. destruct (nth_error sorted k) as [nc|] eqn:Es; inversion Ek.
    exists j, nc. rewrite <- in_jall. auto.
  - intros (j & nc & Ij & Ep & Ec & En). exists (uj_child j). split.
    + apply in_map_iff. exists (jkey j). split; auto. apply filter_In. split; [apply in_map; now apply in_jall|].
      simpl. now apply String.eqb_eq.
    + rewrite (pos_of_nth _ _ c ln_nodup); [now left|]. rewrite (nth_ln _ _ Ec). now rewrite En.
Qed.

Lemma lk_children_nodup i ni : NoDup (l_children (lk i ni)).
Proof.
  unfold lk, mk_link, ulink_of. cbn [l_children snd]. rewrite link_steps_children. simpl app.
  assert (N : NoDup (map (fun jj => uj_child (snd jj)) (filter (fun jj => String.eqb (uj_parent (snd jj)) (fst ni)) (map jkey jall)))).
  { apply NoDup_map_filter. rewrite map_map. apply jall_child_nodup. }
  revert N. generalize (map (fun jj => uj_child (snd jj)) (filter (fun jj => String.eqb (uj_parent (snd jj)) (fst ni)) (map jkey jall))) as l.
  induction l as [|x l IH]; intros N; simpl; [constructor|]. inversion N as [|? ? N1 N2]; subst.
  destruct (pos_of x ln) as [k|] eqn:Ek; simpl; auto. constructor; auto. intros I. apply in_flat_map in I.
  destruct I as (y & Iy & I). destruct (pos_of y ln) as [k'|] eqn:Ey; [|easy]. destruct I as [->|[]].
  apply pos_of_some in Ek, Ey. assert (x = y) by congruence. now subst.
Qed.

Lemma c_depth n : connected (r_joints R) root n -> forall i ni, nth_error sorted i = Some ni -> fst ni = n -> exists d, Depth (links m0) i d.
Proof.
  intros C; induction C as [|j Ij C IH]; intros i ni E En.
  - exists 0. eapply Depth_root; [rewrite c_links, E; reflexivity|]. now apply lk_root.
  - destruct (lk_child i j ni Ij (eq_sym En)) as (p & np & E1 & E2 & E3 & _).
    destruct (IH p np E1 E2) as (d & D). exists (S d). eapply Depth_step; [rewrite c_links, E; reflexivity| exact E3 | exact D].
Qed.

Lemma MJ_same j : same_joint j (MJ j).
Proof. constructor; reflexivity. Qed.

Lemma MJ_id k j : nth_error jsorted k = Some j -> j_id (MJ j) = Some k /\ movable (uj_type j) = true.
Proof.
  intros E. assert (M : movable (uj_type j) = true) by (apply nth_error_In in E; apply filter_In in E; tauto).
  split; auto. unfold MJ, mk_joint. cbn [j_id]. rewrite M. apply pos_of_nth; [apply jn_nodup|]. unfold jn. now rewrite nth_error_map', E.
Qed.

Lemma MJ_child i j ni : nth_error sorted i = Some ni -> uj_child j = fst ni -> movable (uj_type j) = true -> j_child (MJ j) = Some i.
Proof.
  intros E Ec M. unfold MJ, mk_joint. cbn [j_child]. rewrite M. apply pos_of_nth; [apply ln_nodup|]. rewrite (nth_ln _ _ E). now rewrite Ec.
Qed.

Lemma c_jpos j : In j (r_joints R) -> movable (uj_type j) = true -> exists k, nth_error jsorted k = Some j.
Proof. intros I M. apply In_nth_error. apply filter_In. split; auto. now apply in_jall. Qed.

Lemma c_root : exists ni, nth_error sorted (root_link_id m0) = Some ni /\ fst ni = root.
Proof.
  destruct (ln_pos root (tree_root _ _ T)) as (p & np & E1 & E2 & E3). exists np. split; auto.
  unfold m0, ctor_members. cbn [root_link_id]. rewrite c_ln, (ra_root _ _ _ _ _ RA), E3. auto.
Qed.

Lemma c_index_inj i k ni nk : nth_error sorted i = Some ni -> nth_error sorted k = Some nk -> fst ni = fst nk -> i = k.
Proof.
  intros Ei Ek E. pose proof ln_nodup as N. rewrite NoDup_nth_error in N. apply N.
  - unfold ln. rewrite map_length. eapply nth_error_lt; eauto.
  - rewrite (nth_ln _ _ Ei), (nth_ln _ _ Ek). now rewrite E.
Qed.

Lemma c_names : map l_name (links m0) = ln.
Proof.
  apply nth_error_ext'. intros i. rewrite nth_error_map', c_links. unfold ln. rewrite nth_error_map'.
  destruct (nth_error sorted i); cbn [option_map]; auto. now rewrite lk_name.
Qed.

Lemma c_WF : WF m0.
Proof.
  constructor.
  - intros i l E. apply c_link in E. destruct E as (ni & E & ->). reflexivity.
  - destruct c_root as (ni & E & En). exists (lk (root_link_id m0) ni). rewrite c_links, E. split; auto. now apply lk_root.
  - intros i l E Ep. apply c_link in E. destruct E as (ni & E & ->). destruct c_root as (nr & Er & En).
    destruct (lk_cases i ni E) as [(X & _)|(_ & j & p & np & _ & _ & _ & _ & X & _)]; [|congruence].
    eapply c_index_inj; eauto. congruence.
  - intros i l p E Ep. apply c_link in E. destruct E as (ni & E & ->).
    destruct (lk_cases i ni E) as [(_ & X & _)|(_ & j & p' & np & Ij & Ec & Es & En & X & Y)]; [congruence|].
    exists (MJ j). split; auto. pose proof (SUP j Ij) as SU. unfold supported in SU. apply orb_true_iff in SU. destruct SU as [M|Fx].
    + right. split; [exact M|]. split; [eapply MJ_child; eauto|]. destruct (c_jpos j Ij M) as (k & Ek). exists k.
      split; [now apply MJ_id|]. rewrite c_joints, nth_error_map', Ek. reflexivity.
    + left. simpl. destruct (uj_type j); easy.
  - intros i L. rewrite c_length in L. destruct (lt_nth_error _ _ L) as (ni & E). eapply c_depth; eauto.
    apply (tree_connected _ _ T). apply in_sorted. eapply nth_error_In. apply nth_ln; eauto.
  - intros p l c E. apply c_link in E. destruct E as (np & E & ->). rewrite lk_children. split.
    + intros (j & nc & Ij & Ep & Ec & En). exists (lk c nc). rewrite c_links, Ec. split; auto.
      destruct (lk_child c j nc Ij (eq_sym En)) as (p' & np' & E1 & E2 & E3 & _). rewrite E3. f_equal. eapply c_index_inj; eauto. congruence.
    + intros (lc & E1 & E2). apply c_link in E1. destruct E1 as (nc & E1 & ->).
      destruct (lk_cases c nc E1) as [(_ & X & _)|(_ & j & p' & np' & Ij & Ec & Es & En & X & Y)]; [congruence|].
      exists j, nc. assert (p' = p) by congruence. subst p'. assert (np' = np) by congruence. subst. auto.
  - intros p l E. apply c_link in E. destruct E as (np & E & ->). apply lk_children_nodup.
  - rewrite c_names, c_length. unfold m0, ctor_members. cbn [link_ids]. rewrite c_ln. f_equal. f_equal.
    rewrite map_length. unfold enumerate. rewrite combine_length, seq_length, (ra_links _ _ _ _ _ RA), map_length. lia.
  - rewrite c_names. apply ln_nodup.
  - rewrite c_joints, map_map. unfold m0, ctor_members. cbn [joint_ids]. rewrite c_ujs, c_jn, !map_length. reflexivity.
  - rewrite c_joints, map_map. simpl. exact jn_nodup.
  - rewrite c_joints. unfold m0, ctor_members. cbn [joint_angles]. rewrite repeat_length, c_ujs, !map_length. reflexivity.
  - rewrite c_joints. unfold m0, ctor_members. cbn [num_dof]. rewrite c_ujs, !map_length. reflexivity.
  - intros k J E. rewrite c_joints, nth_error_map' in E. destruct (nth_error jsorted k) as [j|] eqn:Ek; inversion E; subst J.
    destruct (MJ_id k j Ek) as [Ei M]. split; auto. split; auto.
    assert (Ij : In j (r_joints R)). { apply nth_error_In in Ek. apply filter_In in Ek. now apply in_jall. }
    destruct (tree_ends _ _ T j Ij) as [_ Ic]. destruct (ln_pos _ Ic) as (c & nc & E1 & E2 & E3).
    exists c, (lk c nc). destruct (lk_child c j nc Ij (eq_sym E2)) as (p & np & X1 & X2 & X3 & X4).
    split; [eapply MJ_child; eauto|]. split; [rewrite c_links, E1; reflexivity|]. split; auto. congruence.
  - unfold m0, ctor_members. cbn [tcache links]. split; [apply cache_new_wf|]. reflexivity.
  - intros i [].
Qed.

Lemma c_mass (ls : list Link) (so : list (string * option Inertial)) acc : map l_inertial ls = map snd so ->
  fold_left (fun acc l => match l_inertial l with None => acc | Some i => add acc (in_mass i) end) ls acc
  = fold_left (fun acc ni => add acc (in_mass (snd ni))) (massive so) acc.
Proof.
  revert so acc; induction ls as [|l ls IH]; intros [|[n o] so] acc E; simpl in *; try discriminate; auto.
  inversion E as [[E1 E2]]. rewrite E1. destruct o; simpl; auto.
Qed.

Lemma c_stack : length (stack_data (tstack m0)) = length sorted.
Proof.
  rewrite <- c_length. unfold m0, ctor_members. cbn [tstack links stack_new stack_data]. now rewrite repeat_length.
Qed.

Lemma c_Rep : Rep R root sorted jsorted [] (mass_sum (massive sorted))
                (mkAS [] (repeat n0 (length jsorted)) pose_clear) m0.
Proof.
  constructor; cbn [as_added as_angles as_base map].

  - apply c_WF.
  - constructor.
    + destruct c_root as (ni & E & En). exists (root_link_id m0), (lk (root_link_id m0) ni). rewrite c_links, E, lk_name.
      split; auto. split; auto. now apply lk_root.
    + intros i l E. apply c_link in E. destruct E as (ni & E & ->). rewrite lk_name.
      destruct (lk_cases i ni E) as [(X & Y & _)|(_ & j & p & np & Ij & Ec & Es & En & X & Y)]; auto.
      right; left. exists j, (MJ j). split; auto. split; auto. split; [|apply MJ_same].
      exists (lk i ni), p, (lk p np). rewrite !c_links, E, Es, !lk_name. repeat split; auto.
    + intros j Ij. destruct (tree_ends _ _ T j Ij) as [_ Ic]. destruct (ln_pos _ Ic) as (c & nc & E1 & E2 & E3).
      exists c, (MJ j). split; [|apply MJ_same].
      destruct (lk_child c j nc Ij (eq_sym E2)) as (p & np & X1 & X2 & X3 & X4).
      exists (lk c nc), p, (lk p np). rewrite !c_links, E1, X1, !lk_name. repeat split; auto.
    + intros n pn T0 [].
  - rewrite app_nil_r. apply c_names.
  - rewrite c_joints. generalize jsorted; intros js; induction js as [|j l IH]; simpl; constructor; auto. apply MJ_same.
  - unfold m0, ctor_members. cbn [joint_angles]. now rewrite c_ujs, !map_length.
  - reflexivity.
  - easy.
  - reflexivity.
  - apply c_stack.
  - constructor.
  - unfold m0, ctor_members. cbn [total_mass]. unfold mass_sum. apply c_mass.
    change (map l_inertial (links m0) = map snd sorted).
    apply nth_error_ext'. intros i. rewrite !nth_error_map', c_links. destruct (nth_error sorted i); cbn [option_map]; auto. now rewrite lk_inertial.
  - apply SUP.
  - intros j. unfold jsorted_of. rewrite filter_In, in_jall. tauto.
Qed.

Lemma c_inertial i ni : nth_error sorted i = Some ni -> exists l, nth_error (links m0) i = Some l /\ l_inertial l = snd ni.
Proof. intros E. exists (lk i ni). rewrite c_links, E. split; auto. apply lk_inertial. Qed.

End Members.

(** ** Changing inertials only *)
Definition eqi (ls ls' : list Link) : Prop := map (set_inertial None) ls = map (set_inertial None) ls'.

Lemma eqi_nth ls ls' i l : eqi ls ls' -> nth_error ls i = Some l ->
  exists l', nth_error ls' i = Some l' /\ l_name l' = l_name l /\ l_id l' = l_id l /\ l_parent l' = l_parent l /\
             l_pjoint l' = l_pjoint l /\ l_children l' = l_children l.
Proof.
  intros Q E. assert (X : nth_error (map (set_inertial None) ls') i = Some (set_inertial None l)).
  { rewrite <- Q, nth_error_map', E. reflexivity. }
  rewrite nth_error_map' in X. destruct (nth_error ls' i) as [l'|]; [|discriminate]. injection X; intros; exists l'; repeat split; congruence.
Qed.
Lemma eqi_sym ls ls' : eqi ls ls' -> eqi ls' ls. Proof. unfold eqi. auto. Qed.
Lemma eqi_length ls ls' : eqi ls ls' -> length ls' = length ls.
Proof. intros Q. rewrite <- (map_length (set_inertial None) ls'), <- Q. apply map_length. Qed.
Lemma eqi_names ls ls' : eqi ls ls' -> map l_name ls' = map l_name ls.
Proof.
  intros Q. assert (X : map l_name (map (set_inertial None) ls') = map l_name (map (set_inertial None) ls)) by (now rewrite Q).
  rewrite !map_map in X. exact X.
Qed.
Lemma eqi_set ls k l i : nth_error ls k = Some l -> eqi ls (list_set ls k (set_inertial i l)).
Proof.
  intros E. unfold eqi. rewrite map_list_set. change (set_inertial None (set_inertial i l)) with (set_inertial None l).
  symmetry. apply list_set_same. now rewrite nth_error_map', E.
Qed.
Lemma eqi_trans a b c : eqi a b -> eqi b c -> eqi a c. Proof. unfold eqi. congruence. Qed.
Lemma eqi_up ls ls' : eqi ls ls' -> up_ext ls ls'.
Proof. intros Q i l E. destruct (eqi_nth _ _ _ _ Q E) as (l' & H). exists l'. tauto. Qed.

Lemma eqi_WF m ls' : com_dummy_links m = [] -> eqi (links m) ls' -> WF m -> WF (set_links ls' (link_ids m) m).
Proof.
  intros Ec Q W. pose proof (eqi_sym _ _ Q) as Q'. pose proof (eqi_length _ _ Q) as L.
  constructor; cbn [links set_links root_link_id joints joint_ids joint_angles num_dof tcache com_dummy_links link_ids]; try apply W.
  - intros i l E. destruct (eqi_nth _ _ _ _ Q' E) as (l' & E' & _ & X & _). rewrite <- X. now apply (wf_ids m W).
  - destruct (wf_root m W) as (l & E & Ep). destruct (eqi_nth _ _ _ _ Q E) as (l' & E' & _ & _ & X & _). exists l'. split; auto. congruence.
  - intros i l E Ep. destruct (eqi_nth _ _ _ _ Q' E) as (l' & E' & _ & _ & X & _). eapply (wf_only_root m W); eauto. congruence.
  - intros i l p E Ep. destruct (eqi_nth _ _ _ _ Q' E) as (l' & E' & _ & _ & X & Y & _).
    destruct (wf_joint m W i l' p E' ltac:(congruence)) as (j & Ej & Hj). exists j. split; auto. congruence.
  - intros i Li. destruct (wf_tree m W i ltac:(lia)) as (d & D). exists d. eapply up_ext_depth; eauto. now apply eqi_up.
  - intros p l c E. destruct (eqi_nth _ _ _ _ Q' E) as (l' & E' & _ & _ & _ & _ & X). rewrite <- X.
    rewrite (wf_children m W p l' c E'). split; intros (lc & E1 & E2).
    + destruct (eqi_nth _ _ _ _ Q E1) as (lc' & F1 & _ & _ & F2 & _). exists lc'. split; auto. congruence.
    + destruct (eqi_nth _ _ _ _ Q' E1) as (lc' & F1 & _ & _ & F2 & _). exists lc'. split; auto. congruence.
  - intros p l E. destruct (eqi_nth _ _ _ _ Q' E) as (l' & E' & _ & _ & _ & _ & X). rewrite <- X. eapply (wf_children_nodup m W); eauto.
  - rewrite (eqi_names _ _ Q), L. apply W.
  - rewrite (eqi_names _ _ Q). apply W.
  - intros k j E. destruct (wf_joints m W k j E) as (M & Ei & c & l & E1 & E2 & E3 & E4). split; auto. split; auto.
    destruct (eqi_nth _ _ _ _ Q E2) as (l' & E' & _ & _ & X & Y & _). exists c, l'. repeat split; auto; congruence.
  - rewrite L. apply W.
  - rewrite Ec. intros i [].
Qed.

Lemma eqi_hangs ls ls' i n pn J : eqi ls ls' -> hangs ls i n pn J -> hangs ls' i n pn J.
Proof.
  intros Q (l & p & lp & E1 & E2 & E3 & E4 & E5 & E6).
  destruct (eqi_nth _ _ _ _ Q E1) as (l' & F1 & F2 & _ & F3 & F4 & _). destruct (eqi_nth _ _ _ _ Q E4) as (lp' & G1 & G2 & _).
  exists l', p, lp'. repeat split; auto; congruence.
Qed.

Lemma eqi_Named js root added ls ls' : eqi ls ls' -> Named js root added ls -> Named js root added ls'.
Proof.
  intros Q H. pose proof (eqi_sym _ _ Q) as Q'. constructor.
  - destruct (nm_root _ _ _ _ H) as (i & l & E1 & E2 & E3). destruct (eqi_nth _ _ _ _ Q E1) as (l' & F1 & F2 & _ & F3 & _).
    exists i, l'. repeat split; auto; congruence.
  - intros i l' E. destruct (eqi_nth _ _ _ _ Q' E) as (l & F1 & F2 & _ & F3 & _). rewrite <- F2, <- F3.
    destruct (nm_kind _ _ _ _ H i l F1) as [K|[(j & J & I & Ec & Hh & Sj)|(pn & T & I & Hh)]]; auto.
    + right; left. exists j, J. split; auto. split; auto. split; auto. eapply eqi_hangs; eauto.
    + right; right. exists pn, T. split; auto. eapply eqi_hangs; eauto.
  - intros j I. destruct (nm_joint _ _ _ _ H j I) as (i & J & Hh & Sj). exists i, J. split; auto. eapply eqi_hangs; eauto.
  - intros n pn T I. destruct (nm_added _ _ _ _ H n pn T I) as (i & Hh). exists i. eapply eqi_hangs; eauto.
Qed.

Lemma eqi_Rep R root sorted jsorted mass s m ls' : eqi (links m) ls' ->
  Rep R root sorted jsorted [] mass s m -> Rep R root sorted jsorted [] mass s (set_links ls' (link_ids m) m).
Proof.
  intros Q H. assert (Ec : com_dummy_links m = []) by (pose proof (rep_com _ _ _ _ _ _ _ _ H) as F; inversion F; auto).
  constructor; cbn [links set_links joints joint_angles base_pose rptable tstack com_dummy_links total_mass]; try apply H.
  - apply eqi_WF; auto. apply H.
  - eapply eqi_Named; eauto. apply H.
  - rewrite (eqi_names _ _ Q). apply H.
  - intros X. destruct (rep_rp _ _ _ _ _ _ _ _ H X) as [L F]. unfold RpExact. cbn [links set_links rptable joints].
    rewrite (eqi_length _ _ Q). split; auto. intros i k j c Li Ej Ecj. destruct (F i k j c Li Ej Ecj) as (b & Eb & Hb).
    exists b. split; auto. rewrite Hb. split; apply up_ext_anc; try (apply eqi_up; auto; now apply eqi_sym);
      rewrite ?(eqi_length _ _ Q); auto.
  - rewrite Ec. constructor.
Qed.

(** ** The loop that adds the COM links *)
Section Loop.
Variables (R : Robot) (root : string) (sorted : list (string * option Inertial)) (jsorted : list UJoint) (mass : num) (angles : list num).
Hypothesis NODUP : NoDup (map fst sorted).
(** no massive link [n] next to a link named [n]_com *)
Definition noclash (k : nat) : Prop := forall n i, nth_error sorted k = Some (n, Some i) -> ~ In (n ++ "_com")%string (map fst sorted).

Definition loop_inv (k : nat) (m : KM) (acc : list nat) : Prop :=
  Rep R root sorted jsorted [] mass (mkAS (com_links (firstn k sorted)) angles pose_clear) m /\
  (forall i ni, k <= i -> nth_error sorted i = Some ni -> exists l, nth_error (links m) i = Some l /\ l_inertial l = snd ni) /\
  Forall2 (fun id ni => length sorted <= id /\ exists l, nth_error (links m) id = Some l /\ l_name l = (fst ni ++ "_com")%string /\
                        l_inertial l = Some (reset_origin (snd ni))) acc (massive (firstn k sorted)).

Lemma firstn_S_snoc {B} (l : list B) k x : nth_error l k = Some x -> firstn (S k) l = firstn k l ++ [x].
Proof. apply firstn_S_nth. Qed.

Lemma com_names_in (l : list (string * option Inertial)) x : In x (map (fun a => fst (fst a)) (com_links l)) ->
  exists n i, In (n, Some i) l /\ x = (n ++ "_com")%string.
Proof.
  intros I. apply in_map_iff in I. destruct I as ([[x' p] T] & <- & I). unfold com_links in I. apply in_flat_map in I.
  destruct I as ([n o] & In1 & I). simpl in I. destruct o as [i|]; [|easy]. destruct I as [I|[]]. inversion I; subst. eauto.
Qed.

Lemma loop_step k m acc : k < length sorted -> noclash k -> loop_inv k m acc ->
  exists m' acc', add_com_link k acc m = (m', Ok acc') /\ loop_inv (S k) m' acc'.
Proof.
  intros Lk NC (H & HI & HC). pose proof (rep_wf _ _ _ _ _ _ _ _ H) as W.
  destruct (lt_nth_error _ _ Lk) as ([n o] & Ek). destruct (HI k _ (le_n k) Ek) as (l & El & Einr).
  assert (Enm : l_name l = n).
  { pose proof (rep_names _ _ _ _ _ _ _ _ H) as Nm. assert (X : nth_error (map l_name (links m)) k = Some n).
    { rewrite Nm, nth_error_app1 by (now rewrite map_length). now rewrite nth_error_map', Ek. }
    rewrite nth_error_map', El in X. now inversion X. }
  unfold add_com_link. rewrite bind_get, (bind_lift_ok _ _ _ _ (proj2 (vget_ok _ _ _) El)). simpl in Einr. rewrite Einr.
  pose proof (firstn_S_snoc _ _ _ Ek) as Ef.
  destruct o as [ine|].
  2:{ exists m, acc. split; auto. unfold loop_inv. rewrite Ef. unfold com_links, massive. rewrite !flat_map_app. simpl.
      rewrite !app_nil_r. split; [exact H|]. split; [|exact HC]. intros i ni L E. apply HI; auto. lia. }
  rewrite (wf_ids m W k l El), Enm.
  set (name := (n ++ "_com")%string).
  set (pose := mkPose (V3 (vx (position (in_origin ine))) (vy (position (in_origin ine))) (vz (position (in_origin ine)))) q_clear).
  assert (Epose : pose = mkPose (position (in_origin ine)) q_clear) by (unfold pose; now destruct (position (in_origin ine))).
  assert (Nn : assoc name (link_ids m) = None).
  { apply names_assoc; auto. rewrite (rep_names _ _ _ _ _ _ _ _ H). cbn [as_added]. intros I. apply in_app_iff in I.
    destruct I as [I|I].
    - now apply (NC n ine).
    - apply com_names_in in I. destruct I as (n' & i' & I & E). unfold name in E. apply app_com_inj in E. subst n'.
      apply In_nth_error in I. destruct I as (a & Ea). assert (La : a < k).
      { apply nth_error_lt in Ea. rewrite firstn_length in Ea. lia. }
      assert (Ea' : nth_error sorted a = Some (n, Some i')).
      { rewrite <- (firstn_skipn k sorted), nth_error_app1; auto. rewrite firstn_length; lia. }
      assert (a = k); [|lia]. rewrite NoDup_nth_error in NODUP. apply NODUP; [rewrite map_length; lia|].
      rewrite !nth_error_map', Ea', Ek. reflexivity. }
  destruct (add_new_link_pose_ok name k pose m l W El Nn) as (t & Ea & W' & C' & R').
  rewrite (bind_ok _ _ _ _ _ Ea), bind_get.
  set (m1 := set_rptable t (grown name k pose l m)) in *.
  assert (Elen : length (links m) >= length sorted).
  { rewrite <- (map_length l_name), (rep_names _ _ _ _ _ _ _ _ H), app_length, map_length. lia. }
  assert (E1 : nth_error (links m1) (length (links m)) = Some (new_link name (length (links m)) k pose)) by (apply la_new; auto).
  assert (E2 : nth_error (links m1) k = Some (push_child (length (links m)) l)).
  { unfold m1. cbn [links set_rptable grown set_tcache set_links]. rewrite (la_old name k pose (links m) l El k l El). now rewrite Nat.eqb_refl. }
  rewrite (bind_lift_ok _ _ _ _ (proj2 (vget_ok _ _ _) E1)), (bind_lift_ok _ _ _ _ (proj2 (vget_ok _ _ _) E2)).
  assert (Ll : length (links m1) = S (length (links m))) by (apply la_length; auto).
  rewrite (bind_lift_ok _ _ _ _ (vset_lt (links m1) (length (links m)) _ ltac:(lia))).
  set (ls1 := list_set (links m1) (length (links m)) (set_inertial (Some (reset_origin ine)) (new_link name (length (links m)) k pose))).
  assert (Ll1 : length ls1 = S (length (links m))) by (unfold ls1; rewrite list_set_length; auto).
  rewrite (bind_lift_ok _ _ _ _ (vset_lt ls1 k _ ltac:(lia))), bind_put.
  set (ls2 := list_set ls1 k (set_inertial (Some (reset_origin ine)) (push_child (length (links m)) l))).
  eexists _, _. split; [reflexivity|].
  assert (Q1 : eqi (links m1) ls1) by (apply eqi_set; auto).
  assert (E2' : nth_error ls1 k = Some (push_child (length (links m)) l)).
  { unfold ls1. rewrite nth_error_list_set_ne by lia. exact E2. }
  assert (Q2 : eqi (links m1) ls2) by (eapply eqi_trans; [exact Q1 | apply eqi_set; auto]).
  unfold loop_inv. rewrite Ef. cbn [links set_links link_ids].
  assert (Eold : forall i x, i <> k -> nth_error (links m) i = Some x -> nth_error ls2 i = Some x).
  { intros i x D E. unfold ls2, ls1. rewrite nth_error_list_set_ne by auto.
    assert (i < length (links m)) by (eapply nth_error_lt; eauto). rewrite nth_error_list_set_ne by lia.
    unfold m1. cbn [links set_rptable grown set_tcache set_links]. rewrite (la_old name k pose (links m) l El i x E).
    destruct (Nat.eqb_spec k i); [congruence|]. reflexivity. }
  split; [|split].
  - apply eqi_Rep; auto.
    replace (mkAS (com_links (firstn k sorted ++ [(n, Some ine)])) angles pose_clear)
      with (mkAS (as_added (mkAS (com_links (firstn k sorted)) angles pose_clear) ++ [(name, l_name l, pose)])
              (as_angles (mkAS (com_links (firstn k sorted)) angles pose_clear))
              (as_base (mkAS (com_links (firstn k sorted)) angles pose_clear))).
    + apply add_Rep; auto.
    + cbn [as_added as_angles as_base]. f_equal. unfold com_links. rewrite flat_map_app. simpl. now rewrite Enm, Epose.
  - intros i ni L E. destruct (HI i ni ltac:(lia) E) as (x & Ex & Ei). exists x. split; auto. apply Eold; auto. lia.
  - unfold massive. rewrite flat_map_app. apply Forall2_app.
    + eapply Forall2_impl'; [|exact HC]. intros id ni (Lid & x & X1 & X2 & X3). split; auto. exists x. split; auto. apply Eold; auto. lia.
    + simpl. constructor; [|constructor]. split; [lia|].
      exists (set_inertial (Some (reset_origin ine)) (new_link name (length (links m)) k pose)).
      split; [|auto]. unfold ls2. rewrite nth_error_list_set_ne by lia. unfold ls1. apply nth_error_list_set_eq. lia.
Qed.

(** a clash makes add_new_link throw *)
Lemma loop_clash k n ine m acc : loop_inv k m acc -> nth_error sorted k = Some (n, Some ine) -> In (n ++ "_com")%string (map fst sorted) ->
  add_com_link k acc m = (m, Throw InvalidArgument).
Proof.
  intros (H & HI & HC) Ek I. pose proof (rep_wf _ _ _ _ _ _ _ _ H) as W.
  destruct (HI k _ (le_n k) Ek) as (l & El & Einr).
  assert (Lk : k < length sorted) by (eapply nth_error_lt; eauto).
  assert (Enm : l_name l = n).
  { pose proof (rep_names _ _ _ _ _ _ _ _ H) as Nm. assert (X : nth_error (map l_name (links m)) k = Some n).
    { rewrite Nm, nth_error_app1 by (now rewrite map_length). now rewrite nth_error_map', Ek. }
    rewrite nth_error_map', El in X. now inversion X. }
  unfold add_com_link. rewrite bind_get, (bind_lift_ok _ _ _ _ (proj2 (vget_ok _ _ _) El)). simpl in Einr. rewrite Einr, Enm.
  unfold add_new_link_pose. unfold bind at 1. rewrite bind_get.
  destruct (assoc (n ++ "_com")%string (link_ids m)) as [x|] eqn:E; [reflexivity|].
  exfalso. apply (names_assoc m _ W) in E. apply E. rewrite (rep_names _ _ _ _ _ _ _ _ H). apply in_app_iff. now left.
Qed.

Lemma loop_all m acc : loop_inv 0 m acc ->
  forall N, N <= length sorted -> (forall k, k < N -> noclash k) -> exists m' acc', for_each (seq 0 N) acc add_com_link m = (m', Ok acc') /\ loop_inv N m' acc'.
Proof.
  intros H. induction N as [|N IH]; intros L NC.
  - exists m, acc. auto.
  - destruct IH as (m1 & acc1 & E1 & H1); [lia | intros k Lk; apply NC; lia |]. rewrite seq_S, for_each_app. simpl.
    rewrite (bind_ok _ _ _ _ _ E1). destruct (loop_step N m1 acc1 ltac:(lia) (NC N ltac:(lia)) H1) as (m2 & acc2 & E2 & H2).
    exists m2, acc2. split; auto. rewrite (bind_ok _ _ _ _ _ E2). reflexivity.
Qed.

End Loop.

(** ** The constructor *)
Lemma ctor_mi_ok R root sorted jall mi : is_tree R root -> ReadsAs R root sorted jall mi ->
  (forall j, In j (r_joints R) -> supported (uj_type j) = true) ->
  (forall n i, In (n, Some i) sorted -> ~ In (n ++ "_com")%string (map fst sorted)) ->
  exists m, ctor_mi (Some mi) = Ok m /\ CacheOK m /\
    Rep R root sorted (jsorted_of jall) (massive sorted) (mass_sum (massive sorted))
        (mkAS (com_links sorted) (repeat n0 (length (jsorted_of jall))) pose_clear) m.
Proof.
  intros T RA SUP NC. unfold ctor_mi.
  replace (forallb _ (mi_joints mi)) with true.
  2:{ symmetry. apply forallb_forall. intros kj I. rewrite (ra_joints _ _ _ _ _ RA) in I. apply in_map_iff in I.
      destruct I as (j & <- & Ij). apply SUP. apply (in_jall R root sorted jall mi RA); exact Ij. }
  cbn [negb]. set (m0 := ctor_members mi).
  pose proof (c_Rep R root sorted jall mi T RA SUP) as H0. fold m0 in H0.
  pose proof (c_length R root sorted jall mi RA) as L0. fold m0 in L0.
  destruct (loop_all R root sorted (jsorted_of jall) (mass_sum (massive sorted)) (repeat n0 (length (jsorted_of jall)))
              (sorted_nodup _ (ra_sorted _ _ _ _ _ RA)) m0 []) with (N := length sorted) as (m1 & ids & E1 & H1 & H2 & H3); auto.
  2:{ intros k _ n i E. apply NC with i. eapply nth_error_In; eauto. }
  { unfold loop_inv. cbn [firstn com_links massive flat_map]. split; [exact H0|]. split; [|constructor].
    intros i ni _ E. eapply c_inertial; eauto. }
  rewrite L0, (bind_ok _ _ _ _ _ E1), bind_get, bind_put. rewrite firstn_all in H1, H3.
  eexists. split; [reflexivity|].
  assert (HF : Rep R root sorted (jsorted_of jall) (massive sorted) (mass_sum (massive sorted))
                (mkAS (com_links sorted) (repeat n0 (length (jsorted_of jall))) pose_clear) (set_base pose_clear (set_com_links ids m1))).
  { pose proof (rep_wf _ _ _ _ _ _ _ _ H1) as W1.
    constructor; cbn [links set_links joints joint_angles base_pose rptable tstack com_dummy_links total_mass set_base set_com_links as_added as_angles as_base]; try apply H1.
    - destruct W1. constructor; simpl; auto. intros i I.
      clear - H3 I. induction H3 as [|id ni ids' ms' (_ & l & E1 & E2 & E3) F IH]; [easy|]. destruct I as [<-|I]; eauto.
    - reflexivity.
    - eapply Forall2_impl'; [|exact H3]. intros id ni (_ & l & X1 & X2 & X3). exists l, (reset_origin (snd ni)). auto. }
  split.
  - apply (CacheOK_clear _ (rep_wf _ _ _ _ _ _ _ _ HF)).
  - apply (Rep_clear _ _ _ _ _ _ _ _ HF).
Qed.

(** ** A link called like the centre-of-mass link of another one *)
Lemma first_clash (sorted : list (string * option Inertial)) n i : In (n, Some i) sorted -> In (n ++ "_com")%string (map fst sorted) ->
  exists k n' i', (forall k', k' < k -> noclash sorted k') /\ nth_error sorted k = Some (n', Some i') /\ In (n' ++ "_com")%string (map fst sorted).
Proof.
  intros I C. apply In_nth_error in I. destruct I as (k & E). revert n i E C. induction k as [k IH] using lt_wf_ind. intros n i E C.
  destruct (existsb (fun k' => match nth_error sorted k' with Some (n', Some _) => if in_dec string_dec (n' ++ "_com")%string (map fst sorted) then true else false | _ => false end) (seq 0 k)) eqn:B.
  - apply existsb_exists in B. destruct B as (k' & Ik & B). apply in_seq in Ik. destruct (nth_error sorted k') as [[n' [i'|]]|] eqn:E'; try discriminate.
    destruct (in_dec string_dec (n' ++ "_com")%string (map fst sorted)) as [C'|]; [|discriminate]. apply (IH k' ltac:(lia) n' i' E' C').
  - exists k, n, i. split; [|auto]. intros k' Lk n' i' E' C'.
    assert (T : existsb (fun k' => match nth_error sorted k' with Some (n', Some _) => if in_dec string_dec (n' ++ "_com")%string (map fst sorted) then true else false | _ => false end) (seq 0 k) = true).
    { apply existsb_exists. exists k'. split; [apply in_seq; lia|]. rewrite E'. destruct (in_dec string_dec (n' ++ "_com")%string (map fst sorted)); [reflexivity | contradiction]. }
    congruence.
Qed.

Lemma ctor_mi_clash R root sorted jall mi n i : is_tree R root -> ReadsAs R root sorted jall mi ->
  (forall j, In j (r_joints R) -> supported (uj_type j) = true) ->
  In (n, Some i) sorted -> In (n ++ "_com")%string (map fst sorted) -> ctor_mi (Some mi) = Throw InvalidArgument.
Proof.
  intros T RA SUP I C. destruct (first_clash sorted n i I C) as (k & n' & i' & NC & Ek & Ck). unfold ctor_mi.
  replace (forallb _ (mi_joints mi)) with true.
  2:{ symmetry. apply forallb_forall. intros kj Ij. rewrite (ra_joints _ _ _ _ _ RA) in Ij. apply in_map_iff in Ij.
      destruct Ij as (j & <- & Ij). apply SUP. apply (in_jall R root sorted jall mi RA); exact Ij. }
  cbn [negb]. set (m0 := ctor_members mi).
  pose proof (c_Rep R root sorted jall mi T RA SUP) as H0. fold m0 in H0.
  pose proof (c_length R root sorted jall mi RA) as L0. fold m0 in L0. rewrite L0.
  assert (Lk : k < length sorted) by (eapply nth_error_lt; eauto).
  destruct (loop_all R root sorted (jsorted_of jall) (mass_sum (massive sorted)) (repeat n0 (length (jsorted_of jall)))
              (sorted_nodup _ (ra_sorted _ _ _ _ _ RA)) m0 []) with (N := k) as (m1 & ids & E1 & H1); auto; [|lia|].
  { unfold loop_inv. cbn [firstn com_links massive flat_map]. split; [exact H0|]. split; [|constructor].
    intros x ni _ E. eapply c_inertial; eauto. }
  pose proof (loop_clash R root sorted (jsorted_of jall) (mass_sum (massive sorted)) (repeat n0 (length (jsorted_of jall))) k n' i' m1 ids H1 Ek Ck) as E2.
  assert (E3 : for_each (seq 0 (length sorted)) [] add_com_link m0 = (m1, Throw InvalidArgument)).
  { replace (length sorted) with (k + S (length sorted - S k)) by lia. rewrite seq_app, for_each_app, (bind_ok _ _ _ _ _ E1).
    cbn [seq plus for_each]. unfold bind. now rewrite E2. }
  unfold bind at 1. now rewrite E3.
Qed.

End Ctor.
