(** From indices to names: poses, depths and ancestors of the model are those of the
    specification. *)
From Coq Require Import String List Arith Lia Bool.
From Verif Require Import Base Num Pose DataStructure Urdf Kin Spec_Robot Spec_Hist Spec_Load Pf_Base Pf_Data Inv Pf_FK Pf_Rp Rep.
Import ListNotations.

Section Name.
Context `{A : Arith}.

Lemma same_joint_names l l' : Forall2 same_joint l l' -> map uj_name l = map j_name l'.
Proof. intros F; induction F as [|j J l l' S F IH]; simpl; auto. rewrite IH. f_equal. symmetry. apply (sj_name _ _ S). Qed.

Variables (R : Robot) (root : string) (sorted : list (string * option Inertial)) (jsorted : list UJoint) (ms : list (string * Inertial)) (mass : num).
Variables (s : AState) (m : KM).
Hypothesis HR : Rep R root sorted jsorted ms mass s m.
Notation js := (r_joints R).
Notation added := (as_added s).
Notation q := (by_name (jnames jsorted) (as_angles s)).
Notation base := (as_base s).

Let W : WF m := rep_wf _ _ _ _ _ _ _ _ HR.
Let NM := rep_named _ _ _ _ _ _ _ _ HR.

Lemma name_inj i1 i2 l1 l2 : nth_error (links m) i1 = Some l1 -> nth_error (links m) i2 = Some l2 ->
  l_name l1 = l_name l2 -> i1 = i2.
Proof.
  intros E1 E2 En. pose proof (wf_link_names m W) as N. rewrite NoDup_nth_error in N. apply N.
  - rewrite map_length. eapply nth_error_lt; eauto.
  - rewrite !nth_error_map', E1, E2. simpl. now rewrite En.
Qed.

Lemma Forall2_nth {B C} (P : B -> C -> Prop) l l' k c : Forall2 P l l' -> nth_error l' k = Some c ->
  exists b, nth_error l k = Some b /\ P b c.
Proof.
  intros F; revert k; induction F; intros [|k] E; simpl in *; try discriminate.
  - inversion E; subst. eauto. - auto.
Qed.
Lemma Forall2_nth_l {B C} (P : B -> C -> Prop) l l' k b : Forall2 P l l' -> nth_error l k = Some b ->
  exists c, nth_error l' k = Some c /\ P b c.
Proof.
  intros F; revert k; induction F; intros [|k] E; simpl in *; try discriminate.
  - inversion E; subst. eauto. - auto.
Qed.

Lemma assoc_combine_nth {B} (ns : list string) (vs : list B) k n v : NoDup ns ->
  nth_error ns k = Some n -> nth_error vs k = Some v -> assoc n (combine ns vs) = Some v.
Proof.
  revert vs k; induction ns as [|x ns IH]; intros vs k N En Ev; [destruct k; discriminate|].
  inversion N as [|? ? Nx N']; subst. destruct vs as [|y vs]; [destruct k; discriminate|].
  destruct k as [|k]; simpl in *.
  - inversion En; inversion Ev; subst. now rewrite String.eqb_refl.
  - destruct (String.eqb_spec n x) as [->|D]; [|eauto]. apply nth_error_In in En. easy.
Qed.

Lemma jnames_nodup : NoDup (jnames jsorted) /\ jnames jsorted = map j_name (joints m).
Proof.
  assert (E : jnames jsorted = map j_name (joints m)).
  { unfold jnames. apply same_joint_names. apply HR. }
  split; auto. rewrite E. apply W.
Qed.

Lemma by_name_nth k j : nth_error jsorted k = Some j -> exists a, nth_error (as_angles s) k = Some a /\ q (uj_name j) = a.
Proof.
  intros E. destruct jnames_nodup as [N En].
  assert (L : k < length (as_angles s)).
  { rewrite <- (rep_angles _ _ _ _ _ _ _ _ HR), (wf_angles m W).
    rewrite <- (map_length j_name), <- En. unfold jnames. rewrite map_length. eapply nth_error_lt; eauto. }
  destruct (lt_nth_error _ _ L) as (a & Ea). exists a. split; auto. unfold by_name.
  rewrite (assoc_combine_nth _ _ k _ a N); auto. unfold jnames. rewrite nth_error_map', E. reflexivity.
Qed.

Lemma tf_motion i l p j J : In j js -> nth_error (links m) i = Some l -> l_parent l = Some p -> l_pjoint l = Some J ->
  same_joint j J -> tf_plink_to_hlink m J = Ok (motion j (q (uj_name j))).
Proof.
  intros Ij El Ep EJ S. destruct (wf_joint m W i l p El Ep) as (J' & EJ' & HJ). rewrite EJ in EJ'. inversion EJ'; subst J'.
  pose proof (rep_jok _ _ _ _ _ _ _ _ HR j Ij) as Sup.
  unfold tf_plink_to_hlink, motion. rewrite (sj_type _ _ S) in *. destruct HJ as [Hf|(Hm & _ & k & Ek & En)].
  - rewrite (sj_type _ _ S) in Hf. rewrite Hf. now rewrite (sj_origin _ _ S).
  - rewrite (sj_type _ _ S) in Hm.
    destruct (Forall2_nth _ _ _ _ _ (rep_joints _ _ _ _ _ _ _ _ HR) En) as (j' & Ej' & S').
    assert (uj_name j' = uj_name j) as Enm by (rewrite <- (sj_name _ _ S), <- (sj_name _ _ S'); auto).
    destruct (by_name_nth k j' Ej') as (a & Ea & Eq). rewrite Enm in Eq.
    rewrite Ek, Eq. cbn [rbind]. rewrite (rep_angles _ _ _ _ _ _ _ _ HR), (proj2 (vget_ok _ _ _) Ea).
    cbn [rbind]. unfold joint_transform. rewrite (sj_type _ _ S), (sj_axis _ _ S), (sj_origin _ _ S).
    destruct (uj_type j); simpl in Hm; try discriminate; reflexivity.
Qed.

Lemma fk_PoseOf n P : fk js root added q base n P ->
  exists i l, nth_error (links m) i = Some l /\ l_name l = n /\ PoseOf m i P.
Proof.
  intros H. induction H as [| j P Ij H IH | n p T P Ia H IH].
  - destruct (nm_root _ _ _ _ NM) as (i & l & E1 & E2 & E3). exists i, l. repeat split; auto.
    rewrite <- (rep_base _ _ _ _ _ _ _ _ HR). eapply pose_of_root; eauto.
  - destruct IH as (pi & pl & Ep & Epn & HP).
    destruct (nm_joint _ _ _ _ NM j Ij) as (i & J & (l & p & lp & E1 & E2 & E3 & E4 & E5 & E6) & S).
    assert (p = pi) by (eapply name_inj; eauto; congruence). subst p.
    exists i, l. repeat split; auto. apply (pose_of_step _ _ _ i l pi J _ P); auto. eapply (tf_motion i l pi); eauto.
  - destruct IH as (pi & pl & Ep & Epn & HP).
    destruct (nm_added _ _ _ _ NM n p T Ia) as (i & (l & p' & lp & E1 & E2 & E3 & E4 & E5 & E6)).
    assert (p' = pi) by (eapply name_inj; eauto; congruence). subst p'.
    exists i, l. repeat split; auto. now apply (pose_of_step _ _ _ i l pi (fixed_joint T) _ P).
Qed.

Lemma PoseOf_fk i l P : nth_error (links m) i = Some l -> PoseOf m i P -> fk js root added q base (l_name l) P.
Proof.
  intros El H. revert l El. induction H as [i l' E1 E2 | i l' p J t P E1 E2 E3 E4 H IH]; intros l El;
    assert (l' = l) by congruence; subst l'.
  - destruct (nm_kind _ _ _ _ NM i l El) as [(_ & ->)|[(j & J & _ & _ & (l1 & p & lp & X1 & _ & X3 & _) & _)|(pn & T & _ & (l1 & p & lp & X1 & _ & X3 & _))]]; try congruence.
    rewrite (rep_base _ _ _ _ _ _ _ _ HR). apply fk_root.
  - destruct (nm_kind _ _ _ _ NM i l El) as [(X & _)|[(j & J1 & Ij & Ec & (l1 & p1 & lp & X1 & X2 & X3 & X4 & X5 & X6) & S)|(pn & T & Ia & (l1 & p1 & lp & X1 & X2 & X3 & X4 & X5 & X6))]]; try congruence;
      assert (l1 = l) by congruence; subst l1; assert (p1 = p) by congruence; subst p1.
    + assert (J1 = J) by congruence; subst J1. rewrite (tf_motion i l p j J) in E4; auto. inversion E4; subst t.
      rewrite <- Ec. apply fk_joint; auto. rewrite <- X5. now apply IH.
    + assert (J = fixed_joint T) by congruence. subst J. inversion E4; subst t. eapply fk_added; eauto.
      rewrite <- X5. now apply IH.
Qed.

Lemma fk_iff i l P : nth_error (links m) i = Some l -> (PoseOf m i P <-> fk js root added q base (l_name l) P).
Proof.
  intros El. split; [now apply PoseOf_fk|]. intros H. destruct (fk_PoseOf _ _ H) as (i' & l' & E1 & E2 & HP).
  assert (i' = i) by (eapply name_inj; eauto). now subst.
Qed.

Lemma fk_det n P1 P2 : fk js root added q base n P1 -> fk js root added q base n P2 -> P1 = P2.
Proof.
  intros H1 H2. destruct (fk_PoseOf _ _ H1) as (i & l & E1 & E2 & HP1). destruct (fk_PoseOf _ _ H2) as (i' & l' & E1' & E2' & HP2).
  assert (i' = i) by (eapply name_inj; eauto; congruence). subst i'. eapply pose_of_det; eauto.
Qed.

Lemma levels_iff i l d : nth_error (links m) i = Some l -> (Depth (links m) i d <-> levels js root added (l_name l) d).
Proof.
  intros El. split.
  - intros H. revert l El. induction H as [i l' E1 E2 | i l' p d E1 E2 H IH]; intros l El; assert (l' = l) by congruence; subst l'.
    + destruct (nm_kind _ _ _ _ NM i l El) as [(_ & ->)|[(j & J & _ & _ & (l1 & p & lp & X1 & _ & X3 & _) & _)|(pn & T & _ & (l1 & p & lp & X1 & _ & X3 & _))]]; try congruence.
      apply levels_root.
    + destruct (nm_kind _ _ _ _ NM i l El) as [(X & _)|[(j & J1 & Ij & Ec & (l1 & p1 & lp & X1 & X2 & X3 & X4 & X5 & X6) & S)|(pn & T & Ia & (l1 & p1 & lp & X1 & X2 & X3 & X4 & X5 & X6))]]; try congruence;
        assert (l1 = l) by congruence; subst l1; assert (p1 = p) by congruence; subst p1.
      * rewrite <- Ec. apply levels_joint; auto. rewrite <- X5. now apply IH.
      * eapply levels_added; eauto. rewrite <- X5. now apply IH.
  - intros H. assert (X : exists i l', nth_error (links m) i = Some l' /\ l_name l' = l_name l /\ Depth (links m) i d).
    { clear El. revert H. generalize (l_name l) as n. intros n H. induction H as [| j d Ij H IH | n p T d Ia H IH].
      - destruct (nm_root _ _ _ _ NM) as (i' & l' & E1 & E2 & E3). exists i', l'. repeat split; auto. eapply Depth_root; eauto.
      - destruct IH as (pi & pl & Ep & Epn & HP).
        destruct (nm_joint _ _ _ _ NM j Ij) as (i' & J & (l' & p & lp & E1 & E2 & E3 & E4 & E5 & E6) & S).
        assert (p = pi) by (eapply name_inj; eauto; congruence). subst p.
        exists i', l'. repeat split; auto. eapply Depth_step; eauto.
      - destruct IH as (pi & pl & Ep & Epn & HP).
        destruct (nm_added _ _ _ _ NM n p T Ia) as (i' & (l' & p' & lp & E1 & E2 & E3 & E4 & E5 & E6)).
        assert (p' = pi) by (eapply name_inj; eauto; congruence). subst p'.
        exists i', l'. repeat split; auto. eapply Depth_step; eauto. }
    destruct X as (i' & l' & E1 & E2 & D). assert (i' = i) by (eapply name_inj; eauto). now subst.
Qed.

Lemma carries_Anc j c lc i l : In j js -> nth_error (links m) c = Some lc -> l_name lc = uj_child j ->
  nth_error (links m) i = Some l -> (Anc (links m) c i <-> carries js added j (l_name l)).
Proof.
  intros Ij Ec Ecn El. split.
  - intros H. revert l El. induction H as [L | i l' p E1 E2 H IH]; intros l El.
    + assert (lc = l) by congruence. subst. rewrite Ecn. apply carries_child.
    + assert (l' = l) by congruence; subst l'.
      destruct (nm_kind _ _ _ _ NM i l El) as [(X & _)|[(j' & J1 & Ij' & Ec' & (l1 & p1 & lp & X1 & X2 & X3 & X4 & X5 & X6) & S)|(pn & T & Ia & (l1 & p1 & lp & X1 & X2 & X3 & X4 & X5 & X6))]]; try congruence;
        assert (l1 = l) by congruence; subst l1; assert (p1 = p) by congruence; subst p1.
      * rewrite <- Ec'. apply carries_joint; auto. rewrite <- X5. now apply IH.
      * eapply carries_added; eauto. rewrite <- X5. now apply IH.
  - intros H. assert (X : exists i l', nth_error (links m) i = Some l' /\ l_name l' = l_name l /\ Anc (links m) c i).
    { clear El. revert H. generalize (l_name l) as n. intros n H. induction H as [| j' Ij' H IH | n p T Ia H IH].
      - exists c, lc. repeat split; auto. apply Anc_refl. eapply nth_error_lt; eauto.
      - destruct IH as (pi & pl & Ep & Epn & HP).
        destruct (nm_joint _ _ _ _ NM j' Ij') as (i' & J & (l' & p & lp & E1 & E2 & E3 & E4 & E5 & E6) & S).
        assert (p = pi) by (eapply name_inj; eauto; congruence). subst p.
        exists i', l'. repeat split; auto. eapply Anc_step; eauto.
      - destruct IH as (pi & pl & Ep & Epn & HP).
        destruct (nm_added _ _ _ _ NM n p T Ia) as (i' & (l' & p' & lp & E1 & E2 & E3 & E4 & E5 & E6)).
        assert (p' = pi) by (eapply name_inj; eauto; congruence). subst p'.
        exists i', l'. repeat split; auto. eapply Anc_step; eauto. }
    destruct X as (i' & l' & E1 & E2 & D). assert (i' = i) by (eapply name_inj; eauto). now subst.
Qed.

End Name.
