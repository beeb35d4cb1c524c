(** From a document that loads in exact arithmetic to the poses computed in rounded arithmetic. *)
From Coq Require Import QArith Qreals Reals Lra Lia String List Psatz Permutation Sorted Bool.
From Verif Require Import Base Num Pose DataStructure Urdf Kin Wrapper Decimal RealArith FloatArith Spec_Robot Spec_Hist Spec_Load Spec_Float
  Pf_Urdf Pf_Reach Pf_Real Pf_Rot Pf_BaseD Pf_Float1 Pf_Float2 Pf_Float3 Pf_Float4.
Import ListNotations.
Local Open Scope R_scope.

Lemma Forall2_in_r {B C} (P : B -> C -> Prop) l l' : Forall2 P l l' -> forall y, In y l' -> exists x, In x l /\ P x y.
Proof. intros F. induction F as [|a b l l' H F IH]; intros y; [easy|]. intros [<-|I]; [exists a; simpl; auto|]. destruct (IH y I) as (x & Ix & Hx). exists x. simpl; auto. Qed.
Lemma Forall2_in_l {B C} (P : B -> C -> Prop) l l' : Forall2 P l l' -> forall x, In x l -> exists y, In y l' /\ P x y.
Proof. intros F. induction F as [|a b l l' H F IH]; intros y; [easy|]. intros [<-|I]; [exists b; simpl; auto|]. destruct (IH y I) as (x & Ix & Hx). exists x. simpl; auto. Qed.
Lemma Forall2_map_eq {B C D} (P : B -> C -> Prop) (f : B -> D) (g : C -> D) l l' : (forall a b, P a b -> f a = g b) -> Forall2 P l l' -> map f l = map g l'.
Proof. intros H F. induction F as [|a b l l' Hab F IH]; [reflexivity|]. cbn [map]. now rewrite (H _ _ Hab), IH. Qed.

Section Transfer.
Variable o : Ops.
Variable u : R.
Hypothesis Hacc : accurate o u.
Hypothesis Hu : 0 <= u <= / 1000.
Variables A L : R.
Hypothesis HA : 0 <= A.
Hypothesis HL : 1 <= L.
Hypothesis Hw : unit_err u A <= / 10000.
Notation w := (unit_err u A).
Notation e := (1000 * unit_err u A).

Section Doc.
Variables (R : @Robot (FA o)) (E : @Robot RA).
Hypothesis HJ : Forall2 (joint_near o e L) (r_joints R) (r_joints E).
Hypothesis HK : Forall2 (link_near o u A L) (r_links R) (r_links E).

Lemma names_eq : link_names R = link_names E.
Proof. unfold link_names. apply (Forall2_map_eq _ _ _ _ _ (fun a b H => proj1 H) HK). Qed.

Lemma tree_both root : is_tree E root -> is_tree R root.
Proof.
  intros T. assert (N := names_eq).
  assert (J1 : map uj_name (r_joints R) = map uj_name (r_joints E)) by (apply (Forall2_map_eq _ _ _ _ _ (fun a b H => jn_name _ _ _ _ _ H) HJ)).
  assert (J2 : map uj_child (r_joints R) = map uj_child (r_joints E)) by (apply (Forall2_map_eq _ _ _ _ _ (fun a b H => jn_child _ _ _ _ _ H) HJ)).
  constructor.
  - rewrite N. apply T.
  - rewrite J1. apply T.
  - intros j I. destruct (Forall2_in_l _ _ _ HJ j I) as (j' & I' & H). rewrite N, (jn_parent _ _ _ _ _ H), (jn_child _ _ _ _ _ H). now apply T.
  - rewrite N. apply T.
  - intros j I. destruct (Forall2_in_l _ _ _ HJ j I) as (j' & I' & H). rewrite (jn_child _ _ _ _ _ H). now apply T.
  - rewrite J2. apply T.
  - intros n I. rewrite N in I. pose proof (tree_connected _ _ T n I) as C. clear - C HJ.
    induction C as [|j' I C IH]; [constructor|]. destruct (Forall2_in_r _ _ _ HJ j' I) as (j & Ij & H).
    rewrite <- (jn_child _ _ _ _ _ H). constructor; [exact Ij|]. now rewrite (jn_parent _ _ _ _ _ H).
Qed.

Lemma ends_both : ends_named E -> ends_named R.
Proof. intros T j I. destruct (Forall2_in_l _ _ _ HJ j I) as (j' & I' & H). rewrite (jn_parent _ _ _ _ _ H), (jn_child _ _ _ _ _ H). now apply T. Qed.
Lemma supported_both : (forall j, In j (r_joints E) -> is_supported (uj_type j)) -> forall j, In j (r_joints R) -> is_supported (uj_type j).
Proof. intros T j I. destruct (Forall2_in_l _ _ _ HJ j I) as (j' & I' & H). rewrite (jn_type _ _ _ _ _ H). now apply T. Qed.
Lemma com_both : (forall n i, In (n, Some i) (r_links E) -> ~ In (n ++ "_com")%string (link_names E)) ->
  forall n i, In (n, Some i) (r_links R) -> ~ In (n ++ "_com")%string (link_names R).
Proof.
  intros T n i I. rewrite names_eq. destruct (Forall2_in_l _ _ _ HK _ I) as ([n' [i'|]] & I' & H1 & H2); cbn in H1, H2; [|contradiction]. subst n'. eapply T; eauto.
Qed.

Lemma sorted_both sorted sorted' : Permutation sorted (r_links R) -> StronglySorted name_lt (map fst sorted) ->
  Permutation sorted' (r_links E) -> StronglySorted name_lt (map fst sorted') -> Forall2 (link_near o u A L) sorted sorted'.
Proof.
  intros P S P' S'. destruct (Permutation_Forall2 (Permutation_sym P) HK) as (l & Pl & F).
  assert (Em : map fst sorted = map fst l) by (apply (Forall2_map_eq _ _ _ _ _ (fun a b H => proj1 H) F)).
  assert (sorted' = l); [|now subst]. apply (sorted_perm_unique fst); [exact S' | now rewrite <- Em|].
  eapply Permutation_trans; [exact P'|exact Pl].
Qed.
Lemma jnames_both sorted sorted' jsorted jsorted' : ordered R sorted jsorted -> ordered E sorted' jsorted' -> jnames jsorted = jnames jsorted'.
Proof.
  intros O O'. unfold jnames. apply sorted_unique_names; [apply O | apply O'|]. intros n. split; intros I; apply in_map_iff in I; destruct I as (j & <- & I).
  - apply (ord_joints _ _ _ O) in I. destruct I as [I M]. destruct (Forall2_in_l _ _ _ HJ j I) as (j' & I' & H).
    rewrite (jn_name _ _ _ _ _ H). apply in_map. apply (ord_joints _ _ _ O'). split; [exact I'|]. now rewrite <- (jn_type _ _ _ _ _ H).
  - apply (ord_joints _ _ _ O') in I. destruct I as [I M]. destruct (Forall2_in_r _ _ _ HJ j I) as (j' & I' & H).
    rewrite <- (jn_name _ _ _ _ _ H). apply in_map. apply (ord_joints _ _ _ O). split; [exact I'|]. now rewrite (jn_type _ _ _ _ _ H).
Qed.

Lemma initial_near sorted sorted' jsorted jsorted' : Forall2 (link_near o u A L) sorted sorted' -> jnames jsorted = jnames jsorted' ->
  (forall n i, In (n, Some i) sorted' -> vlen (position (in_origin i)) <= L) ->
  state_near o u A L (initial sorted jsorted) (initial sorted' jsorted').
Proof.
  intros F J M. split; cbn [initial as_added as_angles as_base].
  - clear J. induction F as [|[n i] [n' i'] l l' [H1 H2] F IH]; [constructor|]. cbn in H1, H2. subst n'.
    unfold com_links in *. cbn [flat_map snd fst]. apply Forall2_app; [|apply IH; intros; eapply M; right; eassumption].
    destruct i as [i|], i' as [i'|]; cbn in H2; try contradiction; [|constructor]. constructor; [|constructor].
    split; [reflexivity|]. cbn [snd]. specialize (M n i' (or_introl eq_refl)). rewrite vlen_nv in M. apply proj2 in H2. specialize (H2 M).
    destruct (e_facts u Hu A L HA HL) as (U0 & U1 & W0 & UL & U2).
    apply (near_of o u A L (4 * u) (e * L)); cbn [position rotation]; auto; try lra; [exact clear_unit|].
    split; cbn [position rotation]; [exact (proj1 (clear_near o u Hacc Hu))|exact H2].
  - assert (Le : List.length jsorted = List.length jsorted') by (rewrite <- (map_length uj_name jsorted), <- (map_length uj_name jsorted'); f_equal; exact J).
    rewrite Le. change (@n0 (FA o)) with (o_lit o 0%Q). rewrite (acc_zero _ _ Hacc). change (@n0 RA) with (Q2R 0). now rewrite Q2R_0.
  - now apply clear_pose_near.
Qed.
End Doc.

Lemma load_both tinyxml text top E root : tinyxml text = Some top -> loadable tinyxml text E root -> moderate A L top E ->
  exists R, @loadable (FA o) tinyxml text R root /\
    Forall2 (joint_near o e L) (r_joints R) (r_joints E) /\ Forall2 (link_near o u A L) (r_links R) (r_links E).
Proof.
  intros Et [H1 H2 H3 H4 H5 H6] M.
  destruct (proj2 (read_both o u Hacc Hu A L HA HL Hw top) (ex_intro _ E (md_reads _ _ _ _ M))) as (R & D).
  destruct (moderate_near o u Hacc Hu A L HA HL Hw top R E D M) as [HJ HK]. exists R. split; [|now split]. constructor.
  - exact H1.
  - exists top. now split.
  - eapply tree_both; eauto.
  - eapply ends_both; eauto.
  - eapply supported_both; eauto.
  - eapply com_both; eauto.
Qed.

(** the poses of near states *)
Lemma pose_both_full R E root jsorted jsorted' s s' D n P :
  Forall2 (joint_near o e L) (r_joints R) (r_joints E) -> jnames jsorted = jnames jsorted' -> state_near o u A L s s' ->
  within_range A L (r_joints E) (by_name (jnames jsorted') (as_angles s')) ->
  (forall n d, levels (r_joints E) root (as_added s') n d -> (d <= D)%nat) ->
  4000000 * u * (1 + A) * (INR D + 1) <= 1 ->
  pose_at R root jsorted s n P ->
  exists P', pose_at E root jsorted' s' n P' /\ unit_q (rotation P') /\ nv (position P') <= 2 * (L * (INR D + 1)) /\
    qdist o (rotation P) (rotation P') <= 150000 * u * (1 + A) * (INR D + 1) /\
    vdist o (position P) (position P') <= 4000000 * u * (1 + A) * L * (INR D + 1) ^ 2.
Proof.
  intros HJ EJ S W HD B HP. pose proof (pos_INR D) as D0. assert (W0 : 0 <= w) by (unfold unit_err; apply Rmult_le_pos; lra).
  assert (G : gain u e A = 1001 * w) by (unfold gain, unit_err; ring).
  assert (wD : 0 <= w * INR D) by (apply Rmult_le_pos; lra).
  assert (B' : 4000000 * (w * INR D + w) <= 1) by (unfold unit_err in *; lra).
  assert (He : 0 <= e) by lra.
  assert (Hg : gain u e A <= / 1000) by (rewrite G; lra).
  assert (Hq : by_name (jnames jsorted) (as_angles s) = by_name (jnames jsorted') (as_angles s')).
  { rewrite EJ, (sn_angles _ _ _ _ _ _ S). unfold by_name. change (@n0 (FA o)) with (o_lit o 0%Q). rewrite (acc_zero _ _ Hacc).
    change (@n0 RA) with (Q2R 0). rewrite Q2R_0. reflexivity. }
  unfold pose_at in HP. rewrite Hq in HP.
  destruct (round_fk o u Hacc Hu e L A He HL HA Hg (r_joints R) (r_joints E) root (as_added s) (as_added s')
    (by_name (jnames jsorted') (as_angles s')) (as_base s) (as_base s')) with (D := D) (n := n) (P := P) as (d & P' & Hd & F & U & Sz & C); auto.
  - intros j Ij. exact (Forall2_in_l _ _ _ HJ j Ij).
  - intros n' p T I. destruct (Forall2_in_l _ _ _ (sn_added _ _ _ _ _ _ S) _ I) as ([[n1 p1] T'] & I' & H1 & H2).
    cbn [fst snd] in H1, H2. inversion H1; subst. exists T'. now split.
  - apply (sn_base _ _ _ _ _ _ S).
  - rewrite G. lra.
  - exists P'. split; [exact F|]. assert (Ld : INR d <= INR D) by (apply le_INR; eapply HD; eauto). pose proof (pos_INR d) as d0.
    split; [exact U|]. split. { assert (L * INR d <= L * INR D) by (apply Rmult_le_compat_l; lra). lra. }
    destruct C as [C1 C2]. rewrite qdist_dist, vdist_dv. rewrite G in C1, C2. split.
    + eapply Rle_trans; [exact C1|]. assert (w * INR d <= w * INR D) by (apply Rmult_le_compat_l; lra).
      replace (150000 * u * (1 + A) * (INR D + 1)) with (150000 * (w * INR D + w)) by (unfold unit_err; ring). lra.
    + eapply Rle_trans; [exact C2|]. replace (4000000 * u * (1 + A) * L * (INR D + 1) ^ 2) with (4000000 * w * L * (INR D + 1) ^ 2) by (unfold unit_err; ring).
      assert (wL : 0 <= w * L) by (apply Rmult_le_pos; lra).
      apply Rmult_le_compat; [lra | apply pow_le; lra | lra | apply pow_incr; lra].
Qed.
Lemma pose_both R E root jsorted jsorted' s s' D n P :
  Forall2 (joint_near o e L) (r_joints R) (r_joints E) -> jnames jsorted = jnames jsorted' -> state_near o u A L s s' ->
  within_range A L (r_joints E) (by_name (jnames jsorted') (as_angles s')) ->
  (forall n d, levels (r_joints E) root (as_added s') n d -> (d <= D)%nat) ->
  4000000 * u * (1 + A) * (INR D + 1) <= 1 ->
  pose_at R root jsorted s n P ->
  exists P', pose_at E root jsorted' s' n P' /\
    qdist o (rotation P) (rotation P') <= 150000 * u * (1 + A) * (INR D + 1) /\
    vdist o (position P) (position P') <= 4000000 * u * (1 + A) * L * (INR D + 1) ^ 2.
Proof.
  intros HJ EJ S W HD B HP. destruct (pose_both_full _ _ _ _ _ _ _ _ _ _ HJ EJ S W HD B HP) as (P' & H1 & _ & _ & H2). exists P'. now split.
Qed.
End Transfer.

Lemma clean_both o e A L ops ops' : Forall2 (same_call o e A L) ops ops' -> clean ops = clean ops'.
Proof.
  intros F. unfold clean. generalize true. induction F as [|c c' ops ops' C F IH]; intros b; [reflexivity|].
  cbn [fold_left]. rewrite IH. f_equal. destruct C; reflexivity.
Qed.
