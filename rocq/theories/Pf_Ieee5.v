(** From a document that loads exactly to the poses computed with doubles. *)
From Coq Require Import ZArith QArith Qreals Reals Lra Lia String Ascii List Bool Permutation Sorted.
From Flocq Require Import Core BinarySingleNaN.
From Verif Require Import Base Num Pose DataStructure Urdf Kin Wrapper Decimal RealArith FloatArith Ieee Spec_Robot Spec_Hist Spec_Load Spec_Float Spec_Ieee Ex_Float
  Pf_Urdf Rep Pf_Reach Pf_Real Pf_Rot Pf_BaseD Pf_Float1 Pf_Float2 Pf_Float3 Pf_Float4 Pf_Float5 Pf_Ieee1 Pf_Ieee2 Pf_Ieee3 Pf_Ieee4.
Import ListNotations.
Local Open Scope R_scope.

Section Same.
Variable pf : Platform.
Notation o := (ieee pf).
Variables (R : @Robot (DA pf)) (E : @Robot (FA o)).
Hypothesis HJ : Forall2 (joint_sim pf) (r_joints R) (r_joints E).
Hypothesis HK : Forall2 (link_sim pf) (r_links R) (r_links E).

Lemma sim_names : link_names R = link_names E.
Proof. unfold link_names. apply (Forall2_map_eq _ _ _ _ _ (fun a b H => proj1 H) HK). Qed.
Lemma sim_tree root : is_tree E root -> is_tree R root.
Proof.
  intros T. assert (N := sim_names).
  assert (J1 : map uj_name (r_joints R) = map uj_name (r_joints E)) by (apply (Forall2_map_eq _ _ _ _ _ (fun a b H => js_name _ _ _ H) HJ)).
  assert (J2 : map uj_child (r_joints R) = map uj_child (r_joints E)) by (apply (Forall2_map_eq _ _ _ _ _ (fun a b H => js_child _ _ _ H) HJ)).
  constructor.
  - rewrite N. apply T.
  - rewrite J1. apply T.
  - intros j I. destruct (Forall2_in_l _ _ _ HJ j I) as (j' & I' & H). rewrite N, (js_parent _ _ _ H), (js_child _ _ _ H). now apply T.
  - rewrite N. apply T.
  - intros j I. destruct (Forall2_in_l _ _ _ HJ j I) as (j' & I' & H). rewrite (js_child _ _ _ H). now apply T.
  - rewrite J2. apply T.
  - intros n I. rewrite N in I. pose proof (tree_connected _ _ T n I) as C. clear - C HJ.
    induction C as [|j' I C IH]; [constructor|]. destruct (Forall2_in_r _ _ _ HJ j' I) as (j & Ij & H).
    rewrite <- (js_child _ _ _ H). constructor; [exact Ij|]. now rewrite (js_parent _ _ _ H).
Qed.
Lemma sim_loadable tinyxml text top root : tinyxml text = Some top -> @describes (DA pf) top R -> @loadable (FA o) tinyxml text E root -> @loadable (DA pf) tinyxml text R root.
Proof.
  intros Et D [H1 H2 H3 H4 H5 H6]. constructor.
  - exact H1.
  - exists top. now split.
  - now apply sim_tree.
  - intros j I. destruct (Forall2_in_l _ _ _ HJ j I) as (j' & I' & H). rewrite (js_parent _ _ _ H), (js_child _ _ _ H). now apply H4.
  - intros j I. destruct (Forall2_in_l _ _ _ HJ j I) as (j' & I' & H). rewrite (js_type _ _ _ H). now apply H5.
  - intros n i I. rewrite sim_names. destruct (Forall2_in_l _ _ _ HK _ I) as ([n' [i'|]] & I' & G1 & G2); cbn in G1, G2; [|contradiction]. subst n'. eapply H6; eauto.
Qed.
Lemma sim_sorted sorted sorted' : Permutation sorted (r_links R) -> StronglySorted name_lt (map fst sorted) ->
  Permutation sorted' (r_links E) -> StronglySorted name_lt (map fst sorted') -> Forall2 (link_sim pf) sorted sorted'.
Proof.
  intros P S P' S'. destruct (Permutation_Forall2 (Permutation_sym P) HK) as (l & Pl & F).
  assert (Em : map fst sorted = map fst l) by (apply (Forall2_map_eq _ _ _ _ _ (fun a b H => proj1 H) F)).
  assert (sorted' = l); [|now subst]. apply (sorted_perm_unique fst); [exact S' | now rewrite <- Em|].
  eapply Permutation_trans; [exact P'|exact Pl].
Qed.
Lemma sim_jnames sorted sorted' jsorted jsorted' : ordered R sorted jsorted -> ordered E sorted' jsorted' -> jnames jsorted = jnames jsorted'.
Proof.
  intros O O'. unfold jnames. apply sorted_unique_names; [apply O | apply O'|]. intros n. split; intros I; apply in_map_iff in I; destruct I as (j & <- & I).
  - apply (ord_joints _ _ _ O) in I. destruct I as [I M]. destruct (Forall2_in_l _ _ _ HJ j I) as (j' & I' & H).
    rewrite (js_name _ _ _ H). apply in_map. apply (ord_joints _ _ _ O'). split; [exact I'|]. now rewrite <- (js_type _ _ _ H).
  - apply (ord_joints _ _ _ O') in I. destruct I as [I M]. destruct (Forall2_in_r _ _ _ HJ j I) as (j' & I' & H).
    rewrite <- (js_name _ _ _ H). apply in_map. apply (ord_joints _ _ _ O). split; [exact I'|]. now rewrite (js_type _ _ _ H).
Qed.
End Same.

Section Poses.
Variable pf : Platform.
Variable u : R.
Hypothesis Hpf : platform_ok pf u.
Hypothesis Hu1 : double_unit <= u.
Variables A L : R.
Variable D : nat.
Hypothesis HA : 0 <= A.
Hypothesis HL : 1 <= L.
Hypothesis HLb : L <= bpow radix2 900.
Hypothesis HB : 4000000 * u * (1 + A) * (INR D + 1) <= 1.
Notation o := (ieee pf).
Notation w := (unit_err u A).
Notation e := (1000 * unit_err u A).

Lemma wD : 0 <= w * INR D /\ 0 <= w /\ 4000000 * (w * INR D + w) <= 1 /\ u <= w /\ double_unit * INR D <= w * INR D /\ double_unit * A <= w.
Proof.
  pose proof (pos_INR D) as D0. assert (0 <= u) by (unfold double_unit in Hu1; lra). assert (P : 0 <= u * A) by (apply Rmult_le_pos; lra).
  assert (W : u <= w) by (unfold unit_err; lra). assert (0 <= w * INR D) by (apply Rmult_le_pos; lra).
  split; [assumption|]. split; [lra|]. split; [unfold unit_err; lra|]. split; [exact W|]. split; [apply Rmult_le_compat_r; lra|].
  unfold unit_err. assert (double_unit * A <= u * A) by (apply Rmult_le_compat_r; lra). lra.
Qed.
Lemma bpow32 : bpow radix2 32 = 4294967296. Proof. reflexivity. Qed.
Lemma D_small : INR D + 1 <= bpow radix2 32.
Proof. destruct wD as (H1 & H2 & H3 & H4 & H5 & H6). rewrite bpow32. unfold double_unit in *. lra. Qed.
Lemma A_small : A <= bpow radix2 32.
Proof. destruct wD as (H1 & H2 & H3 & H4 & H5 & H6). rewrite bpow32. unfold double_unit in *. lra. Qed.
Lemma Hw : w <= / 10000. Proof. destruct wD as (H1 & H2 & H3 & H4 & H5 & H6). lra. Qed.
Lemma Hu : double_unit <= u <= / 1000. Proof. destruct wD as (H1 & H2 & H3 & H4 & H5 & H6). lra. Qed.
Lemma Hu0 : 0 <= u <= / 1000. Proof. pose proof Hu as H. unfold double_unit in H. lra. Qed.
Lemma Hacc : accurate o u. Proof. exact (ieee_accurate pf u Hpf Hu1). Qed.
Lemma room : 3 * (L * (INR D + 1)) <= bpow radix2 950.
Proof.
  pose proof D_small as HD. pose proof (pos_INR D) as D0. assert (P : L * (INR D + 1) <= bpow radix2 900 * bpow radix2 32) by (apply Rmult_le_compat; lra).
  rewrite <- bpow_plus in P. assert (Q : bpow radix2 (900 + 32 + 2) <= bpow radix2 950) by (apply bpow_le; lia). rewrite bpow_plus in Q. change (bpow radix2 2) with 4 in Q.
  pose proof (bpow_gt_0 radix2 (900 + 32)). lra.
Qed.

Lemma by_name_same names a a' n : same_numbers a a' -> same_number (@by_name (DA pf) names a n) (@by_name (FA o) names a' n).
Proof.
  intros H. unfold by_name. revert names. induction H as [|x r a a' Hx H IH]; intros [|k names]; cbn [combine assoc];
    try (rewrite (proj2 (lit0 pf u Hpf Hu1)); exact (zero_same pf u Hpf Hu)).
  destruct (String.eqb n k); [exact Hx|apply IH].
Qed.

Lemma finite_sim k (P : @Pose (DA pf)) P' : simp pf k P P' -> finite_pose pf P.
Proof.
  intros [(X & Y & Z) (X' & Y' & Z' & W')]. split; [split; [apply X|]; split; [apply Y | apply Z] | split; [apply X'|]; split; [apply Y'|]; split; [apply Z' | apply W']].
Qed.
Lemma v_error_sim k a b c : simv pf k a b -> v_error pf a c = vdist o b c.
Proof. intros ((_ & X & _) & (_ & Y & _) & (_ & Z & _)). unfold v_error, vdist. now rewrite X, Y, Z. Qed.
Lemma q_error_sim k a b c : simq pf k a b -> q_error pf a c = qdist o b c.
Proof. intros ((_ & X & _) & (_ & Y & _) & (_ & Z & _) & (_ & W & _)). unfold q_error, qdist. now rewrite X, Y, Z, W. Qed.

Section Fk.
Variables (R : @Robot (DA pf)) (F : @Robot (FA o)) (E : @Robot RA).
Variables (jso : list (@UJoint (DA pf))) (jsf : list (@UJoint (FA o))) (jse : list (@UJoint RA)).
Variables (s : @AState (DA pf)) (t : @AState (FA o)) (s' : @AState RA).
Variable root : string.
Hypothesis HS : Forall2 (joint_sim pf) (r_joints R) (r_joints F).
Hypothesis HN : Forall2 (joint_near o e L) (r_joints F) (r_joints E).
Hypothesis E1 : jnames jso = jnames jsf.
Hypothesis E2 : jnames jsf = jnames jse.
Hypothesis Ss : state_sim pf s t.
Hypothesis Sn : state_near o u A L t s'.
Hypothesis W : within_range A L (r_joints E) (by_name (jnames jse) (as_angles s')).
Hypothesis HD : forall n d, levels (r_joints E) root (as_added s') n d -> (d <= D)%nat.

Lemma pose_bound n P : pose_at F root jsf t n P ->
  exists P', pose_at E root jse s' n P' /\ unit_q (rotation P') /\ dist (qR o (rotation P)) (rotation P') <= / 20 /\
    nv (position P') + dv (vR o (position P)) (position P') <= 3 * (L * (INR D + 1)) /\
    qdist o (rotation P) (rotation P') <= 150000 * u * (1 + A) * (INR D + 1) /\
    vdist o (position P) (position P') <= 4000000 * u * (1 + A) * L * (INR D + 1) ^ 2.
Proof.
  intros HP. destruct (pose_both_full o u Hacc Hu0 A L HA HL Hw F E root jsf jse t s' D n P HN E2 Sn W HD HB HP) as (P' & H1 & H2 & H3 & H4 & H5).
  exists P'. split; [exact H1|]. split; [exact H2|]. destruct wD as (K1 & K2 & K3 & _). pose proof (pos_INR D) as D0. split; [|split; [|now split]].
  - rewrite qdist_dist in H4. eapply Rle_trans; [exact H4|]. replace (150000 * u * (1 + A) * (INR D + 1)) with (150000 * (w * INR D + w)) by (unfold unit_err; ring). lra.
  - rewrite vdist_dv in H5. replace (4000000 * u * (1 + A) * L * (INR D + 1) ^ 2) with ((4000000 * u * (1 + A) * (INR D + 1)) * (L * (INR D + 1))) in H5 by ring.
    assert (X : 4000000 * u * (1 + A) * (INR D + 1) * (L * (INR D + 1)) <= 1 * (L * (INR D + 1))) by (apply Rmult_le_compat_r; [apply Rmult_le_pos; lra|exact HB]). lra.
Qed.
Lemma fk_sim n P : pose_at R root jso s n P -> exists P', pose_at F root jsf t n P' /\ simp pf 950 P P'.
Proof.
  unfold pose_at. intros H. induction H as [|j P Ij H IH|n p T P Ia H IH].
  - exists (as_base t). split; [constructor|]. destruct (ss_base _ _ _ Ss) as [X Y]. split; [eapply simv_le; [|exact X]; lia|exact Y].
  - destruct IH as (P' & Fk & Sm). destruct (Forall2_in_l _ _ _ HS j Ij) as (j' & Ij' & Hj). destruct (Forall2_in_l _ _ _ HN j' Ij') as (j0 & Ij0 & Nj).
    set (q' := by_name (jnames jsf) (as_angles t)) in *.
    assert (Fk' : fk (r_joints F) root (as_added t) q' (as_base t) (uj_parent j') P') by (rewrite <- (js_parent _ _ _ Hj); exact Fk).
    pose proof (fk_joint _ _ _ _ _ j' P' Ij' Fk') as Fc. rewrite <- (js_child _ _ _ Hj) in Fc.
    eexists. split; [exact Fc|].
    destruct (pose_bound _ _ Fk') as (P0 & _ & U0 & C0 & _). destruct (pose_bound _ _ Fc) as (Q0 & _ & U1 & C1 & B1 & _).
    assert (Sa : same_number (@by_name (DA pf) (jnames jso) (as_angles s) (uj_name j)) (q' (uj_name j'))).
    { rewrite E1, (js_name _ _ _ Hj). apply by_name_same. apply (ss_angles _ _ _ Ss). }
    assert (Wj : match uj_type j' with REVOLUTE | CONTINUOUS => Rabs (q' (uj_name j')) <= A | PRISMATIC => Rabs (q' (uj_name j')) <= L | _ => True end).
    { specialize (W j0 Ij0). rewrite (jn_type _ _ _ _ _ Nj), (jn_name _ _ _ _ _ Nj). replace (q' (uj_name j0)) with (by_name (jnames jse) (as_angles s') (uj_name j0)); [exact W|].
      unfold q'. rewrite E2, (sn_angles _ _ _ _ _ _ Sn). unfold by_name. rewrite (proj2 (lit0 pf u Hpf Hu1)). change (@n0 RA) with (Q2R 0). rewrite RMicromega.Q2R_0. reflexivity. }
    destruct wD as (K1 & K2 & K3 & _).
    destruct (motion_sim pf u Hpf Hu A L HA HL HLb A_small Hw j j' j0 _ _ (joint_jsim pf u Hu A L HA HL HLb Hw j j' j0 Hj Nj) Nj Sa ltac:(lra) ltac:(lra) Wj) as [Mo _].
    pose proof (sim_transform pf u Hpf Hu 950 910 _ _ _ _ Sm Mo) as Tr.
    assert (Si : small_q pf (q_GetInverse (rotation P'))) by (apply (near_small_inv pf u Hpf Hu _ _ U0 C0)).
    assert (Sr : small_q pf (rotation (pose_transform P' (motion j' (q' (uj_name j')))))) by (apply (near_small pf _ _ U1); lra).
    destruct (Tr Si Sr ltac:(lia) ltac:(lia)) as [Rv Rq]. split; [|exact Rq].
    destruct (near_vec pf _ _ _ 950 B1 room) as (X & Y & Z). eapply simv_cut; eauto.
  - destruct IH as (P' & Fk & Sm). destruct (Forall2_in_l _ _ _ (ss_added _ _ _ Ss) _ Ia) as ([[n' p'] T'] & Ia' & H1 & H2). cbn [fst snd] in H1, H2. inversion H1; subst n' p'.
    pose proof (fk_added _ _ _ _ _ n p T' P' Ia' Fk) as Fc. eexists. split; [exact Fc|].
    destruct (pose_bound _ _ Fk) as (P0 & _ & U0 & C0 & _). destruct (pose_bound _ _ Fc) as (Q0 & _ & U1 & C1 & B1 & _).
    pose proof (sim_transform pf u Hpf Hu 950 901 _ _ _ _ Sm H2) as Tr.
    assert (Si : small_q pf (q_GetInverse (rotation P'))) by (apply (near_small_inv pf u Hpf Hu _ _ U0 C0)).
    assert (Sr : small_q pf (rotation (pose_transform P' T'))) by (apply (near_small pf _ _ U1); lra).
    destruct (Tr Si Sr ltac:(lia) ltac:(lia)) as [Rv Rq]. split; [|exact Rq].
    destruct (near_vec pf _ _ _ 950 B1 room) as (X & Y & Z). eapply simv_cut; eauto.
Qed.
Lemma double_pose n P : pose_at R root jso s n P -> finite_pose pf P /\
  exists P', pose_at E root jse s' n P' /\
    q_error pf (rotation P) (rotation P') <= 150000 * u * (1 + A) * (INR D + 1) /\
    v_error pf (position P) (position P') <= 4000000 * u * (1 + A) * L * (INR D + 1) ^ 2.
Proof.
  intros H. destruct (fk_sim n P H) as (Q & HQ & Sm). split; [eapply finite_sim; eauto|].
  destruct (pose_bound n Q HQ) as (P' & H1 & _ & _ & _ & H2 & H3). exists P'. split; [exact H1|].
  rewrite (q_error_sim _ _ _ _ (sp_q _ _ _ _ Sm)), (v_error_sim _ _ _ _ (sp_v _ _ _ _ Sm)). now split.
Qed.
End Fk.

(** loading *)
Lemma load_double tinyxml text top E root : tinyxml text = Some top -> @loadable RA tinyxml text E root -> moderate A L top E -> numerals_fit top ->
  exists R F, @loadable (DA pf) tinyxml text R root /\ @loadable (FA o) tinyxml text F root /\
    Forall2 (joint_sim pf) (r_joints R) (r_joints F) /\ Forall2 (link_sim pf) (r_links R) (r_links F) /\
    Forall2 (joint_near o e L) (r_joints F) (r_joints E) /\ Forall2 (link_near o u A L) (r_links F) (r_links E).
Proof.
  intros Et Ld M Nf. destruct (load_both o u Hacc Hu0 A L HA HL Hw tinyxml text top E root Et Ld M) as (F & LdF & HJ & HK).
  destruct (ld_xml _ _ _ _ LdF) as (top' & Et' & DF). assert (top' = top) by congruence. subst top'.
  destruct (describes_sim pf u Hpf Hu top F Nf DF) as (R & DR & SJ & SK). exists R, F.
  split; [eapply sim_loadable; eauto|]. auto 8.
Qed.

Lemma initial_sim so sf se jso jsf jse : Forall2 (link_sim pf) so sf -> jnames jso = jnames jsf ->
  state_near o u A L (@initial (FA o) sf jsf) (@initial RA se jse) -> state_sim pf (@initial (DA pf) so jso) (@initial (FA o) sf jsf).
Proof.
  intros Sl Ej Nr. split; cbn [initial as_added as_angles as_base].
  - apply (sn_added _ _ _ _ _ _) in Nr. cbn [initial as_added] in Nr.
    assert (K : Forall2 (fun a b => fst a = fst b /\ simv pf 1001 (position (snd a)) (position (snd b)) /\ if_small pf (rotation (snd a)) (rotation (snd b))) (com_links so) (com_links sf)).
    { clear - Sl Hpf Hu1 HB HA. induction Sl as [|[n i] [n' i'] l l' [H1 H2] Sl IH]; [constructor|]. cbn in H1, H2. subst n'. unfold com_links in *. cbn [flat_map snd fst].
      apply Forall2_app; [|exact IH]. destruct i as [i|], i' as [i'|]; cbn in H2; try contradiction; [|constructor]. constructor; [|constructor].
      cbn [fst snd position rotation]. split; [reflexivity|]. split; [apply H2|]. exact (clear_q1 pf u Hpf Hu). }
    clear - K Nr Hpf Hu1 HB HA HL HLb. revert Nr. generalize (com_links se). induction K as [|a b l l' (H1 & H2 & H3) K IH]; intros ce Nr; [constructor|].
    inversion Nr as [|? c ? ce' [N1 N2] Nr']; subst. constructor; [|eapply IH; eauto]. split; [exact H1|].
    eapply (near_pose_sim pf u Hu A L HA HL HLb Hw); eauto.
  - assert (Le : List.length jso = List.length jsf) by (rewrite <- (map_length uj_name jso), <- (map_length uj_name jsf); f_equal; exact Ej).
    rewrite Le. rewrite (proj2 (lit0 pf u Hpf Hu1)). clear - Hpf Hu1 HB HA. induction (List.length jsf); cbn [repeat]; constructor; auto. exact (zero_same pf u Hpf Hu).
  - split.
    + eapply simv_le; [|apply (clear_v pf u Hpf Hu)]. lia.
    + eapply simq_le; [|apply (clear_q pf u Hpf Hu)]. lia.
Qed.
End Poses.
