(** Centre of mass and its Jacobian in rounded arithmetic; for C84. *)
From Coq Require Import QArith Qreals String List Arith Lia Bool Permutation Reals Lra Classical.
From Verif Require Import Base Num Pose DataStructure Urdf Kin Wrapper Decimal RealArith FloatArith
  Spec_Robot Spec_Hist Spec_Load Spec_Jac Spec_Mass Spec_Rot Spec_Body Spec_Deriv Spec_Float
  Pf_Data Inv Pf_FK Rep Pf_Ops Pf_Jac Pf_Pose Pf_Reach Pf_Wrap Pf_Mass Pf_Real Pf_Body Pf_JacD Pf_ComD Pf_BaseD
  Pf_Float1 Pf_Float2 Pf_Float3 Pf_Float4 Pf_Float5 Pf_Float6 Pf_Float7.
Import ListNotations.
Local Open Scope R_scope.

Lemma sum_l_rsum {B} (f : B -> R) l : sum_l (map f l) = rsum f l.
Proof. induction l as [|x l IH]; [reflexivity|]. unfold rsum in *. cbn [map fold_right]. rewrite <- IH. reflexivity. Qed.

Section Com.
Variable o : Ops.
Variable u : R.
Hypothesis Hacc : accurate o u.
Hypothesis Hu : 0 <= u <= / 1000.
Variables A L : R.
Hypothesis HA : 0 <= A.
Hypothesis HL : 1 <= L.
Hypothesis Hw : unit_err u A <= / 10000.
Notation w := (unit_err u A).
Notation e := (1000 * unit_err u A).

Lemma zero_FA : @n0 (FA o) = 0.
Proof. change (@n0 (FA o)) with (o_lit o 0%Q). apply (acc_zero _ _ Hacc). Qed.

(** one coordinate of a vector *)
Definition fcoord (k : nat) (v : @Vector3 (FA o)) : R := coord k (vR o v).
Lemma weighted_fcoord k (l : list (@num (FA o) * @Vector3 (FA o))) : forall acc,
  fcoord k (weighted_sum l acc) = fold_left (o_add o) (fmoments o (map (fun mp => (fst mp, fcoord k (snd mp))) l)) (fcoord k acc).
Proof.
  induction l as [|mp l IH]; intros acc; [reflexivity|]. unfold weighted_sum in *. cbn [fold_left]. rewrite IH. unfold fmoments.
  cbn [map fold_left fst snd]. f_equal. destruct k as [|[|k]]; reflexivity.
Qed.
Lemma mass_sum_FA (ms : list (string * @Inertial (FA o))) : mass_sum ms = fold_left (o_add o) (map (fun ni => in_mass (snd ni)) ms) 0.
Proof. unfold mass_sum. rewrite zero_FA. generalize 0. induction ms as [|x ms IH]; intros a; [reflexivity|]. apply IH. Qed.

(** the massive links of the two readings *)
Definition massive_near (x : string * @Inertial (FA o)) (x' : string * @Inertial RA) : Prop :=
  fst x = fst x' /\ rounds u (in_mass (snd x')) (in_mass (snd x)).
Lemma massive_both l l' : Forall2 (link_near o u A L) l l' -> Forall2 massive_near (massive l) (massive l').
Proof.
  induction 1 as [|[n i] [n' i'] l l' [H1 H2] F IH]; [constructor|]. cbn [fst snd] in *. subst n'.
  unfold massive in *. cbn [flat_map fst snd]. apply Forall2_app; [|exact IH].
  destruct i as [i|], i' as [i'|]; cbn [both] in H2; try contradiction; [|constructor]. constructor; [|constructor]. split; [reflexivity|]. apply H2.
Qed.

Variables (R : @Robot (FA o)) (E : @Robot RA) (root : string)
  (sorted : list (string * option (@Inertial (FA o)))) (jsorted : list (@UJoint (FA o)))
  (sorted' : list (string * option (@Inertial RA))) (jsorted' : list (@UJoint RA))
  (s : @AState (FA o)) (s' : @AState RA) (D : nat).
Hypothesis HJ : Forall2 (joint_near o e L) (r_joints R) (r_joints E).
Hypothesis OR : ordered R sorted jsorted.
Hypothesis OE : ordered E sorted' jsorted'.
Hypothesis EJ : jnames jsorted = jnames jsorted'.
Hypothesis HS : state_near o u A L s s'.
Hypothesis W : within_range A L (r_joints E) (by_name (jnames jsorted') (as_angles s')).
Hypothesis HD : forall n d, levels (r_joints E) root (as_added s') n d -> (d <= D)%nat.
Hypothesis B : 4000000 * u * (1 + A) * (INR D + 1) <= 1.
Hypothesis Det : forall n P1 P2, pose_at E root jsorted' s' n P1 -> pose_at E root jsorted' s' n P2 -> P1 = P2.
Hypothesis HM : Forall2 massive_near (massive sorted) (massive sorted').
Hypothesis Pos : forall n i, In (n, i) (massive sorted') -> 0 <= in_mass i.
Let M := sum_l (map (fun ni => in_mass (snd ni)) (massive sorted')).
Let N := INR (length (massive sorted')).
Hypothesis M0 : 0 < M.
Hypothesis BN : 1000 * u * N * (1 + / M) <= 1.

Lemma mean_both X d (vs vs' : list Rdefinitions.R) : 1 <= X -> 0 <= d <= X ->
  Forall2 (fun x x' => Rabs x' <= X /\ Rabs (x - x') <= d) vs vs' -> length vs' = length (massive sorted') ->
  Rabs (o_div o (fold_left (o_add o) (fmoments o (combine (map (fun ni => in_mass (snd ni)) (massive sorted)) vs)) 0)
                (fold_left (o_add o) (map (fun ni => in_mass (snd ni)) (massive sorted)) 0)
        - sum_l (moments (combine (map (fun ni => in_mass (snd ni)) (massive sorted')) vs')) / M) <=
    5 * d + 100 * u * X * N * (1 + / M).
Proof.
  intros X1 D1 F Len.
  assert (Lm : length (massive sorted) = length (massive sorted')) by (eapply Forall2_len; exact HM).
  assert (Lv : length vs = length vs') by (eapply Forall2_len; exact F).
  assert (Lc : length (combine (map (fun ni => in_mass (snd ni)) (massive sorted)) vs) = length (massive sorted')).
  { rewrite combine_length, map_length, Lm, Lv, Len. apply Nat.min_id. }
  assert (FF : Forall2 (term_near u X d) (combine (map (fun ni => in_mass (snd ni)) (massive sorted)) vs) (combine (map (fun ni => in_mass (snd ni)) (massive sorted')) vs')).
  { clear - HM Pos F Len Lv. revert vs vs' F Len Lv. induction HM as [|[n i] [n' i'] l l' [H1 H2] F' IH]; intros vs vs' F Len Lv.
    - destruct vs'; [|discriminate Len]. destruct vs; [|discriminate Lv]. constructor.
    - destruct F as [|x x' vs vs' [G1 G2] F]; [discriminate Len|]. cbn [map combine]. constructor.
      + split; [exact H2|]. split; [apply (Pos n'); now left|]. split; assumption.
      + apply IH; [exact F' | intros; eapply Pos; right; eassumption | exact F | now injection Len | now injection Lv]. }
  assert (Mf : forall (ms : list Rdefinitions.R) (xs : list Rdefinitions.R), length xs = length ms -> map fst (combine ms xs) = ms).
  { induction ms as [|a ms IH]; intros [|x xs] Lx; try discriminate Lx; [reflexivity|]. cbn [combine map fst]. f_equal. apply IH. now injection Lx. }
  pose proof (round_mean o u Hacc Hu X d _ _ X1 D1 FF) as RM.
  change (@num (FA o)) with Rdefinitions.R in *. change (@num RA) with Rdefinitions.R in *.
  rewrite Lc, !Mf in RM by (rewrite map_length; congruence). exact (RM M0 BN).
Qed.

Lemma total_both : Rabs (fold_left (o_add o) (map (fun ni => in_mass (snd ni)) (massive sorted)) 0 - M) <= 4 * u * N * (1 + M).
Proof.
  assert (Lm : length (massive sorted) = length (massive sorted')) by (eapply Forall2_len; exact HM).
  assert (F : gap_l (map (fun ni => in_mass (snd ni)) (massive sorted)) (map (fun ni => in_mass (snd ni)) (massive sorted')) <= u * (N + M) /\
     abs_l (map (fun ni => in_mass (snd ni)) (massive sorted')) = M).
  { unfold M, N. clear - HM Pos. induction HM as [|[n i] [n' i'] l l' [H1 H2] F' IH].
    - unfold gap_l, abs_l, sum_l. cbn. split; lra.
    - destruct IH as [I1 I2]; [exact F' | intros; eapply Pos; right; eassumption|]. specialize (Pos n' i' (or_introl eq_refl)). cbn [snd] in *. unfold rounds in H2.
      cbn [length]. rewrite S_INR. cbn [map snd].
      change (gap_l (?a :: ?b) (?c :: ?d)) with (Rabs (a - c) + gap_l b d). change (abs_l (?a :: ?b)) with (Rabs a + abs_l b). change (sum_l (?a :: ?b)) with (a + sum_l b).
      change (@num (FA o)) with Rdefinitions.R in *. change (@num RA) with Rdefinitions.R in *. rewrite (Rabs_right (in_mass i')) in * by lra. split; lra. }
  destruct F as [F1 F2]. assert (iM : 0 < / M) by now apply Rinv_0_lt_compat.
  assert (N1 : 1 <= N).
  { unfold N, M in *. destruct (massive sorted') as [|x l]; [cbn in M0; lra|]. cbn [length]. rewrite S_INR. pose proof (pos_INR (length l)). lra. }
  assert (uN : 0 <= u * N) by (apply Rmult_le_pos; lra). assert (uNi : 0 <= u * N * / M) by (apply Rmult_le_pos; lra).
  pose proof (round_sum0 o u Hacc Hu (map (fun ni => in_mass (snd ni)) (massive sorted)) (map (fun ni => in_mass (snd ni)) (massive sorted'))) as S1.
  change (@num (FA o)) with Rdefinitions.R in *. change (@num RA) with Rdefinitions.R in *.
  rewrite !map_length, Lm in S1. fold N in S1. specialize (S1 eq_refl ltac:(lra)). rewrite F2 in S1. fold M in S1.
  eapply Rle_trans; [exact S1|]. assert (NM : u * (1 * M) <= u * (N * M)) by (apply Rmult_le_compat_l; [lra|]; apply Rmult_le_compat_r; lra). lra.
Qed.

Lemma com_both c c' : has_com (massive sorted) s -> has_com (massive sorted') s' ->
  is_com R root jsorted (massive sorted) s c -> is_com E root jsorted' (massive sorted') s' c' ->
  vdist o c c' <= 40000000 * u * (1 + A) * L * (INR D + 1) ^ 2 + 400 * u * (L * (INR D + 1)) * N * (1 + / M).
Proof.
  intros HC HC' (Ps & FP & ->) (Ps' & FP' & ->).
  set (K := L * (INR D + 1)). set (dl := 4000000 * u * (1 + A) * L * (INR D + 1) ^ 2).
  pose proof (pos_INR D) as D0. assert (LD : 0 <= L * INR D) by (apply Rmult_le_pos; lra). assert (K1 : 1 <= K) by (unfold K; lra).
  assert (dK : dl = 4000000 * u * (1 + A) * (INR D + 1) * K) by (unfold dl, K; ring).
  assert (g0 : 0 <= u * (1 + A) * (INR D + 1)) by (apply Rmult_le_pos; [apply Rmult_le_pos; lra|lra]).
  assert (dl0 : 0 <= dl) by (rewrite dK; apply Rmult_le_pos; lra).
  assert (dl1 : dl <= 2 * K). { rewrite dK. assert (4000000 * u * (1 + A) * (INR D + 1) * K <= 1 * K) by (apply Rmult_le_compat_r; lra). lra. }
  assert (Pts : Forall2 (fun p p' => nv p' <= 2 * K /\ vdist o p p' <= dl)
     (map (fun x => com_point (snd x) (snd (fst x))) (combine (massive sorted) Ps)) (map (fun x => com_point (snd x) (snd (fst x))) (combine (massive sorted') Ps'))).
  { assert (SUB : forall ms ms', Forall2 massive_near ms ms' -> incl ms (massive sorted) -> incl ms' (massive sorted') -> forall Ps Ps',
       Forall2 (fun ni P => pose_at R root jsorted s (fst ni) P) ms Ps -> Forall2 (fun ni P => pose_at E root jsorted' s' (fst ni) P) ms' Ps' ->
       Forall2 (fun p p' => nv p' <= 2 * K /\ vdist o p p' <= dl)
         (map (fun x => com_point (snd x) (snd (fst x))) (combine ms Ps)) (map (fun x => com_point (snd x) (snd (fst x))) (combine ms' Ps'))); [|apply SUB; auto using incl_refl].
    clear Ps Ps' FP FP'. induction 1 as [|[n i] [n' i'] ms ms' [H1 H2] F IH]; intros I I' Ps Ps' FP FP'.
    - constructor.
    - inversion FP as [|? P ? Qs HP FQ]; subst. inversion FP' as [|? P' ? Qs' HP' FQ']; subst. cbn [combine map fst snd] in *. subst n'.
      constructor; [|apply IH; auto; intros y Y; [apply I | apply I']; now right].
      pose proof (HC n i (I _ (or_introl eq_refl))) as Ia. pose proof (HC' n i' (I' _ (or_introl eq_refl))) as Ia'.
      pose proof (fk_added _ _ _ _ _ _ _ _ _ Ia HP) as Q. pose proof (fk_added _ _ _ _ _ _ _ _ _ Ia' HP') as Q'.
      destruct (pose_both_full o u Hacc Hu A L HA HL Hw R E root jsorted jsorted' s s' D _ _ HJ EJ HS W HD B Q) as (P1 & G1 & _ & G3 & _ & G5).
      rewrite (Det _ _ _ G1 Q') in G3, G5. split; [exact G3|exact G5]. }
  assert (Lm : length (massive sorted) = length (massive sorted')) by (eapply Forall2_len; exact HM).
  assert (LP : length Ps = length (massive sorted)) by (symmetry; eapply Forall2_len; exact FP).
  assert (LP' : length Ps' = length (massive sorted')) by (symmetry; eapply Forall2_len; exact FP').
  assert (Co : forall k, Rabs (fcoord k (com_of (massive sorted) Ps) - coord k (com_of (massive sorted') Ps')) <= 5 * dl + 100 * u * (2 * K) * N * (1 + / M)).
  { intros k.
    set (vs := map (fun x => fcoord k (com_point (snd x) (snd (fst x)))) (combine (massive sorted) Ps)).
    set (vs' := map (fun x => coord k (com_point (snd x) (snd (fst x)))) (combine (massive sorted') Ps')).
    assert (E1 : fcoord k (com_of (massive sorted) Ps) =
       o_div o (fold_left (o_add o) (fmoments o (combine (map (fun ni => in_mass (snd ni)) (massive sorted)) vs)) 0)
                (fold_left (o_add o) (map (fun ni => in_mass (snd ni)) (massive sorted)) 0)).
    { unfold com_of, scaled_down. rewrite <- mass_sum_FA.
      assert (Sc : forall v d, fcoord k (@V3 (FA o) (vx v / d) (vy v / d) (vz v / d))%num = o_div o (fcoord k v) d) by (intros v d; destruct k as [|[|k]]; reflexivity).
      rewrite Sc. f_equal. rewrite weighted_fcoord. rewrite map_map. cbn [fst snd].
      replace (fcoord k v_clear) with 0 by (destruct k as [|[|k]]; cbn [fcoord coord vR vx vy vz v_clear]; symmetry; apply zero_FA).
      f_equal. f_equal. unfold vs. clear - LP. revert Ps LP. induction (massive sorted) as [|x ms IH]; intros [|P Ps] LP; try discriminate LP; [reflexivity|].
      cbn [combine map fst snd]. f_equal. apply IH. now injection LP. }
    assert (E2 : coord k (com_of (massive sorted') Ps') = sum_l (moments (combine (map (fun ni => in_mass (snd ni)) (massive sorted')) vs')) / M).
    { unfold com_of, scaled_down. rewrite mass_sum_rsum, <- sum_l_rsum. fold M.
      assert (Sc : forall (v : @Vector3 RA) d, coord k (@V3 RA (vx v / d) (vy v / d) (vz v / d))%num = coord k v / d) by (intros v d; destruct k as [|[|k]]; reflexivity).
      rewrite Sc. f_equal. rewrite weighted_coord.
      replace (coord k v_clear) with 0 by (destruct k as [|[|k]]; cbn [coord vx vy vz v_clear]; rnum; reflexivity).
      rewrite Rplus_0_l. rewrite rsum_map. cbn [fst snd]. unfold moments, vs'. clear - LP'. revert Ps' LP'.
      induction (massive sorted') as [|x ms IH]; intros [|P Ps] LP; try discriminate LP; [reflexivity|].
      unfold rsum in *. cbn [combine map fst snd fold_right]. unfold sum_l. cbn [fold_right]. f_equal. apply IH. now injection LP. }
    rewrite E1, E2. apply mean_both; try lra.
    - unfold vs, vs'. rewrite <- (map_map (fun x => com_point (snd x) (snd (fst x))) (fcoord k)), <- (map_map (fun x => com_point (snd x) (snd (fst x))) (coord k)).
      clear - Pts. induction Pts as [|p p' l l' [H1 H2] F IH]; [constructor|]. cbn [map]. constructor; [|exact IH].
      rewrite vdist_dv in H2. pose proof (comp_nv p') as (N1 & N2 & N3). pose proof (comp_dv (vR o p) p') as (V1 & V2 & V3).
      unfold fcoord. destruct k as [|[|k]]; cbn [coord] in *; split; lra.
    - unfold vs'. rewrite map_length, combine_length, LP'. apply Nat.min_id. }
  rewrite vdist_dv. unfold dv.
  eapply Rle_trans; [apply (N_comp _ (5 * dl + 100 * u * (2 * K) * N * (1 + / M)))|].
  - exact (Co 0%nat).
  - exact (Co 1%nat).
  - exact (Co 2%nat).
  - unfold q_minus, qv. cbn [qw]. rnum. rewrite Rminus_diag_eq, Rabs_R0 by reflexivity.
    specialize (Co 0%nat). pose proof (Rabs_pos (fcoord 0 (com_of (massive sorted) Ps) - coord 0 (com_of (massive sorted') Ps'))). lra.
  - unfold dl, K. lra.
Qed.

(** exact poses are unit and bounded by the lengths *)
Lemma exact_bound n P' : pose_at E root jsorted' s' n P' -> unit_q (rotation P') /\ nv (position P') <= 2 * (L * (INR D + 1)).
Proof.
  intros H. assert (X : exists P, pose_at R root jsorted s n P).
  { unfold pose_at in *. clear - HJ HS H. induction H as [|j P I H [Q IH]|n p T P I H [Q IH]].
    - eexists. apply fk_root.
    - destruct (Forall2_in_r _ _ _ HJ j I) as (j0 & I0 & NJ). rewrite <- (jn_parent _ _ _ _ _ NJ) in IH. rewrite <- (jn_child _ _ _ _ _ NJ).
      eexists. eapply fk_joint; eauto.
    - destruct (Forall2_in_r _ _ _ (sn_added _ _ _ _ _ _ HS) _ I) as ([[n1 p1] T1] & I1 & H1 & _). cbn [fst] in H1. inversion H1; subst.
      eexists. eapply fk_added; eauto. }
  destruct X as (P & HP).
  destruct (pose_both_full o u Hacc Hu A L HA HL Hw R E root jsorted jsorted' s s' D _ _ HJ EJ HS W HD B HP) as (P1 & G1 & G2 & G3 & _).
  rewrite (Det _ _ _ G1 H) in G2, G3. now split.
Qed.

(** exact Jacobian entries are bounded by the lengths *)
Lemma nth_v_list (v : vec) r x : nth_error (@v_list RA v) r = Some x -> Rabs x <= nv v.
Proof.
  destruct (comp_nv v) as (H1 & H2 & H3). destruct r as [|[|[|r]]]; intros H; [apply Some_eq in H; rewrite <- H; assumption..|]. destruct r; discriminate H.
Qed.
Lemma jac_bound n jids wb J c k r : is_jacobian E root jsorted' s' IGNORE n jids wb J -> nth_error jids c = Some k -> (k < length jsorted')%nat -> (r < 3)%nat ->
  Rabs (entry J r c) <= 4 * (L * (INR D + 1)).
Proof.
  intros [Sh (P & HP & HC & _)] Ec Hk Lr. pose proof exact_bound as HB. pose proof (pos_INR D) as D0. assert (LD : 0 <= L * INR D) by (apply Rmult_le_pos; lra).
  destruct (nth_error jsorted' k) as [j|] eqn:Ej; [|apply nth_error_None in Ej; lia]. destruct (HC c k j Ec Ej) as [C1 C2].
  rewrite entry_column. destruct (classic (carries (r_joints E) (as_added s') j n)) as [Hc|Hc].
  - destruct (C2 Hc) as (C & HCp & ->). destruct (HB _ _ HP) as [UP SP]. destruct (HB _ _ HCp) as [UC SC].
    destruct (proj1 (ord_joints _ _ _ OE j) (nth_error_In _ _ Ej)) as [Ij Mj].
    destruct (Forall2_in_r _ _ _ HJ j Ij) as (j0 & _ & NJ). assert (Mj0 : is_movable (uj_type j0)) by (rewrite (jn_type _ _ _ _ _ NJ); exact Mj).
    destruct (jn_axis _ _ _ _ _ NJ Mj0) as [Ax _]. rewrite vlen_nv in Ax.
    destruct (nth_error (geometric_column IGNORE j P C) r) as [x|] eqn:Ex; [|rewrite nth_overflow by (apply nth_error_None; exact Ex); rewrite Rabs_R0; lra].
    rewrite (nth_error_nth _ _ _ Ex).
    assert (Na : nv (q_rot (rotation C) (uj_axis j)) = 1) by (rewrite nv_rot; assumption).
    pose proof (nv_cross (q_rot (rotation C) (uj_axis j)) (v_sub (position P) (position C))) as NC. rewrite Na, Rmult_1_l in NC.
    pose proof (nv_sub (position P) (position C)) as NS.
    assert (Y : Rabs x <= nv (q_rot (rotation C) (uj_axis j)) \/ Rabs x <= nv (vcross (q_rot (rotation C) (uj_axis j)) (v_sub (position P) (position C)))).
    { unfold geometric_column in Ex. destruct (uj_type j); rewrite nth_error_app1 in Ex by (cbn; lia); [right|right|right|left|right|right|right]; apply nth_v_list in Ex; exact Ex. }
    destruct Y; lra.
  - rewrite (C1 Hc). assert (ZR : nth r (@zeros RA (jac_rows IGNORE)) 0 = 0).
    { unfold zeros. change (@n0 RA) with (Q2R 0). rewrite Q2R_0. apply nth_repeat. }
    rewrite ZR, Rabs_R0. lra.
Qed.

(** one entry of a weighted sum of matrices, in any arithmetic on the reals *)
Lemma entry_fold_g (f g : Rdefinitions.R -> Rdefinitions.R -> Rdefinitions.R) rows cols (ws : list (Rdefinitions.R * @mat RA)) r c :
  (r < rows)%nat -> (c < cols)%nat -> (forall w, In w ws -> has_shape rows cols (snd w)) ->
  forall acc, has_shape rows cols acc ->
  has_shape rows cols (fold_left (fun acc wj => @mat_zip RA f acc (@mat_map RA (g (fst wj)) (snd wj))) ws acc) /\
  entry (fold_left (fun acc wj => @mat_zip RA f acc (@mat_map RA (g (fst wj)) (snd wj))) ws acc) r c =
    fold_left f (map (fun w => g (fst w) (entry (snd w) r c)) ws) (entry acc r c).
Proof.
  intros Lr Lc. induction ws as [|x ws IH]; intros Hx acc Ha; [split; auto|]. cbn [fold_left map].
  assert (Hs : has_shape rows cols (@mat_map RA (g (fst x)) (snd x))) by (apply map_shape, Hx; now left).
  destruct (IH (fun w' I => Hx w' (or_intror I)) _ (zip_shape f _ _ _ _ Ha Hs)) as [S1 E1]. split; [exact S1|].
  rewrite E1, (entry_zip f rows cols) by auto. rewrite (entry_map (g (fst x)) rows cols) by (auto; apply Hx; now left). reflexivity.
Qed.
Lemma entry_mean_FA rows cols (ws : list (@num (FA o) * @mat (FA o))) total r c : (r < rows)%nat -> (c < cols)%nat -> (forall w, In w ws -> has_shape rows cols (snd w)) ->
  entry (mean_mat rows cols ws total) r c = o_div o (fold_left (o_add o) (fmoments o (map (fun x => (fst x, entry (snd x) r c)) ws)) 0) total.
Proof.
  intros Lr Lc Hx. unfold mean_mat.
  assert (Hz : has_shape rows cols (@mat_zero (FA o) rows cols)).
  { split; [apply repeat_length|]. intros row I. apply repeat_spec in I. subst. apply repeat_length. }
  assert (Ez : entry (@mat_zero (FA o) rows cols) r c = 0).
  { unfold entry, mat_zero. rewrite (nth_indep _ [] (repeat (@n0 (FA o)) cols)) by now rewrite repeat_length. rewrite nth_repeat, zero_FA. apply nth_repeat. }
  destruct (entry_fold_g (o_add o) (o_mul o) rows cols ws r c Lr Lc Hx _ Hz) as [S1 E1]. rewrite Ez in E1.
  pose proof (entry_map (fun x => o_div o x total) rows cols _ r c S1 Lr Lc) as E2. rewrite E1 in E2.
  unfold fmoments. rewrite map_map. exact E2.
Qed.

Lemma com_jac_both jids wb J J' c k r :
  is_com_jacobian R root jsorted (massive sorted) s jids wb J -> is_com_jacobian E root jsorted' (massive sorted') s' jids wb J' ->
  nth_error jids c = Some k -> (k < length jsorted')%nat -> (r < 3)%nat ->
  Rabs (entry J r c - entry J' r c) <= 200000000 * u * (1 + A) * L * (INR D + 1) ^ 2 + 1000 * u * (L * (INR D + 1)) * N * (1 + / M).
Proof.
  intros (Js & FJ & ->) (Js' & FJ' & ->) Ec Hk Lr.
  set (K := L * (INR D + 1)). set (dl := 40000000 * u * (1 + A) * L * (INR D + 1) ^ 2).
  pose proof (pos_INR D) as D0. assert (LD : 0 <= L * INR D) by (apply Rmult_le_pos; lra). assert (K1 : 1 <= K) by (unfold K; lra).
  assert (dK : dl = 10 * (4000000 * u * (1 + A) * (INR D + 1) * K)) by (unfold dl, K; ring).
  assert (g0 : 0 <= u * (1 + A) * (INR D + 1)) by (apply Rmult_le_pos; [apply Rmult_le_pos; lra|lra]).
  assert (dl0 : 0 <= dl) by (rewrite dK; apply Rmult_le_pos; [lra|]; apply Rmult_le_pos; lra).
  assert (dl1 : dl <= 10 * K). { rewrite dK. assert (4000000 * u * (1 + A) * (INR D + 1) * K <= 1 * K) by (apply Rmult_le_compat_r; lra). lra. }
  assert (Lc : (c < length jids + (if wb then 6 else 0))%nat) by (assert (c < length jids)%nat by (apply nth_error_Some; congruence); lia).
  assert (Es : Forall2 (fun x x' => Rabs x' <= 10 * K /\ Rabs (x - x') <= dl) (map (fun J => entry J r c) Js) (map (fun J => entry J r c) Js')).
  { clear - HM FJ FJ' Hacc Hu HA HL Hw HJ OR OE EJ HS W HD B Det Ec Hk Lr K1. revert Js Js' FJ FJ'.
    induction HM as [|[n i] [n' i'] ms ms' [H1 H2] F IH]; intros Js Js' FJ FJ'; inversion FJ as [|? X ? Xs HX FX]; subst; inversion FJ' as [|? X' ? Xs' HX' FX']; subst; [constructor|].
    cbn [map]. constructor; [|apply IH; auto]. cbn [fst] in *. subst n'. split.
    - pose proof (jac_bound _ _ _ _ _ _ _ HX' Ec Hk Lr). fold K in H. lra.
    - refine (proj1 (jac_both o u Hacc Hu A L HA HL Hw R E root sorted jsorted sorted' jsorted' s s' D _ IGNORE jids wb X X' c k r HJ OR OE EJ HS W HD B Det HX HX' Ec Hk Lr) Lr). }
  assert (Lm : length (massive sorted) = length (massive sorted')) by (eapply Forall2_len; exact HM).
  assert (LJ : length Js = length (massive sorted)) by (symmetry; eapply Forall2_len; exact FJ).
  assert (LJ' : length Js' = length (massive sorted')) by (symmetry; eapply Forall2_len; exact FJ').
  pose proof (mean_both (10 * K) dl _ _ ltac:(lra) ltac:(lra) Es ltac:(rewrite map_length; exact LJ')) as RM.
  rewrite entry_mean_FA, entry_mean; auto.
  - rewrite mass_sum_rsum, <- (sum_l_rsum (fun ni : string * @Inertial RA => in_mass (snd ni)) (massive sorted')). fold M. rewrite mass_sum_FA.
    replace (rsum (fun w => fst w * entry (snd w) r c) (map (fun x => (in_mass (snd (fst x)), snd x)) (combine (massive sorted') Js')))
      with (sum_l (moments (combine (map (fun ni => in_mass (snd ni)) (massive sorted')) (map (fun J => entry J r c) Js')))).
    + replace (map (fun x => (fst x, entry (snd x) r c)) (map (fun x => (in_mass (snd (fst x)), snd x)) (combine (massive sorted) Js)))
        with (combine (map (fun ni => in_mass (snd ni)) (massive sorted)) (map (fun J => entry J r c) Js)).
      * eapply Rle_trans; [exact RM|]. unfold dl, K. lra.
      * clear - LJ. revert Js LJ. induction (massive sorted) as [|x ms IH]; intros [|P Ps] LP; try discriminate LP; [reflexivity|].
        cbn [combine map fst snd]. f_equal. apply IH. now injection LP.
    + unfold moments. clear - LJ'. revert Js' LJ'. induction (massive sorted') as [|x ms IH]; intros [|P Ps] LP; try discriminate LP; [reflexivity|].
      unfold rsum in *. cbn [combine map fst snd fold_right]. unfold sum_l. cbn [fold_right]. f_equal. apply IH. now injection LP.
  - intros x I. apply in_map_iff in I. destruct I as ([ni X] & <- & I). cbn [snd fst]. apply in_combine_r in I. destruct (Forall2_in_r _ _ _ FJ' X I) as (ni' & _ & (HSh & _)). exact HSh.
  - intros x I. apply in_map_iff in I. destruct I as ([ni X] & <- & I). cbn [snd fst]. apply in_combine_r in I. destruct (Forall2_in_r _ _ _ FJ X I) as (ni' & _ & (HSh & _)). exact HSh.
Qed.
End Com.
