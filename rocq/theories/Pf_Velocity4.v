(** The Jacobian times the joint speeds (lemmas for C110 and C111). *)
From Coq Require Import String List Arith Lia Bool Permutation Classical Reals Lra.
From Verif Require Import Base Num Pose DataStructure Urdf Kin Wrapper Spec_Robot Spec_Hist Spec_Load Spec_Jac Spec_Rot Spec_Deriv Spec_Velocity RealArith
  Pf_Base Pf_Data Inv Pf_FK Pf_Frame Pf_Rp Rep Pf_Ops Pf_Name Pf_Ctor Pf_Reach Pf_Jac Pf_Safe Pf_Pose Pf_Local Pf_Hist Pf_Wrap Pf_Real Pf_Rot Pf_Unit Pf_Rpy Pf_Chain Pf_Deriv Pf_JacD
  Pf_Reach2 Pf_Velocity Pf_Velocity2 Pf_Velocity3 Thm_Ids.
Import ListNotations.
Local Open Scope m_scope.
Local Open Scope R_scope.

Lemma rates_far rt q v w v' r : (3 <= r)%nat -> nth r (rates rt q v w) 0 = nth r (rates rt q v' w) 0.
Proof. intros L. unfold rates, v_list. do 3 (destruct r as [|r]; [lia|]). reflexivity. Qed.

Lemma column_rates rt j E C gv gw r :
  match uj_type j with
  | PRISMATIC => gv = q_rot (rotation C) (uj_axis j) /\ gw = v_clear
  | _ => gv = cross_product (q_rot (rotation C) (uj_axis j)) (v_sub (position E) (position C)) /\ gw = q_rot (rotation C) (uj_axis j)
  end -> nth r (geometric_column rt j E C) 0 = nth r (rates rt (rotation E) gv gw) 0.
Proof.
  intros H. destruct (uj_type j) eqn:Ty; destruct H as [-> ->]; try (unfold geometric_column; rewrite Ty; reflexivity).
  unfold geometric_column. rewrite Ty. destruct (Nat.lt_ge_cases r 3) as [L|L].
  - unfold rates, v_list. destruct r as [|[|[|r]]]; [reflexivity..|lia].
  - rewrite (rates_far _ _ _ _ v_clear) by auto. rewrite rates_0. unfold v_list. do 3 (destruct r as [|r]; [lia|]). cbn [app nth]. apply nth_zeros.
Qed.

Lemma rates_sum {X} rt q r (a : X -> R) (gv gw : X -> vec) l :
  nth r (rates rt q (vsum (fun j => vscale (a j) (gv j)) l) (vsum (fun j => vscale (a j) (gw j)) l)) 0 = fold_right (fun j acc => acc + a j * nth r (rates rt q (gv j) (gw j)) 0) 0 l.
Proof. induction l as [|j l IH]; [apply rates_0|]. rewrite !vsum_cons, rates_linear, IH. reflexivity. Qed.

Lemma row_times_sum {X} (J : @mat RA) r (a F : X -> R) : forall l v c0, length v = length l ->
  (forall c j, nth_error l c = Some j -> entry J r (c0 + c) = F j /\ nth c v 0 = a j) -> row_times J r c0 v = fold_right (fun j acc => acc + a j * F j) 0 l.
Proof.
  induction l as [|j l IH]; intros v c0 L H; destruct v as [|x v]; cbn in L; try lia; [reflexivity|]. cbn [row_times fold_right].
  destruct (H 0%nat j eq_refl) as [E1 E2]. rewrite Nat.add_0_r in E1. cbn [nth] in E2. rewrite E1, E2, (IH v (S c0)) by (try lia; intros c j' Ej; specialize (H (S c) j' Ej); rewrite Nat.add_succ_comm; exact H).
  ring.
Qed.

Section Moving.
Context (tinyxml : string -> option (list xml)) (text : string) (R : @Robot RA) (root : string) (sorted : list (string * option (@Inertial RA))) (jsorted : list (@UJoint RA)) (ops : list (@op RA)) (m : @KM RA).
Context (Hr : reached tinyxml text R root sorted jsorted ops m) (Hc : clean ops = true) (Hu : unit_axes R) (Hb : unit_bases ops).
Context (jids : list nat) (Nj : NoDup jids) (Hk : forall k, In k jids -> (k < length (get_joint_names m))%nat).
Context (q : Rdefinitions.R -> list Rdefinitions.R) (dq : list Rdefinitions.R) (t0 : Rdefinitions.R).
Context (Ha : angles_are m jids (q t0)) (Hs : speeds (length jids) q t0 dq).
Notation s := (after sorted jsorted ops).
Definition st (t : Rdefinitions.R) : @AState RA := mkAS (as_added s) (assign jids (q t : list (@num RA)) (as_angles s)) (as_base s).
Definition qf (t : Rdefinitions.R) (n : string) : Rdefinitions.R := by_name (jnames jsorted) (as_angles (st t)) n.

Lemma moving_reached t : exists m1, set_joint_angles (A := RA) jids (q t) m = (m1, Ok tt) /\ reached tinyxml text R root sorted jsorted (ops ++ [Op_set_joint_angles jids (q t)]) m1 /\
  after sorted jsorted (ops ++ [Op_set_joint_angles jids (q t)]) = st t /\
  (forall c k, nth_error jids c = Some k -> nth k (as_angles (st t)) n0 = nth c (q t) 0) /\
  (forall k, (k < length jsorted)%nat -> ~ In k jids -> nth k (as_angles (st t)) n0 = nth k (as_angles s) n0) /\ length (as_angles (st t)) = length (jnames jsorted).
Proof.
  destruct (reached_Rep _ _ _ _ _ _ _ _ Hr) as [HR _]. destruct Hs as (_ & Lq & _).
  destruct (C30_set_get_joint_angles RA _ _ _ _ _ _ _ _ Hr jids (q t) Hk (Lq t)) as (m1 & E & G1 & G2 & _).
  assert (Hr1 : reached tinyxml text R root sorted jsorted (ops ++ [Op_set_joint_angles jids (q t)]) m1)
    by (apply (reached_run _ _ _ _ _ _ _ _ _ _ Hr); cbn [run exec]; rewrite E; reflexivity).
  assert (Ea : after sorted jsorted (ops ++ [Op_set_joint_angles jids (q t)]) = st t) by (rewrite after_app; reflexivity).
  destruct (reached_Rep _ _ _ _ _ _ _ _ Hr1) as [HR1 _]. rewrite Ea in HR1.
  exists m1. split; [exact E|]. split; [exact Hr1|]. split; [exact Ea|].
  pose proof (rep_angles_length _ _ _ _ _ _ _ _ HR1) as L1. pose proof (rep_angles_length _ _ _ _ _ _ _ _ HR) as L0.
  rewrite (rep_joint_count _ _ _ _ _ _ _ _ HR) in *. assert (LJ : length (jnames jsorted) = length jsorted) by (unfold jnames; apply map_length).
  split; [|split; [|exact L1]].
  - intros c k Ek. specialize (G1 Nj). rewrite get_angles_spec in G1.
    + injection G1 as G1. symmetry. apply nth_error_nth. rewrite (rep_angles _ _ _ _ _ _ _ _ HR1) in G1. rewrite <- G1. rewrite nth_error_map', Ek. reflexivity.
    + intros k' I'. rewrite (rep_angles _ _ _ _ _ _ _ _ HR1), L1, LJ. now apply Hk.
  - intros k Lk N. specialize (G2 k Lk N). unfold angle_of in G2. rewrite !get_angles_spec in G2.
    + cbn [map snd] in G2. rewrite (rep_angles _ _ _ _ _ _ _ _ HR1), (rep_angles _ _ _ _ _ _ _ _ HR) in G2. congruence.
    + intros k' [<-|[]]. rewrite (rep_angles _ _ _ _ _ _ _ _ HR), L0, LJ. exact Lk.
    + intros k' [<-|[]]. rewrite (rep_angles _ _ _ _ _ _ _ _ HR1), L1, LJ. exact Lk.
Qed.

Lemma st_now : st t0 = s.
Proof.
  destruct (reached_Rep _ _ _ _ _ _ _ _ Hr) as [HR _]. destruct (moving_reached t0) as (m1 & _ & _ & _ & G1 & G2 & L1).
  pose proof (rep_angles_length _ _ _ _ _ _ _ _ HR) as L0. unfold angles_are in Ha. rewrite (rep_joint_count _ _ _ _ _ _ _ _ HR) in Hk.
  assert (LJ : length (jnames jsorted) = length jsorted) by (unfold jnames; apply map_length).
  rewrite get_angles_spec in Ha by (intros k I; rewrite (rep_angles _ _ _ _ _ _ _ _ HR), L0, LJ; now apply Hk).
  rewrite (rep_angles _ _ _ _ _ _ _ _ HR) in Ha.
  assert (E : as_angles (st t0) = as_angles s).
  { apply (nth_ext _ _ n0 n0); [congruence|]. intros k Lk. rewrite L1, LJ in Lk. destruct (in_dec Nat.eq_dec k jids) as [I|N]; [|now apply G2].
    apply In_nth_error in I as (c & Ec). rewrite (G1 c k Ec). injection Ha as Ha'. apply nth_error_nth. rewrite <- Ha', nth_error_map', Ec. reflexivity. }
  unfold st in *. cbn [as_angles] in E. rewrite E. now destruct s.
Qed.

Lemma moving_joints : exists Ls, Forall2 (fun k j => nth_error jsorted k = Some j) jids Ls /\ NoDup (map uj_name Ls) /\
  (forall j, In j Ls -> In j (r_joints R) /\ is_movable (uj_type j)) /\
  let dqf := by_name (map uj_name Ls) dq in
  (forall j, In j (r_joints R) -> derivable_pt_lim (fun t => qf t (uj_name j)) t0 (dqf (uj_name j))) /\
  (forall j, In j (r_joints R) -> ~ In j Ls -> dqf (uj_name j) = 0) /\
  (forall c j, nth_error Ls c = Some j -> nth c dq 0 = dqf (uj_name j)).
Proof.
  destruct (reached_Rep _ _ _ _ _ _ _ _ Hr) as [HR _]. pose proof (tree_joints _ _ (ld_tree _ _ _ _ (proj1 Hr))) as ND. 
  pose proof Hk as Hk'. rewrite (rep_joint_count _ _ _ _ _ _ _ _ HR) in Hk'. destruct Hs as (Ld & Lq & Dq).
  assert (F : exists Ls, Forall2 (fun k j => nth_error jsorted k = Some j) jids Ls).
  { clear - Hk'. induction jids as [|k l IH]; [exists []; constructor|]. destruct IH as (Ls & F); [intros; apply Hk'; now right|].
    destruct (lt_nth_error jsorted k (Hk' k (or_introl eq_refl))) as (j & Ej). exists (j :: Ls). now constructor. }
  destruct F as (Ls & F). exists Ls. split; [exact F|]. pose proof (Forall2_len _ _ _ F) as LL.
  pose proof (jn_nodup _ _ _ _ _ _ _ _ HR) as NJ.
  assert (At : forall c j, nth_error Ls c = Some j -> exists k, nth_error jids c = Some k /\ nth_error jsorted k = Some j).
  { intros c j Ej. destruct (nth_error jids c) as [k|] eqn:Ek.
    - destruct (Forall2_nth_l _ _ _ c k F Ek) as (j' & Ej' & E). exists k. split; auto. congruence.
    - apply nth_error_None in Ek. apply nth_error_lt in Ej. lia. }
  assert (NL : NoDup (map uj_name Ls)).
  { apply NoDup_nth_error. intros a b La Eab. rewrite map_length in La. rewrite !nth_error_map' in Eab. destruct (lt_nth_error _ _ La) as (ja & Ea). rewrite Ea in Eab.
    destruct (nth_error Ls b) as [jb|] eqn:Eb; [|discriminate Eab]. cbn in Eab. injection Eab as En.
    destruct (At a ja Ea) as (ka & Ka & Kaj), (At b jb Eb) as (kb & Kb & Kbj).
    assert (ka = kb). { rewrite NoDup_nth_error in NJ. apply NJ; unfold jnames; rewrite ?map_length; [eapply nth_error_lt; eauto|]. rewrite !nth_error_map', Kaj, Kbj. cbn. now rewrite En. }
    subst kb. rewrite NoDup_nth_error in Nj. apply Nj; [eapply nth_error_lt; eauto | congruence]. }
  split; [exact NL|]. split.
  { intros j I. apply In_nth_error in I as (c & Ec). destruct (At c j Ec) as (k & _ & Ek). destruct (proj1 (rep_jsorted _ _ _ _ _ _ _ _ HR j) (nth_error_In _ _ Ek)) as [I Mv]. split; auto. now apply movable_iff. }
  cbv zeta.
  assert (DN : forall c j, nth_error Ls c = Some j -> nth c dq 0 = by_name (map uj_name Ls) dq (uj_name j)).
  { intros c j Ec. rewrite (by_name_nth (map uj_name Ls) dq c (uj_name j) NL).
    - rewrite n0_R. reflexivity.
    - rewrite map_length. exact (eq_trans Ld LL).
    - rewrite nth_error_map', Ec. reflexivity. }
  assert (D0 : forall n, ~ In n (map uj_name Ls) -> by_name (map uj_name Ls) dq n = 0).
  { intros n N. unfold by_name. rewrite (proj2 (Pf_Base.assoc_none _ _)); [apply n0_R|]. intros I. apply N. apply in_map_iff in I as ((n' & x) & E & I). cbn in E. subst n'. eapply in_combine_l; eauto. }
  split; [|split; [|exact DN]].
  - intros j I. destruct (in_dec string_dec (uj_name j) (map uj_name Ls)) as [Y|N].
    + apply in_map_iff in Y as (j' & E & I'). apply In_nth_error in I' as (c & Ec). rewrite <- E, <- (DN c j' Ec). destruct (At c j' Ec) as (k & Ek & Ejk).
      eapply dext; [|apply (Dq c); apply nth_error_lt in Ek; exact Ek]. intros t. cbn beta. destruct (moving_reached t) as (m1 & _ & _ & _ & G1 & _ & L1).
      unfold qf. rewrite (by_name_nth (jnames jsorted) (as_angles (st t)) k (uj_name j') NJ L1); [symmetry; now apply G1|]. unfold jnames. rewrite nth_error_map', Ejk. reflexivity.
    + rewrite D0 by exact N. apply deriv_const. assert (K : forall t, qf t (uj_name j) = by_name (jnames jsorted) (as_angles s) (uj_name j)); [|intros t; now rewrite !K].
      intros t. destruct (moving_reached t) as (m1 & _ & _ & _ & _ & G2 & L1). pose proof (rep_angles_length _ _ _ _ _ _ _ _ HR) as L0.
      refine (@by_name_ext RA (jnames jsorted) (as_angles (st t)) (as_angles s) (uj_name j) _ _); [congruence|]. intros k Ek. assert (Lk : (k < length jsorted)%nat) by (apply nth_error_lt in Ek; unfold jnames in Ek; now rewrite map_length in Ek).
      assert (LJ : length (jnames jsorted) = length jsorted) by (unfold jnames; apply map_length).
      rewrite !(nth_error_nth' _ n0) by (rewrite ?L1, ?L0, LJ; exact Lk). f_equal. apply G2; auto. intros Ik. apply N.
      apply In_nth_error in Ik as (c & Ec). destruct (Forall2_nth_l _ _ _ c k F Ec) as (j' & Ej' & E). unfold jnames in Ek. rewrite nth_error_map', E in Ek. cbn in Ek. injection Ek as <-.
      apply in_map. eapply nth_error_In; eauto.
  - intros j I N. apply D0. intros Y. apply N. apply in_map_iff in Y as (j' & E & I'). apply In_nth_error in I' as Ec. destruct Ec as (c & Ec). destruct (At c j' Ec) as (k & _ & Ek).
    destruct (proj1 (rep_jsorted _ _ _ _ _ _ _ _ HR j') (nth_error_In _ _ Ek)) as [Ij' _]. apply (same_name_same_joint R) in E; auto. now subst.
Qed.

(** the pose of a named link along the path, and its velocities in terms of the joints *)
Lemma link_moves n (P : Rdefinitions.R -> @Pose RA) : (forall t, pose_at R root jsorted (st t) n (P t)) ->
  exists Ls gv gw, let dqf := by_name (map uj_name Ls) dq in
    Forall2 (fun k j => nth_error jsorted k = Some j) jids Ls /\
    (forall c j, nth_error Ls c = Some j -> nth c dq 0 = dqf (uj_name j)) /\
    (forall j, In j Ls -> (~ carries (r_joints R) (as_added s) j n -> gv j = v_clear /\ gw j = v_clear) /\
       (carries (r_joints R) (as_added s) j n -> exists C, pose_at R root jsorted s (uj_child j) C /\
          match uj_type j with
          | PRISMATIC => gv j = q_rot (rotation C) (uj_axis j) /\ gw j = v_clear
          | _ => gv j = cross_product (q_rot (rotation C) (uj_axis j)) (v_sub (position (P t0)) (position C)) /\ gw j = q_rot (rotation C) (uj_axis j)
          end)) /\
    (forall t, unit_q (rotation (P t))) /\
    moves P t0 (vsum (fun j => vscale (dqf (uj_name j)) (gv j)) Ls) (vsum (fun j => vscale (dqf (uj_name j)) (gw j)) Ls).
Proof.
  intros HP. destruct (reached_Rep _ _ _ _ _ _ _ _ Hr) as [HR _]. destruct moving_joints as (Ls & F & NL & LI & HD & HZ & DN). cbv zeta in *.
  pose proof (tree_joints _ _ (ld_tree _ _ _ _ (proj1 Hr))) as ND. pose proof (tree_one_parent _ _ (ld_tree _ _ _ _ (proj1 Hr))) as NC.
  pose proof (loaded_axes_ok _ _ _ _ (proj1 Hr) Hu) as AX. pose proof (after_ok sorted jsorted ops) as AD. pose proof (after_base_unit sorted jsorted ops Hb) as UB.
  assert (H0 : fk (r_joints R) root (as_added s) (qf t0) (as_base s) n (P t0)) by exact (HP t0).
  destruct (fk_moves R root sorted jsorted _ _ s m HR ND NC AX AD (as_base s) UB Ls qf (@by_name RA (map uj_name Ls) dq) t0 NL LI HD HZ n (P t0) H0)
    as (P' & gv & gw & E0 & HP' & UP & CT & HM).
  assert (EP : forall t, P' t = P t).
  { intros t. destruct (moving_reached t) as (m1 & _ & Hr1 & Ea & _). destruct (reached_Rep _ _ _ _ _ _ _ _ Hr1) as [HR1 _]. rewrite Ea in HR1.
    apply (rep_pose_det _ _ _ _ _ _ _ _ HR1 n); [exact (HP' t) | exact (HP t)]. }
  exists Ls, gv, gw. split; [exact F|]. split; [exact DN|]. split; [|split].
  - intros j I. destruct (CT j I) as [C0 C1]. split; [exact C0|]. intros Y. destruct (C1 Y) as (C & HC & X). exists C. split; [|exact X].
    unfold pose_at. pose proof st_now as E. rewrite <- E. exact HC.
  - intros t. rewrite <- EP. apply UP.
  - apply (moves_ext P'); [exact EP | exact HM].
Qed.

Lemma observed_moving i n t P : nth_error (get_link_names m) i = Some n -> pose_with_joints m jids i (q t) P -> pose_at R root jsorted (st t) n P.
Proof.
  intros En (m2 & X). destruct (moving_reached t) as (m1 & E1 & Hr1 & Ea & _).
  destruct (reached_Rep _ _ _ _ _ _ _ _ Hr) as [HR _]. rewrite (rep_all_links _ _ _ _ _ _ _ _ HR) in En.
  rewrite (bind_ok _ _ _ _ _ E1) in X. destruct (reached_Rep _ _ _ _ _ _ _ _ Hr1) as [HR1 HC1].
  assert (C : clean (ops ++ [Op_set_joint_angles jids (q t)]) = true) by (unfold clean; rewrite fold_left_app; reflexivity). specialize (HC1 C).
  destruct (get_link_pose_ok m1 i m2 P ltac:(split; auto; apply HR1) X) as [HP _]. rewrite Ea in HR1.
  apply (rep_pose_of' _ _ _ _ _ _ _ _ HR1 i n P); auto.
Qed.

Lemma is_jacobian_speeds n rt wb J P r : is_jacobian R root jsorted s rt n jids wb J -> (forall t, pose_at R root jsorted (st t) n (P t)) ->
  (r < jac_rows rt)%nat -> regular rt r (rotation (P t0)) -> derivable_pt_lim (fun t => reported rt r (P t)) t0 (row_times J r 0 dq).
Proof.
  intros (_ & E & HE & HJ & _) HP Lr Hreg. destruct (reached_Rep _ _ _ _ _ _ _ _ Hr) as [HR _].
  destruct (link_moves n P HP) as (Ls & gv & gw & FL & DN & CT & UP & HM). cbv zeta in *.
  pose proof (HP t0) as H0. pose proof st_now as E0. rewrite E0 in H0. assert (EE : E = P t0) by exact (rep_pose_det _ _ _ _ _ _ _ _ HR n _ _ HE H0). subst E.
  pose proof (moves_reported P t0 _ _ rt r UP HM Lr Hreg) as D. rewrite rates_sum in D.
  rewrite (row_times_sum J r (fun j => @by_name RA (map uj_name Ls) dq (uj_name j)) (fun j => nth r (rates rt (rotation (P t0)) (gv j) (gw j)) 0) Ls dq 0); [exact D| |].
  - destruct Hs as (Ld & _). rewrite Ld. exact (Forall2_len _ _ _ FL).
  - intros c j Ec. split; [|now apply DN]. cbn [Nat.add].
    assert (Lc : (c < length jids)%nat) by (rewrite (Forall2_len _ _ _ FL); eapply nth_error_lt; eauto). destruct (lt_nth_error _ _ Lc) as (k & Ek).
    destruct (Forall2_nth_l _ _ _ c k FL Ek) as (j' & Ej' & Ekj). assert (j' = j) by congruence. subst j'.
    destruct (HJ c k j Ek Ekj) as [H1 H2]. rewrite entry_column. destruct (CT j (nth_error_In _ _ Ec)) as [C0 C1].
    destruct (classic (carries (r_joints R) (as_added s) j n)) as [Y|N].
    + destruct (H2 Y) as (C & HCp & ->). destruct (C1 Y) as (C' & HC' & M). assert (C' = C) by exact (rep_pose_det _ _ _ _ _ _ _ _ HR _ _ _ HC' HCp). subst C'. now apply column_rates.
    + rewrite (H1 N). destruct (C0 N) as [-> ->]. rewrite rates_0. apply nth_zeros.
Qed.

Lemma jacobian_times_speeds i rt wb m' J P r : get_jacobian i jids rt wb m = (m', Ok J) -> (forall t, pose_with_joints m jids i (q t) (P t)) ->
  (r < jac_rows rt)%nat -> regular rt r (rotation (P t0)) -> derivable_pt_lim (fun t => reported rt r (P t)) t0 (row_times J r 0 dq).
Proof.
  intros X HP Lr Hreg. destruct (reached_Rep _ _ _ _ _ _ _ _ Hr) as [HR HC]. specialize (HC Hc).
  assert (G : Good m) by (split; auto; apply HR). pose proof Hk as Hk'. rewrite (rep_joint_count _ _ _ _ _ _ _ _ HR) in Hk'.
  destruct (jacobian_is _ _ _ _ _ _ _ _ _ _ _ _ _ _ HR G Hk' X) as (n & En & HJ).
  assert (En' : nth_error (get_link_names m) i = Some n) by now rewrite (rep_all_links _ _ _ _ _ _ _ _ HR).
  apply (is_jacobian_speeds n rt wb J P r HJ); auto. intros t. exact (observed_moving i n t (P t) En' (HP t)).
Qed.

Lemma family_moving n : In n (all_links sorted s) -> exists P, forall t, pose_at R root jsorted (st t) n (P t).
Proof.
  intros Hn. destruct (reached_Rep _ _ _ _ _ _ _ _ Hr) as [HR _]. destruct moving_joints as (Ls & F & NL & LI & HD & HZ & DN). cbv zeta in *.
  pose proof (tree_joints _ _ (ld_tree _ _ _ _ (proj1 Hr))) as ND. pose proof (tree_one_parent _ _ (ld_tree _ _ _ _ (proj1 Hr))) as NC.
  pose proof (loaded_axes_ok _ _ _ _ (proj1 Hr) Hu) as AX. pose proof (after_ok sorted jsorted ops) as AD. pose proof (after_base_unit sorted jsorted ops Hb) as UB.
  destruct (rep_pose_ex _ _ _ _ _ _ _ _ HR n Hn) as (P0 & HP0). pose proof st_now as E0.
  assert (H0 : fk (r_joints R) root (as_added s) (qf t0) (as_base s) n P0) by (unfold pose_at in HP0; rewrite <- E0 in HP0; exact HP0).
  destruct (fk_moves R root sorted jsorted _ _ s m HR ND NC AX AD (as_base s) UB Ls qf (@by_name RA (map uj_name Ls) dq) t0 NL LI HD HZ n P0 H0)
    as (P' & gv & gw & _ & HP' & _). exists P'. exact HP'.
Qed.
End Moving.
