(** Jacobian columns computed with doubles are those of rounded arithmetic without a largest
    number: nothing in them overflows. *)
From Coq Require Import ZArith QArith Qreals String Ascii List Arith Lia Bool Permutation Reals Lra Classical.
From Flocq Require Import Core BinarySingleNaN.
From Verif Require Import Base Num Pose DataStructure Urdf Kin Wrapper Decimal RealArith FloatArith Ieee
  Spec_Robot Spec_Hist Spec_Load Spec_Jac Spec_Deriv Spec_Float Spec_Ieee
  Pf_Data Pf_Urdf Inv Pf_FK Rep Pf_Ops Pf_Jac Pf_Pose Pf_Reach Pf_Real Pf_Float1 Pf_Float2 Pf_Float3 Pf_Float4 Pf_Float5 Pf_Float6 Pf_JacD Pf_Ieee1 Pf_Ieee2 Pf_Ieee3 Pf_Ieee4 Pf_Ieee5.
Import ListNotations.
Local Open Scope R_scope.

Section Cols.
Variable pf : Platform.
Variable u : R.
Hypothesis Hpf : platform_ok pf u.
Hypothesis Hu : double_unit <= u <= / 1000.
Notation o := (ieee pf).
Let Hu1 : double_unit <= u := proj1 Hu.

Lemma sim_v_sub k l a b a' b' : simv pf k a a' -> simv pf l b b' -> (-1074 <= Z.max k l + 1 < 1024)%Z -> simv pf (Z.max k l + 1) (v_sub a b) (v_sub a' b').
Proof. intros (X & Y & Z) (X' & Y' & Z') K. split; [|split]; cbn [v_sub vx vy vz]; apply (sim_sub pf); auto. Qed.
Lemma sim_cross k l a b a' b' : simv pf k a a' -> simv pf l b b' -> (-1000 <= k + l <= 1000)%Z ->
  simv pf (k + l + 1) (cross_product a b) (cross_product a' b').
Proof.
  intros (X & Y & Z) (X' & Y' & Z') K.
  split; [|split]; cbn [cross_product vx vy vz]; (eapply sim_le; [|eapply (sim_sub pf); [eapply (sim_mul pf)|eapply (sim_mul pf)|]; try eassumption; lia]; lia).
Qed.
Lemma sim_derivative k q q' v v' : simq pf 1 q q' -> simv pf k v v' -> (0 <= k <= 900)%Z -> simq pf (k + 6) (q_derivative q v) (q_derivative q' v').
Proof.
  intros (A1 & A2 & A3 & A4) (B1 & B2 & B3) K. pose proof (proj1 (lit0 pf u Hpf Hu1)) as Z. pose proof (lit_half pf u Hpf) as H. unfold q_derivative. cbv zeta.
  pose proof (sim_opp pf _ _ _ B1) as O1. pose proof (sim_opp pf _ _ _ B2) as O2. pose proof (sim_opp pf _ _ _ B3) as O3.
  split; [|split; [|split]]; cbn [qx qy qz qw]; try apply (sim_opp pf);
    (eapply sim_le; [|eapply (sim_mul pf); [exact H| first
      [ eapply (sim_add pf); [eapply (sim_sub pf); [eapply (sim_add pf); [eapply (sim_mul pf) | eapply (sim_mul pf) |] | eapply (sim_mul pf) |] | eapply (sim_mul pf) |]; try eassumption; lia
      | eapply (sim_add pf); [eapply (sim_add pf); [eapply (sim_add pf); [eapply (sim_mul pf) | eapply (sim_mul pf) |] | eapply (sim_mul pf) |] | eapply (sim_mul pf) |]; try eassumption; lia
      | eapply (sim_add pf); [eapply (sim_add pf); [eapply (sim_sub pf); [eapply (sim_mul pf) | eapply (sim_mul pf) |] | eapply (sim_mul pf) |] | eapply (sim_mul pf) |]; try eassumption; lia
      | eapply (sim_add pf); [eapply (sim_sub pf); [eapply (sim_sub pf); [eapply (sim_mul pf) | eapply (sim_mul pf) |] | eapply (sim_mul pf) |] | eapply (sim_mul pf) |]; try eassumption; lia ] |]]; lia).
Qed.
(** [Rotation::inverse] against [GetInverse]: the same numbers when the norm is positive *)
Lemma sim_q_inverse (q : @Rotation (DA pf)) (q' : @Rotation (FA o)) (q0 : quat) : simq pf 1 q q' -> unit_q q0 -> dist (qR o q') q0 <= / 20 ->
  simq pf 1 (q_inverse q) (q_inverse q').
Proof.
  intros Sq U D. pose proof (near_small_inv pf u Hpf Hu q' q0 U D) as Sm.
  pose proof (inverse_same o u (ieee_accurate pf u Hpf Hu1) ltac:(unfold double_unit in Hu1; lra) q' q0 (/ 20) ltac:(lra) U D) as E.
  pose proof (sim_norm2 pf q q' Sq) as N2.
  assert (Np : q_norm2 q' <> 0).
  { pose proof (ieee_accurate pf u Hpf Hu1) as Hacc. assert (Hu0 : 0 <= u <= / 1000) by (unfold double_unit in Hu1; lra).
    assert (N1 : Rabs (N (qR o q') - 1) <= / 20). { rewrite <- (N_unit q0 U). eapply Rle_trans; [apply N_dist_abs|exact D]. }
    assert (HE : 0 <= / 20 <= / 8) by lra. pose proof (qn_near _ _ HE N1) as Q1. pose proof (round_norm2 o u Hacc Hu0 q') as R1.
    apply Rabs_le_inv in Q1. assert (X : 10 * u * (1 + qn (qR o q')) <= 30 * u) by nra. apply Rabs_le_inv in R1. lra. }
  rewrite <- E in Sm. destruct Sm as (B1 & B2 & B3 & B4). destruct Sq as (A1 & A2 & A3 & A4). unfold q_inverse in *. cbv zeta in *. cbn [qx qy qz qw] in *.
  split; [|split; [|split]]; cbn [qx qy qz qw]; (eapply (sim_div pf); [try apply (sim_opp pf); eassumption | exact N2 | exact Np | lia | assumption]).
Qed.

Lemma column_sim rt (j : @UJoint (DA pf)) (j' : @UJoint (FA o)) (E C : @Pose (DA pf)) (E' C' : @Pose (FA o)) (E0 C0 : @Pose RA) :
  uj_type j = uj_type j' -> simv pf 1 (uj_axis j) (uj_axis j') -> simp pf 950 E E' -> simp pf 950 C C' ->
  unit_q (rotation E0) -> dist (qR o (rotation E')) (rotation E0) <= / 20 -> unit_q (rotation C0) -> dist (qR o (rotation C')) (rotation C0) <= / 20 ->
  forall r x, (r < 3)%nat \/ rt = XYZW -> nth_error (geometric_column rt j E C) r = Some x ->
    exists x', nth_error (geometric_column rt j' E' C') r = Some x' /\ sim 1000 x x'.
Proof.
  intros Ty Ax [Ev Eq] [Cv Cq] UE DE UC DC.
  pose proof (sim_rot pf u Hpf Hu 1 _ _ _ _ Cq Ax (near_small_inv pf u Hpf Hu _ _ UC DC) ltac:(lia)) as Sa. cbn [Z.add Pos.add] in Sa.
  pose proof (sim_v_sub 950 950 _ _ _ _ Ev Cv ltac:(lia)) as Sl. cbn [Z.max Z.compare Pos.compare Pos.compare_cont Z.add Pos.add] in Sl.
  pose proof (sim_cross _ _ _ _ _ _ Sa Sl ltac:(lia)) as Sc.
  pose proof (sim_derivative _ _ _ _ _ (sim_q_inverse _ _ _ Eq UE DE) Sa ltac:(lia)) as Sd.
  assert (V : forall k (v : @Vector3 (DA pf)) (v' : @Vector3 (FA o)) t t' r x, (k <= 1000)%Z -> simv pf k v v' -> (r < 3)%nat ->
     nth_error (v_list v ++ t) r = Some x -> exists x', nth_error (v_list v' ++ t') r = Some x' /\ sim 1000 x x').
  { intros k v v' t t' r x K (X & Y & Z) Lr. destruct r as [|[|[|r]]]; [| | |lia]; cbn [v_list app nth_error]; intros H; apply Some_eq in H; subst x; (eexists; split; [reflexivity|]; eapply sim_le; [exact K|assumption]). }
  intros r x Hr. unfold geometric_column. rewrite Ty. cbv zeta. destruct (Nat.ltb_spec r 3) as [Lr|Lr].
  - destruct (uj_type j'); first [apply (V (9 + 951 + 1)%Z); [lia|exact Sc|exact Lr] | apply (V 9%Z); [lia|exact Sa|exact Lr]].
  - destruct Hr as [Hr|Er]; [lia|]. rewrite Er.
    assert (Q : nth_error (v_list (cross_product (q_rot (rotation C) (uj_axis j)) (v_sub (position E) (position C))) ++ q_list (q_derivative (q_inverse (rotation E)) (q_rot (rotation C) (uj_axis j)))) r = Some x ->
      exists x', nth_error (v_list (cross_product (q_rot (rotation C') (uj_axis j')) (v_sub (position E') (position C'))) ++ q_list (q_derivative (q_inverse (rotation E')) (q_rot (rotation C') (uj_axis j')))) r = Some x' /\ sim 1000 x x').
    { destruct Sd as (X & Y & Z & W). destruct r as [|[|[|[|[|[|[|r]]]]]]]; try lia; cbn [v_list q_list app nth_error]; intros H; try (destruct r; discriminate H); apply Some_eq in H; subst x; (eexists; split; [reflexivity|]; eapply sim_le; [|eassumption]; lia). }
    destruct (uj_type j'); try exact Q.
    unfold zeros. cbn [jac_rows Nat.sub]. destruct r as [|[|[|[|[|[|[|r]]]]]]]; try lia; cbn [v_list repeat app nth_error]; intros H;
      try (destruct r; discriminate H); apply Some_eq in H; subst x; (eexists; split; [reflexivity|]; eapply sim_le; [|exact (proj1 (lit0 pf u Hpf Hu1))]; lia).
Qed.
End Cols.

Lemma entry_found {AA : Arith} (J : @mat AA) nr nc r c x : has_shape nr nc J -> (c < nc)%nat -> nth_error (@column AA c J) r = Some x ->
  exists row, nth_error J r = Some row /\ nth_error row c = Some x.
Proof.
  intros [_ H] Lc. unfold column. rewrite nth_error_map. destruct (nth_error J r) as [row|] eqn:E; [|discriminate]. cbn [option_map]. intros X. apply Some_eq in X.
  exists row. split; [reflexivity|]. rewrite <- X. apply nth_error_nth'. rewrite (H row (nth_error_In _ _ E)). exact Lc.
Qed.

Section Jac.
Variable pf : Platform.
Variable u : R.
Hypothesis Hpf : platform_ok pf u.
Hypothesis Hu1 : double_unit <= u.
Variables A L : R.
Variable D : nat.
Hypothesis HA : 0 <= A.
Hypothesis HL : 1 <= L.
Hypothesis HLb : L <= bpow radix2 900.
Hypothesis HB : 4000000 * u * (1 + A) * (INR D + 1) <= 1.
Notation o := (ieee pf).
Notation w := (unit_err u A).
Notation e := (1000 * unit_err u A).
Variables (R : @Robot (DA pf)) (F : @Robot (FA o)) (E : @Robot RA).
Variables (so : list (string * option (@Inertial (DA pf)))) (se : list (string * option (@Inertial RA))).
Variables (jso : list (@UJoint (DA pf))) (jsf : list (@UJoint (FA o))) (jse : list (@UJoint RA)).
Variables (s : @AState (DA pf)) (t : @AState (FA o)) (s' : @AState RA).
Variable root : string.
Hypothesis HS : Forall2 (joint_sim pf) (r_joints R) (r_joints F).
Hypothesis HN : Forall2 (joint_near o e L) (r_joints F) (r_joints E).
Hypothesis OR : ordered R so jso.
Hypothesis OE : ordered E se jse.
Hypothesis E1 : jnames jso = jnames jsf.
Hypothesis E2 : jnames jsf = jnames jse.
Hypothesis Ss : state_sim pf s t.
Hypothesis Sn : state_near o u A L t s'.
Hypothesis W : within_range A L (r_joints E) (by_name (jnames jse) (as_angles s')).
Hypothesis HD : forall n d, levels (r_joints E) root (as_added s') n d -> (d <= D)%nat.
Hypothesis Det : forall n P1 P2, pose_at E root jse s' n P1 -> pose_at E root jse s' n P2 -> P1 = P2.

Lemma same_carries j j' n : uj_child j = uj_child j' -> carries (r_joints R) (as_added s) j n <-> carries (r_joints E) (as_added s') j' n.
Proof.
  intros Ec. split; apply carries_same; auto.
  - intros x Ix. destruct (Forall2_in_l _ _ _ HS x Ix) as (y & Iy & N1). destruct (Forall2_in_l _ _ _ HN y Iy) as (z & Iz & N2). exists z. split; [exact Iz|].
    rewrite (js_parent _ _ _ N1), (js_child _ _ _ N1). split; [apply (jn_parent _ _ _ _ _ N2)|apply (jn_child _ _ _ _ _ N2)].
  - intros x p T I. destruct (Forall2_in_l _ _ _ (ss_added _ _ _ Ss) _ I) as ([[n1 p1] T1] & I1 & H1 & _). cbn [fst snd] in H1. inversion H1; subst.
    destruct (Forall2_in_l _ _ _ (sn_added _ _ _ _ _ _ Sn) _ I1) as ([[n2 p2] T2] & I2 & H2 & _). cbn [fst snd] in H2. inversion H2; subst. now exists T2.
  - intros x Ix. destruct (Forall2_in_r _ _ _ HN x Ix) as (y & Iy & N1). destruct (Forall2_in_r _ _ _ HS y Iy) as (z & Iz & N2). exists z. split; [exact Iz|].
    rewrite (js_parent _ _ _ N2), (js_child _ _ _ N2). split; symmetry; [apply (jn_parent _ _ _ _ _ N1)|apply (jn_child _ _ _ _ _ N1)].
  - intros x p T I. destruct (Forall2_in_r _ _ _ (sn_added _ _ _ _ _ _ Sn) _ I) as ([[n1 p1] T1] & I1 & H1 & _). cbn [fst snd] in H1. inversion H1; subst.
    destruct (Forall2_in_r _ _ _ (ss_added _ _ _ Ss) _ I1) as ([[n2 p2] T2] & I2 & H2 & _). cbn [fst snd] in H2. inversion H2; subst. now exists T2.
Qed.

Lemma column_length {AA : Arith} rt (jj : @UJoint AA) X Y : length (geometric_column rt jj X Y) = jac_rows rt.
Proof. unfold geometric_column, zeros. destruct (uj_type jj); rewrite app_length; destruct rt; reflexivity. Qed.

Lemma double_jac n rt jids wb J J' c k r :
  is_jacobian R root jso s rt n jids wb J -> is_jacobian E root jse s' rt n jids wb J' ->
  nth_error jids c = Some k -> (k < length jse)%nat -> (r < jac_rows rt)%nat -> (r < 3)%nat \/ rt = XYZW ->
  exists row x, nth_error J r = Some row /\ nth_error row c = Some x /\ finite x /\
    ((r < 3)%nat -> Rabs (value x - entry J' r c) <= 40000000 * u * (1 + A) * L * (INR D + 1) ^ 2) /\
    ((3 <= r)%nat -> Rabs (value x - entry J' r c) <= 4000000 * u * (1 + A) * (INR D + 1)).
Proof.
  intros [Sh (P & HP & HC & _)] [Sh' (P' & HP' & HC' & _)] Ec Hk Hr Hrt.
  pose proof (ieee_accurate pf u Hpf Hu1) as Hacc. pose proof (Hu u Hu1 A D HA HB) as HU. pose proof (Hu0 u Hu1 A D HA HB) as HU0. pose proof (Pf_Ieee5.Hw u Hu1 A D HA HB) as HW.
  assert (EJ : jnames jso = jnames jse) by congruence.
  destruct (nth_error jse k) as [j'|] eqn:Ej'; [|apply nth_error_None in Ej'; lia].
  assert (Ll : length jso = length jse) by (apply (f_equal (@length string)) in EJ; unfold jnames in EJ; now rewrite !map_length in EJ).
  destruct (nth_error jso k) as [j|] eqn:Ej; [|apply nth_error_None in Ej; lia].
  assert (Nj : uj_name j = uj_name j').
  { apply Some_eq. rewrite <- (map_nth_error uj_name _ _ Ej), <- (map_nth_error uj_name _ _ Ej'). f_equal. exact EJ. }
  destruct (proj1 (ord_joints _ _ _ OR j) (nth_error_In _ _ Ej)) as [Ij Mj].
  destruct (Forall2_in_l _ _ _ HS j Ij) as (jf & If & SJ). destruct (Forall2_in_l _ _ _ HN jf If) as (j1 & I1 & NJ).
  assert (Mf : is_movable (uj_type jf)) by (rewrite <- (js_type _ _ _ SJ); exact Mj).
  assert (j1 = j').
  { assert (I1' : In j1 jse). { apply (ord_joints _ _ _ OE). split; [exact I1|]. rewrite <- (jn_type _ _ _ _ _ NJ). exact Mf. }
    apply In_nth_error in I1'. destruct I1' as (k1 & F1).
    pose proof (sorted_nodup _ (ord_joints_lt _ _ _ OE)) as ND. rewrite NoDup_nth_error in ND.
    assert (k1 = k); [|congruence]. apply ND; [rewrite map_length; apply nth_error_Some; rewrite F1; discriminate|].
    rewrite (map_nth_error uj_name _ _ F1), (map_nth_error uj_name _ _ Ej'). f_equal. rewrite <- Nj, (js_name _ _ _ SJ). symmetry. apply (jn_name _ _ _ _ _ NJ). }
  subst j1.
  assert (Lc : (c < length jids + (if wb then 6 else 0))%nat) by (assert (c < length jids)%nat by (apply nth_error_Some; rewrite Ec; discriminate); lia).
  destruct (HC c k j Ec Ej) as [C1 C2]. destruct (HC' c k j' Ec Ej') as [C1' C2'].
  assert (Ch : uj_child j = uj_child j') by (rewrite (js_child _ _ _ SJ); apply (jn_child _ _ _ _ _ NJ)).
  pose proof (same_carries j j' n Ch) as CC.
  assert (W0 : 0 <= w) by (unfold unit_err; apply Rmult_le_pos; lra). pose proof (pos_INR D) as D0.
  set (d := w * (INR D + 1)). set (K := L * (INR D + 1)).
  assert (wD : 0 <= w * INR D) by (apply Rmult_le_pos; lra).
  assert (LD : 0 <= L * INR D) by (apply Rmult_le_pos; lra).
  assert (uA : 0 <= u * A) by (apply Rmult_le_pos; lra).
  assert (dd : 4000000 * u * (1 + A) * (INR D + 1) = 4000000 * d) by (unfold d, unit_err; ring).
  assert (dK : forall x, x * u * (1 + A) * L * (INR D + 1) ^ 2 = x * d * K) by (intros x; unfold d, K, unit_err; ring).
  assert (B4 : 4000000 * d <= 1) by (rewrite <- dd; exact HB).
  rewrite (dK 40000000), dd, entry_column.
  destruct (classic (carries (r_joints R) (as_added s) j n)) as [Hc|Hc].
  - destruct (C2 Hc) as (Cp & HCp & Ecol). destruct (C2' (proj1 CC Hc)) as (Cp' & HCp' & ->).
    destruct (fk_sim pf u Hpf Hu1 A L D HA HL HLb HB R F E jso jsf jse s t s' root HS HN E1 E2 Ss Sn W HD n P HP) as (Pf & HPf & SP).
    destruct (fk_sim pf u Hpf Hu1 A L D HA HL HLb HB R F E jso jsf jse s t s' root HS HN E1 E2 Ss Sn W HD _ Cp HCp) as (Cf & HCf & SC).
    destruct (pose_both_full o u Hacc HU0 A L HA HL HW F E root jsf jse t s' D n Pf HN E2 Sn W HD HB HPf) as (P1 & H1 & H2 & H3 & H4 & H5).
    rewrite (Det _ _ _ H1 HP') in H2, H3, H4, H5.
    rewrite Ch in HCf.
    destruct (pose_both_full o u Hacc HU0 A L HA HL HW F E root jsf jse t s' D _ Cf HN E2 Sn W HD HB HCf) as (P2 & G1 & G2 & G3 & G4 & G5).
    rewrite (Det _ _ _ G1 HCp') in G2, G3, G4, G5.
    rewrite dK in H5, G5.
    replace (150000 * u * (1 + A) * (INR D + 1)) with (150000 * d) in H4, G4 by (unfold d, unit_err; ring).
    assert (Q1 : dist (qR o (rotation Pf)) (rotation P') <= / 20) by (rewrite <- qdist_dist; lra).
    assert (Q2 : dist (qR o (rotation Cf)) (rotation Cp') <= / 20) by (rewrite <- qdist_dist; lra).
    destruct (joint_jsim pf u HU A L HA HL HLb HW j jf j' SJ NJ) as (_ & _ & _ & _ & _ & Ax).
    destruct (nth_error (geometric_column rt j P Cp) r) as [x|] eqn:Ex; [|apply nth_error_None in Ex; rewrite column_length in Ex; lia].
    destruct (nth_error (geometric_column rt j' P' Cp') r) as [x'|] eqn:Ex'; [|apply nth_error_None in Ex'; rewrite column_length in Ex'; lia].
    destruct (column_sim pf u Hpf HU rt j jf P Cp Pf Cf P' Cp' (js_type _ _ _ SJ) (Ax Mf) SP SC H2 Q1 G2 Q2 r x Hrt Ex) as (xf & Exf & (Fx & Vx & _)).
    destruct (entry_found J _ _ r c x Sh Lc) as (row & R1 & R2); [rewrite Ecol; exact Ex|].
    exists row, x. split; [exact R1|]. split; [exact R2|]. split; [exact Fx|].
    erewrite (nth_error_nth _ _ _ Ex'). rewrite Vx.
    assert (CN : ((r < 3)%nat -> Rabs (xf - x') <= 40000000 * d * K) /\ ((3 <= r)%nat -> rt = XYZW -> Rabs (xf - x') <= 4000000 * d)).
    { apply (column_near o u Hacc HU0 w d K L rt jf j' Pf Cf P' Cp') with (r := r); auto; unfold d, K; try lra. unfold unit_err; lra. }
    destruct CN as [CN1 CN2]. split; [exact CN1|]. intros H. apply CN2; [exact H|]. destruct Hrt; [lia|assumption].
  - assert (Ex : nth_error (@column (DA pf) c J) r = Some (@n0 (DA pf))).
    { rewrite (C1 Hc). unfold zeros. apply nth_error_repeat. exact Hr. }
    destruct (entry_found J _ _ r c _ Sh Lc Ex) as (row & R1 & R2).
    destruct (lit0 pf u Hpf Hu1) as [(Fz & Vz & _) Z0]. exists row, (@n0 (DA pf)). split; [exact R1|]. split; [exact R2|]. split; [exact Fz|].
    rewrite (C1' (fun X => Hc (proj2 CC X))).
    assert (ZR : nth r (@zeros RA (jac_rows rt)) 0 = 0).
    { unfold zeros. change (@n0 RA) with (Q2R 0). rewrite Q2R_0. apply nth_repeat. }
    assert (K0 : 0 <= d * K) by (unfold d, K; apply Rmult_le_pos; lra). assert (d0 : 0 <= d) by (unfold d; lra).
    rewrite ZR, Vz, Z0, Rminus_0_r, Rabs_R0. split; intros; lra.
Qed.
End Jac.
