(** C89: the program that computes with IEEE doubles. *)
From Coq Require Import ZArith QArith Qreals String Ascii List Arith Lia Bool Permutation Reals Lra.
From Flocq Require Import Core BinarySingleNaN.
From Verif Require Import Base Num Pose DataStructure Urdf Kin Wrapper Decimal RealArith FloatArith Ieee
  Spec_Robot Spec_Hist Spec_Load Spec_Jac Spec_Float Spec_Ieee
  Pf_Data Rep Pf_Ops Pf_Jac Pf_Pose Pf_Reach Pf_Real Pf_Float1 Pf_Float2 Pf_Float3 Pf_Float4 Pf_Float5 Pf_Ieee1 Pf_Ieee2 Pf_Ieee3 Pf_Ieee4 Pf_Ieee5
  Thm_Pose Thm_Fk Thm_Float Ex_Robot Ex_Float Ex_Ieee.
Import ListNotations.
Local Open Scope R_scope.

(** what the three runs have in common *)
Lemma runs_double_full pf u tinyxml text top E root sorted jsorted ops' m' A L (D : nat) m0 ops m :
  platform_ok pf u -> double_unit <= u -> 0 <= A -> 1 <= L -> L <= bpow radix2 900 -> 4000000 * u * (1 + A) * (INR D + 1) <= 1 ->
  @reached RA tinyxml text E root sorted jsorted ops' m' -> tinyxml text = Some top -> moderate A L top E -> numerals_fit top ->
  @ctor (DA pf) tinyxml text = Ok m0 -> Forall2 (double_call pf (1000 * u * (1 + A)) A L) ops ops' -> run ops m0 = Some m ->
  exists R (F : @Robot (FA (ieee pf))) so sf jso (jsf : list (@UJoint (FA (ieee pf)))) t, @reached (DA pf) tinyxml text R root so jso ops m /\ clean ops = clean ops' /\
    Forall2 (joint_sim pf) (r_joints R) (r_joints F) /\ Forall2 (joint_near (ieee pf) (1000 * unit_err u A) L) (r_joints F) (r_joints E) /\
    jnames jso = jnames jsf /\ jnames jsf = jnames jsorted /\ map fst so = map fst sorted /\
    state_sim pf (after so jso ops) t /\ state_near (ieee pf) u A L t (after sorted jsorted ops') /\
    Forall2 (link_sim pf) so sf /\ Forall2 (link_near (ieee pf) u A L) sf sorted.
Proof.
  intros Hpf U1 A0 L1 Lb B Hr Et M Nf C Fc Er. destruct Hr as (Ld & O & _).
  pose proof (Hu u U1 A D A0 B) as HU. pose proof (Hu0 u U1 A D A0 B) as HU0. pose proof (Pf_Ieee5.Hw u U1 A D A0 B) as HW. pose proof (A_small u U1 A D A0 B) as HAb.
  pose proof (ieee_accurate pf u Hpf U1) as Hacc.
  destruct (load_double pf u Hpf U1 A L D A0 L1 B tinyxml text top E root Et Ld M Nf) as (R & F & LdR & LdF & SJ & SK & HJ & HK).
  destruct (load_Rep _ _ _ _ LdR) as (so & jso & m1 & OR & Em1 & _ & _). destruct (load_Rep _ _ _ _ LdF) as (sf & jsf & m2 & OF & _ & _ & _).
  pose proof (sim_jnames pf R F SJ so sf jso jsf OR OF) as E1. pose proof (jnames_both (ieee pf) u A L F E HJ sf sorted jsf jsorted OF O) as E2.
  pose proof (sim_sorted pf R F SK so sf (ord_links _ _ _ OR) (ord_links_lt _ _ _ OR) (ord_links _ _ _ OF) (ord_links_lt _ _ _ OF)) as S1.
  pose proof (sorted_both (ieee pf) u A L F E HK sf sorted (ord_links _ _ _ OF) (ord_links_lt _ _ _ OF) (ord_links _ _ _ O) (ord_links_lt _ _ _ O)) as S2.
  assert (N1 : map fst so = map fst sf) by (apply (Forall2_map_eq _ _ _ _ _ (fun a b H => proj1 H) S1)).
  assert (N2 : map fst sf = map fst sorted) by (apply (Forall2_map_eq _ _ _ _ _ (fun a b H => proj1 H) S2)).
  assert (I2 : state_near (ieee pf) u A L (@initial (FA (ieee pf)) sf jsf) (@initial RA sorted jsorted)).
  { apply initial_near; auto. intros n i I. apply (md_masses _ _ _ _ M n i). eapply Permutation_in; [apply O|exact I]. }
  pose proof (initial_sim pf u Hpf U1 A L D A0 L1 Lb B so sf sorted jso jsf jsorted S1 E1 I2) as I1.
  replace (1000 * u * (1 + A)) with (1000 * unit_err u A) in Fc by (unfold unit_err; ring).
  destruct (run_sim pf u Hpf HU A L A0 L1 Lb HAb HW (map fst sorted) ops ops' Fc) as (opsF & F' & Cl & Rs).
  exists R, F, so, sf, jso, jsf, (abs_run (map fst sorted) opsF (initial sf jsf)).
  split; [split; [exact LdR|]; split; [exact OR|]; exists m0; now split|].
  split. { rewrite <- (clean_both _ _ _ _ _ _ F'). unfold clean. apply Cl. }
  split; [exact SJ|]. split; [exact HJ|]. split; [exact E1|]. split; [exact E2|]. split; [congruence|].
  unfold after. rewrite N1, N2. split; [eapply Rs; eauto|]. split; [apply run_near; auto|]. split; [exact S1|exact S2].
Qed.
Lemma runs_double pf u tinyxml text top E root sorted jsorted ops' m' A L (D : nat) m0 ops m :
  platform_ok pf u -> double_unit <= u -> 0 <= A -> 1 <= L -> L <= bpow radix2 900 -> 4000000 * u * (1 + A) * (INR D + 1) <= 1 ->
  @reached RA tinyxml text E root sorted jsorted ops' m' -> tinyxml text = Some top -> moderate A L top E -> numerals_fit top ->
  @ctor (DA pf) tinyxml text = Ok m0 -> Forall2 (double_call pf (1000 * u * (1 + A)) A L) ops ops' -> run ops m0 = Some m ->
  exists R (F : @Robot (FA (ieee pf))) so jso (jsf : list (@UJoint (FA (ieee pf)))) t, @reached (DA pf) tinyxml text R root so jso ops m /\ clean ops = clean ops' /\
    Forall2 (joint_sim pf) (r_joints R) (r_joints F) /\ Forall2 (joint_near (ieee pf) (1000 * unit_err u A) L) (r_joints F) (r_joints E) /\
    jnames jso = jnames jsf /\ jnames jsf = jnames jsorted /\ map fst so = map fst sorted /\
    state_sim pf (after so jso ops) t /\ state_near (ieee pf) u A L t (after sorted jsorted ops').
Proof.
  intros Hpf U1 A0 L1 Lb B Hr Et M Nf C Fc Er.
  destruct (runs_double_full pf u _ _ _ _ _ _ _ _ _ A L D _ _ _ Hpf U1 A0 L1 Lb B Hr Et M Nf C Fc Er) as (R & F & so & sf & jso & jsf & t & H1 & H2 & H3 & H4 & H5 & H6 & H7 & H8 & H9 & _).
  exists R, F, so, jso, jsf, t. repeat (split; [assumption|]). assumption.
Qed.

Lemma double_links pf u A L so sorted (s : @AState (DA pf)) t (s' : @AState RA) : map fst so = map fst sorted -> state_sim pf s t -> state_near (ieee pf) u A L t s' ->
  all_links so s = all_links sorted s'.
Proof.
  intros Es S1 S2. unfold all_links. rewrite Es. f_equal. rewrite (sim_frames_names pf _ _ (ss_added _ _ _ S1)). apply (frames_names (ieee pf) u A L), S2.
Qed.

(** C89.  The program that computes with IEEE doubles (infinities and NaN included) loads every
    document that loads exactly, if its numerals are below 2^1000; after the same calls, with
    all lengths at most [L] <= 2^900 and all angles at most [A], it has the same links, and
    every pose it reports consists of finite doubles within the bounds of C76. *)
Theorem C89_double_poses :
  forall (pf : Platform) (u : R), platform_ok pf u -> double_unit <= u ->
  forall tinyxml text top E root sorted jsorted ops' m',
    @reached RA tinyxml text E root sorted jsorted ops' m' -> clean ops' = true -> tinyxml text = Some top ->
    let s' := after sorted jsorted ops' in
  forall A L D, 0 <= A -> 1 <= L -> L <= bpow radix2 900 -> moderate A L top E -> numerals_fit top ->
    within_range A L (r_joints E) (by_name (jnames jsorted) (as_angles s')) ->
    (forall n d, levels (r_joints E) root (as_added s') n d -> (d <= D)%nat) ->
    4000000 * u * (1 + A) * (INR D + 1) <= 1 ->
    (exists m0, @ctor (DA pf) tinyxml text = Ok m0) /\
    forall m0 ops m, @ctor (DA pf) tinyxml text = Ok m0 ->
      Forall2 (double_call pf (1000 * u * (1 + A)) A L) ops ops' -> run ops m0 = Some m ->
      get_link_names m = get_link_names m' /\
      forall i m1 P m2 P', (i < length (get_link_names m'))%nat ->
        get_link_pose i m = (m1, Ok P) -> get_link_pose i m' = (m2, Ok P') ->
        finite_pose pf P /\
        q_error pf (rotation P) (rotation P') <= 150000 * u * (1 + A) * (INR D + 1) /\
        v_error pf (position P) (position P') <= 4000000 * u * (1 + A) * L * (INR D + 1) ^ 2.
Proof.
  intros pf u Hpf U1 tinyxml text top E root sorted jsorted ops' m' Hr Hc Et s' A L D A0 L1 Lb M Nf W HD B. split.
  - destruct (load_double pf u Hpf U1 A L D A0 L1 B tinyxml text top E root Et (proj1 Hr) M Nf) as (R & F & LdR & _).
    destruct (load_Rep _ _ _ _ LdR) as (so & jso & m1 & OR & Em1 & _ & _). eauto.
  - intros m0 ops m C Fc Er.
    destruct (runs_double pf u _ _ _ _ _ _ _ _ _ A L D _ _ _ Hpf U1 A0 L1 Lb B Hr Et M Nf C Fc Er) as (R & F & so & jso & jsf & t & Hx & Cl & SJ & HJ & E1 & E2 & Es & Ss & Sn).
    fold s' in Sn. rewrite Hc in Cl. destruct (C01_link_pose_is_chain_product (DA pf) _ _ _ _ _ _ _ _ Hx Cl) as (N1 & _ & P1).
    destruct (C01_link_pose_is_chain_product RA _ _ _ _ _ _ _ _ Hr Hc) as (N2 & Ex2 & P2).
    pose proof (double_links pf u A L so sorted _ t s' Es Ss Sn) as EN.
    split; [rewrite N1, N2; exact EN|]. intros i m1 P m2 P' Hi X1 X2. rewrite N2 in Hi. fold s' in Hi.
    destruct (nth_error (all_links sorted s') i) as [n|] eqn:En; [|apply nth_error_None in En; lia].
    destruct (P2 i n En) as [Q2 _]. specialize (Q2 _ _ X2). rewrite EN in P1. destruct (P1 i n En) as [Q1 _]. specialize (Q1 _ _ X1).
    destruct (double_pose pf u Hpf U1 A L D A0 L1 Lb B R F E jso jsf jsorted _ t s' root SJ HJ E1 E2 Ss Sn W HD n P Q1) as [Fin (P'' & H1 & H2 & H3)].
    split; [exact Fin|]. destruct (Ex2 n (nth_error_In _ _ En)) as (P0 & _ & Uq). rewrite <- (Uq _ Q2), (Uq _ H1). now split.
Qed.
Print Assumptions C89_double_poses.

Lemma finite_part pf (a : @Vector3 (DA pf)) (b : @Vector3 RA) : Rabs (value (vx a) - vx b) <= v_error pf a b /\ Rabs (value (vy a) - vy b) <= v_error pf a b /\ Rabs (value (vz a) - vz b) <= v_error pf a b.
Proof.
  unfold v_error. pose proof (pow2_ge_0 (value (vx a) - vx b)). pose proof (pow2_ge_0 (value (vy a) - vy b)). pose proof (pow2_ge_0 (value (vz a) - vz b)).
  repeat split; apply sq_le; lra.
Qed.
Lemma finite_qpart pf (a : @Rotation (DA pf)) (b : @Rotation RA) : Rabs (value (qx a) - qx b) <= q_error pf a b /\ Rabs (value (qy a) - qy b) <= q_error pf a b /\
  Rabs (value (qz a) - qz b) <= q_error pf a b /\ Rabs (value (qw a) - qw b) <= q_error pf a b.
Proof.
  unfold q_error. pose proof (pow2_ge_0 (value (qx a) - qx b)). pose proof (pow2_ge_0 (value (qy a) - qy b)). pose proof (pow2_ge_0 (value (qz a) - qz b)). pose proof (pow2_ge_0 (value (qw a) - qw b)).
  repeat split; apply sq_le; lra.
Qed.
Lemma Forall2_nth {B C} (P : B -> C -> Prop) l l' k y : Forall2 P l l' -> nth_error l' k = Some y -> exists x, nth_error l k = Some x /\ P x y.
Proof. intros F. revert k. induction F as [|a b l l' H F IH]; intros [|k]; cbn; try discriminate; [intros [= <-]; eauto | apply IH]. Qed.

(** C89 for solve_fk: each reported position, and each reported quaternion, is finite and near
    the exact one. *)
Theorem C89_double_waypoints :
  forall (pf : Platform) (u : R), platform_ok pf u -> double_unit <= u ->
  forall tinyxml text top E root sorted jsorted ops' m',
    @reached RA tinyxml text E root sorted jsorted ops' m' -> tinyxml text = Some top ->
    let s' := after sorted jsorted ops' in
  forall A L D, 0 <= A -> 1 <= L -> L <= bpow radix2 900 -> moderate A L top E -> numerals_fit top ->
    (forall n d, levels (r_joints E) root (as_added s') n d -> (d <= D)%nat) ->
    4000000 * u * (1 + A) * (INR D + 1) <= 1 ->
  forall m0 ops m, @ctor (DA pf) tinyxml text = Ok m0 ->
    Forall2 (double_call pf (1000 * u * (1 + A)) A L) ops ops' -> run ops m0 = Some m ->
  forall (qs : list (list double)) (qs' : list (list R)) elinks jids rt wb wj m1 P J m2 P' J',
    Forall2 same_numbers qs qs' ->
    (forall k, In k jids -> (k < length (get_joint_names m'))%nat) -> bases_within A L wb qs' ->
    (forall q, In q qs' -> within_range A L (r_joints E) (by_name (jnames jsorted) (as_angles (at_waypoint (A := RA) jids wb q s')))) ->
    @solve_forward_kinematics (DA pf) qs elinks jids rt wb wj false m = (m1, Ok (P, J)) ->
    @solve_forward_kinematics RA qs' elinks jids rt wb wj false m' = (m2, Ok (P', J')) ->
    forall a b i, (a < length qs')%nat -> nth_error elinks b = Some i -> (i < length (get_link_names m'))%nat ->
    exists row row', nth_error P (a * length elinks + b) = Some row /\ nth_error P' (a * length elinks + b) = Some row' /\
      forall k x x', nth_error row k = Some x -> nth_error row' k = Some x' ->
        ((k < 3)%nat -> finite x /\ Rabs (value x - x') <= 4000000 * u * (1 + A) * L * (INR D + 1) ^ 2) /\
        ((3 <= k)%nat -> rt = XYZW -> finite x /\ Rabs (value x - x') <= 150000 * u * (1 + A) * (INR D + 1)).
Proof.
  intros pf u Hpf U1 tinyxml text top E root sorted jsorted ops' m' Hr Et s' A L D A0 L1 Lb M Nf HD B m0 ops m C Fc Er
    qs qs' elinks jids rt wb wj m1 P J m2 P' J' Hq Hk Hb W X1 X2 a b i Ha Eb Hi.
  pose proof (Hu u U1 A D A0 B) as HU. pose proof (Hu0 u U1 A D A0 B) as HU0. pose proof (Pf_Ieee5.Hw u U1 A D A0 B) as HW. pose proof (A_small u U1 A D A0 B) as HAb.
  destruct (runs_double pf u _ _ _ _ _ _ _ _ _ A L D _ _ _ Hpf U1 A0 L1 Lb B Hr Et M Nf C Fc Er) as (R & F & so & jso & jsf & t & Hx & Cl & SJ & HJ & E1 & E2 & Es & Ss & Sn).
  fold s' in Sn. pose proof (double_links pf u A L so sorted _ t s' Es Ss Sn) as EN.
  destruct (reached_Rep _ _ _ _ _ _ _ _ Hx) as [HR1 _]. destruct (reached_Rep _ _ _ _ _ _ _ _ Hr) as [HR2 _].
  assert (EJ : jnames jso = jnames jsorted) by congruence.
  assert (Hk1 : forall k, In k jids -> (k < length (get_joint_names m))%nat).
  { intros k I. specialize (Hk k I). rewrite (rep_joint_count _ _ _ _ _ _ _ _ HR1). rewrite (rep_joint_count _ _ _ _ _ _ _ _ HR2) in Hk.
    apply (f_equal (@length string)) in EJ. unfold jnames in EJ. rewrite !map_length in EJ. rewrite EJ. exact Hk. }
  destruct (@fk_values (DA pf) _ _ _ _ _ _ _ _ qs elinks jids rt wb wj false _ _ _ Hx (orb_true_r wb) Hk1 X1) as [_ V1].
  destruct (@fk_values RA _ _ _ _ _ _ _ _ qs' elinks jids rt wb wj false _ _ _ Hr (orb_true_r wb) Hk X2) as [_ V2].
  rewrite (rep_all_links _ _ _ _ _ _ _ _ HR1), EN in V1. rewrite (rep_all_links _ _ _ _ _ _ _ _ HR2) in V2, Hi. fold s' in V2, Hi.
  destruct (nth_error qs' a) as [q'|] eqn:Eq'; [|apply nth_error_None in Eq'; lia].
  destruct (Forall2_nth _ _ _ _ _ Hq Eq') as (q & Eq & Sq).
  destruct (nth_error (all_links sorted s') i) as [n|] eqn:En; [|apply nth_error_None in En; lia].
  destruct (V1 a b q i n Eq Eb En) as [(Q1 & HQ1 & R1) _]. destruct (V2 a b q' i n Eq' Eb En) as [(Q2 & HQ2 & R2) _].
  assert (Iq : In q' qs') by (eapply nth_error_In; eauto).
  assert (Bq : wb = true -> base_within A L (skipn (length q' - 6) q')) by (intros Ew; now apply Hb).
  assert (Sw : state_near (ieee pf) u A L (@at_waypoint (FA (ieee pf)) jids wb q' t) (@at_waypoint RA jids wb q' s')).
  { apply way_near; auto. exact (ieee_accurate pf u Hpf U1). }
  assert (Sd : state_sim pf (@at_waypoint (DA pf) jids wb q (after so jso ops)) (@at_waypoint (FA (ieee pf)) jids wb q' t)).
  { apply (way_sim pf u Hpf HU A L A0 L1 Lb HAb HW); auto. }
  destruct (double_pose pf u Hpf U1 A L D A0 L1 Lb B R F E jso jsf jsorted _ _ _ root SJ HJ E1 E2 Sd Sw (W q' Iq) HD n Q1 HQ1) as [[(F1 & F2 & F3) (G1 & G2 & G3 & G4)] (Q & H1 & H2 & H3)].
  rewrite (way_det _ _ _ _ _ _ _ _ _ _ _ _ _ _ Hr H1 HQ2) in H2, H3.
  exists (link_row rt Q1), (link_row rt Q2). split; [exact R1|]. split; [exact R2|].
  destruct (finite_part pf (position Q1) (position Q2)) as (D1 & D2 & D3). destruct (finite_qpart pf (rotation Q1) (rotation Q2)) as (D4 & D5 & D6 & D7).
  intros k x x' Kx Kx'. split.
  - intros K. assert (K' : k = 0%nat \/ k = 1%nat \/ k = 2%nat) by lia.
    destruct K' as [-> | [-> | ->]]; cbn in Kx, Kx'; injection Kx as <-; injection Kx' as <-; (split; [assumption | eapply Rle_trans; eassumption]).
  - intros K ->. assert (K' : (k = 3 \/ k = 4 \/ k = 5 \/ k = 6 \/ 7 <= k)%nat) by lia.
    destruct K' as [-> | [-> | [-> | [-> | K7]]]].
    1-4: cbn in Kx, Kx'; injection Kx as <-; injection Kx' as <-; (split; [assumption | eapply Rle_trans; eassumption]).
    exfalso. assert (X : (k < length (link_row XYZW Q1))%nat) by (apply nth_error_Some; rewrite Kx; discriminate). cbn in X. lia.
Qed.
Print Assumptions C89_double_waypoints.

(** both theorems apply to a platform with correctly rounded functions and the robot of C76 *)
Example C89_example :
  platform_ok ex_pf double_unit /\ 2 <= bpow radix2 900 /\ moderate 2 2 fl_top fl_R /\ numerals_fit fl_top /\ clean fl_exact = true /\
  (forall n d, levels (r_joints fl_R) "base" (as_added fl_s) n d -> (d <= 3)%nat) /\
  within_range 2 2 (r_joints fl_R) (by_name (jnames fl_jsorted) (as_angles fl_s)) /\
  4000000 * double_unit * (1 + 2) * (INR 3 + 1) <= 1 /\
  (exists m', reached fl_tinyxml ex_text fl_R "base" fl_sorted fl_jsorted fl_exact m' /\
     (forall i, (i < 5)%nat -> exists m2 P', get_link_pose i m' = (m2, Ok P')) /\
     exists m2 P' J', solve_forward_kinematics fl_qs [4; 2]%nat [0; 1]%nat XYZW true true false m' = (m2, Ok (P', J'))) /\
  (exists m0 m, @ctor (DA ex_pf) fl_tinyxml ex_text = Ok m0 /\ run (fl_double ex_pf) m0 = Some m /\
     Forall2 (double_call ex_pf (1000 * double_unit * (1 + 2)) 2 2) (fl_double ex_pf) fl_exact /\
     (forall i, (i < 5)%nat -> exists m1 P, get_link_pose i m = (m1, Ok P)) /\
     exists m1 P J, @solve_forward_kinematics (DA ex_pf) fl_dqs [4; 2]%nat [0; 1]%nat XYZW true true false m = (m1, Ok (P, J))) /\
  Forall2 same_numbers fl_dqs fl_qs /\ bases_within 2 2 true fl_qs /\
  (forall q, In q fl_qs -> within_range 2 2 (r_joints fl_R) (by_name (jnames fl_jsorted) (as_angles (at_waypoint (A := RA) [0; 1]%nat true q fl_s)))).
Proof.
  split; [exact ex_pf_ok|]. split; [change 2 with (bpow radix2 1); apply bpow_le; lia|]. split; [exact fl_moderate|]. split; [exact fl_fits|]. split; [reflexivity|]. split; [exact fl_levels3|].
  split. { apply fl_within; rewrite fl_angles; [|reflexivity]. intros x [<-|[<-|[]]]; apply Rabs_le; lra. }
  split; [exact fl_small|]. split; [exact fl_exact_runs|]. split; [|split; [exact fl_dqs_same | split; [exact fl_bases | exact fl_ways]]].
  destruct (@fl_check_ok (DA ex_pf) _ _ (fl_check_double (p_lit ex_pf) (p_sin ex_pf) (p_cos ex_pf) (p_asin ex_pf) (p_atan2 ex_pf) of_real (fun q => round_real (Q2R q)) fl_dqs eq_refl)) as (m0 & m & C & Er & H1 & H2). exists m0, m.
  split; [exact C|]. split; [exact Er|]. split; [apply fl_double_calls|]. split; [exact H1|exact H2].
Qed.
