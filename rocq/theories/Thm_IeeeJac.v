(** C100: Jacobians computed with IEEE doubles. *)
From Coq Require Import ZArith QArith Qreals String Ascii List Arith Lia Bool Permutation Reals Lra.
From Flocq Require Import Core BinarySingleNaN.
From Verif Require Import Base Num Pose DataStructure Urdf Kin Wrapper Decimal RealArith FloatArith Ieee
  Spec_Robot Spec_Hist Spec_Load Spec_Jac Spec_Deriv Spec_Float Spec_Ieee
  Pf_Data Inv Pf_FK Rep Pf_Ops Pf_Jac Pf_Pose Pf_Reach Pf_Wrap Pf_Real Pf_Float1 Pf_Float2 Pf_Float3 Pf_Float4 Pf_Float5 Pf_Float6
  Pf_Ieee1 Pf_Ieee2 Pf_Ieee3 Pf_Ieee4 Pf_Ieee5 Pf_Ieee6
  Thm_Pose Thm_Fk Thm_Float Thm_FloatJac Thm_Ieee Ex_Robot Ex_Float Ex_Ieee.
Import ListNotations.
Local Open Scope R_scope.

(** C100.  The Jacobian computed with IEEE doubles (infinities and NaN included) against the one
    computed exactly, after the same calls: for every joint column, the entries of the position
    rows and of the quaternion rows are finite doubles and as near to the exact ones as C83 says.
    [A] bounds all angles, [L] all lengths, [D] the number of joints above a link.  (As in C83,
    roll-pitch-yaw rows and the columns of the base are not included.) *)
Theorem C100_double_jacobians :
  forall (pf : Platform) (u : R), platform_ok pf u -> double_unit <= u ->
  forall tinyxml text top E root sorted jsorted ops' m',
    @reached RA tinyxml text E root sorted jsorted ops' m' -> clean ops' = true -> tinyxml text = Some top ->
    let s' := after sorted jsorted ops' in
  forall A L D, 0 <= A -> 1 <= L -> L <= bpow radix2 900 -> moderate A L top E -> numerals_fit top ->
    within_range A L (r_joints E) (by_name (jnames jsorted) (as_angles s')) ->
    (forall n d, levels (r_joints E) root (as_added s') n d -> (d <= D)%nat) ->
    4000000 * u * (1 + A) * (INR D + 1) <= 1 ->
  forall m0 ops m, @ctor (DA pf) tinyxml text = Ok m0 ->
    Forall2 (double_call pf (1000 * u * (1 + A)) A L) ops ops' -> run ops m0 = Some m ->
  forall i jids rt wb m1 J m2 J', (forall k, In k jids -> (k < length (get_joint_names m'))%nat) ->
    get_jacobian i jids rt wb m = (m1, Ok J) -> get_jacobian i jids rt wb m' = (m2, Ok J') ->
    forall r c, (r < jac_rows rt)%nat -> (c < length jids)%nat -> (r < 3)%nat \/ rt = XYZW ->
      exists row x, nth_error J r = Some row /\ nth_error row c = Some x /\ finite x /\
        ((r < 3)%nat -> Rabs (value x - entry J' r c) <= 40000000 * u * (1 + A) * L * (INR D + 1) ^ 2) /\
        ((3 <= r)%nat -> Rabs (value x - entry J' r c) <= 4000000 * u * (1 + A) * (INR D + 1)).
Proof.
  intros pf u Hpf U1 tinyxml text top E root sorted jsorted ops' m' Hr Hc Et s' A L D A0 L1 Lb M Nf W HD B m0 ops m C Fc Er
    i jids rt wb m1 J m2 J' Hk X1 X2 r c Lr Lc Hrt.
  destruct (runs_double pf u _ _ _ _ _ _ _ _ _ A L D _ _ _ Hpf U1 A0 L1 Lb B Hr Et M Nf C Fc Er) as (R & F & so & jso & jsf & t & Hx & Cl & SJ & HJ & E1 & E2 & Es & Ss & Sn).
  fold s' in Sn. rewrite Hc in Cl. pose proof (double_links pf u A L so sorted _ t s' Es Ss Sn) as EN.
  destruct (reached_Rep _ _ _ _ _ _ _ _ Hx) as [HR1 HC1]. destruct (reached_Rep _ _ _ _ _ _ _ _ Hr) as [HR2 HC2].
  specialize (HC1 Cl). specialize (HC2 Hc). fold s' in HR2.
  assert (G1 : Good m) by (split; auto; apply HR1). assert (G2 : Good m') by (split; auto; apply HR2).
  assert (EJ : jnames jso = jnames jsorted) by congruence.
  rewrite (rep_joint_count _ _ _ _ _ _ _ _ HR2) in Hk.
  assert (Ll : length jso = length jsorted) by (apply (f_equal (@length string)) in EJ; unfold jnames in EJ; now rewrite !map_length in EJ).
  assert (Hk1 : forall k, In k jids -> (k < length jso)%nat) by (intros k I; rewrite Ll; now apply Hk).
  destruct (jacobian_is _ _ _ _ _ _ _ _ _ _ _ _ _ _ HR1 G1 Hk1 X1) as (n & En & J1).
  destruct (jacobian_is _ _ _ _ _ _ _ _ _ _ _ _ _ _ HR2 G2 Hk X2) as (n' & En' & J2).
  rewrite EN in En. assert (n' = n) by congruence. subst n'.
  destruct (nth_error jids c) as [k|] eqn:Ek; [|apply nth_error_None in Ek; lia].
  eapply (double_jac pf u Hpf U1 A L D A0 L1 Lb B R F E so sorted jso jsf jsorted (after so jso ops) t s' root SJ HJ); eauto.
  - apply Hx.
  - apply Hr.
  - intros n' P1 P2 H1 H2. exact (rep_pose_det _ _ _ _ _ _ _ _ HR2 _ _ _ H1 H2).
  - apply Hk. eapply nth_error_In; eauto.
Qed.
Print Assumptions C100_double_jacobians.

Lemma nth_error_firstn_lt {T} n (l : list T) r : (r < n)%nat -> nth_error (firstn n l) r = nth_error l r.
Proof. revert l r. induction n as [|n IH]; intros [|x l] [|r] H; cbn [firstn nth_error]; try lia; auto. apply IH. lia. Qed.
Lemma nth_error_skipn_add {T} n (l : list T) r : nth_error (skipn n l) r = nth_error l (n + r).
Proof. revert l. induction n as [|n IH]; intros [|x l]; cbn [skipn plus]; auto; [now destruct r|]. cbn [nth_error]. apply IH. Qed.

(** the same for every waypoint and link of solve_fk *)
Theorem C100_double_waypoint_jacobians :
  forall (pf : Platform) (u : R), platform_ok pf u -> double_unit <= u ->
  forall tinyxml text top E root sorted jsorted ops' m',
    @reached RA tinyxml text E root sorted jsorted ops' m' -> tinyxml text = Some top ->
    let s' := after sorted jsorted ops' in
  forall A L D, 0 <= A -> 1 <= L -> L <= bpow radix2 900 -> moderate A L top E -> numerals_fit top ->
    (forall n d, levels (r_joints E) root (as_added s') n d -> (d <= D)%nat) ->
    4000000 * u * (1 + A) * (INR D + 1) <= 1 ->
  forall m0 ops m, @ctor (DA pf) tinyxml text = Ok m0 ->
    Forall2 (double_call pf (1000 * u * (1 + A)) A L) ops ops' -> run ops m0 = Some m ->
  forall (qs : list (list double)) (qs' : list (list R)) elinks jids rt wb m1 P J m2 P' J',
    Forall2 same_numbers qs qs' ->
    (forall k, In k jids -> (k < length (get_joint_names m'))%nat) -> bases_within A L wb qs' ->
    (forall q, In q qs' -> within_range A L (r_joints E) (by_name (jnames jsorted) (as_angles (at_waypoint (A := RA) jids wb q s')))) ->
    @solve_forward_kinematics (DA pf) qs elinks jids rt wb true false m = (m1, Ok (P, J)) ->
    @solve_forward_kinematics RA qs' elinks jids rt wb true false m' = (m2, Ok (P', J')) ->
    forall a b i r c, (a < length qs')%nat -> nth_error elinks b = Some i -> (i < length (get_link_names m'))%nat ->
      (r < jac_rows rt)%nat -> (c < length jids)%nat -> (r < 3)%nat \/ rt = XYZW ->
      let k := ((a * length elinks + b) * jac_rows rt + r)%nat in
      exists row x, nth_error J k = Some row /\ nth_error row c = Some x /\ finite x /\
        ((r < 3)%nat -> Rabs (value x - entry J' k c) <= 40000000 * u * (1 + A) * L * (INR D + 1) ^ 2) /\
        ((3 <= r)%nat -> Rabs (value x - entry J' k c) <= 4000000 * u * (1 + A) * (INR D + 1)).
Proof.
  intros pf u Hpf U1 tinyxml text top E root sorted jsorted ops' m' Hr Et s' A L D A0 L1 Lb M Nf HD B m0 ops m C Fc Er
    qs qs' elinks jids rt wb m1 P J m2 P' J' Hq Hk Hb W X1 X2 a b i r c Ha Eb Hi Lr Lc Hrt k.
  pose proof (Hu u U1 A D A0 B) as HU. pose proof (Hu0 u U1 A D A0 B) as HU0. pose proof (Pf_Ieee5.Hw u U1 A D A0 B) as HW. pose proof (A_small u U1 A D A0 B) as HAb.
  destruct (runs_double pf u _ _ _ _ _ _ _ _ _ A L D _ _ _ Hpf U1 A0 L1 Lb B Hr Et M Nf C Fc Er) as (R & F & so & jso & jsf & t & Hx & Cl & SJ & HJ & E1 & E2 & Es & Ss & Sn).
  fold s' in Sn. pose proof (double_links pf u A L so sorted _ t s' Es Ss Sn) as EN.
  destruct (reached_Rep _ _ _ _ _ _ _ _ Hx) as [HR1 _]. destruct (reached_Rep _ _ _ _ _ _ _ _ Hr) as [HR2 _].
  assert (EJ : jnames jso = jnames jsorted) by congruence.
  assert (Hk1 : forall k, In k jids -> (k < length (get_joint_names m))%nat).
  { intros k' I. specialize (Hk k' I). rewrite (rep_joint_count _ _ _ _ _ _ _ _ HR1). rewrite (rep_joint_count _ _ _ _ _ _ _ _ HR2) in Hk.
    apply (f_equal (@length string)) in EJ. unfold jnames in EJ. rewrite !map_length in EJ. rewrite EJ. exact Hk. }
  destruct (@fk_values (DA pf) _ _ _ _ _ _ _ _ qs elinks jids rt wb true false _ _ _ Hx (orb_true_r wb) Hk1 X1) as [_ V1].
  destruct (@fk_values RA _ _ _ _ _ _ _ _ qs' elinks jids rt wb true false _ _ _ Hr (orb_true_r wb) Hk X2) as [_ V2].
  rewrite (rep_all_links _ _ _ _ _ _ _ _ HR1), EN in V1. rewrite (rep_all_links _ _ _ _ _ _ _ _ HR2) in V2, Hi. fold s' in V2, Hi.
  destruct (nth_error qs' a) as [q'|] eqn:Eq'; [|apply nth_error_None in Eq'; lia].
  destruct (Forall2_nth _ _ _ _ _ Hq Eq') as (q & Eq & Sq).
  destruct (nth_error (all_links sorted s') i) as [n|] eqn:En; [|apply nth_error_None in En; lia].
  destruct (V1 a b q i n Eq Eb En) as [_ J1]. destruct (V2 a b q' i n Eq' Eb En) as [_ J2]. specialize (J1 eq_refl). specialize (J2 eq_refl).
  assert (Iq : In q' qs') by (eapply nth_error_In; eauto).
  assert (Bq : wb = true -> base_within A L (skipn (length q' - 6) q')) by (intros Ew; now apply Hb).
  assert (Sw : state_near (ieee pf) u A L (@at_waypoint (FA (ieee pf)) jids wb q' t) (@at_waypoint RA jids wb q' s')).
  { apply way_near; auto. exact (ieee_accurate pf u Hpf U1). }
  assert (Sd : state_sim pf (@at_waypoint (DA pf) jids wb q (after so jso ops)) (@at_waypoint (FA (ieee pf)) jids wb q' t)).
  { apply (way_sim pf u Hpf HU A L A0 L1 Lb HAb HW); auto. }
  destruct (nth_error jids c) as [k'|] eqn:Ek; [|apply nth_error_None in Ek; lia].
  assert (EB : entry J' k c = entry (firstn (jac_rows rt) (skipn ((a * length elinks + b) * jac_rows rt) J')) r c).
  { unfold entry, k. f_equal. rewrite nth_firstn_lt by exact Lr. now rewrite nth_skipn_add. }
  assert (EA : nth_error J k = nth_error (firstn (jac_rows rt) (skipn ((a * length elinks + b) * jac_rows rt) J)) r).
  { unfold k. rewrite nth_error_firstn_lt by exact Lr. now rewrite nth_error_skipn_add. }
  rewrite EB, EA.
  eapply (double_jac pf u Hpf U1 A L D A0 L1 Lb B R F E so sorted jso jsf jsorted _ _ _ root SJ HJ (proj1 (proj2 Hx)) (proj1 (proj2 Hr)) E1 E2 Sd Sw (W q' Iq) HD); eauto.
  - intros n' P1 P2 H1 H2. exact (way_det _ _ _ _ _ _ _ _ _ _ _ _ _ _ Hr H1 H2).
  - rewrite (rep_joint_count _ _ _ _ _ _ _ _ HR2) in Hk. apply Hk. eapply nth_error_In; eauto.
Qed.
Print Assumptions C100_double_waypoint_jacobians.

Lemma fl_jcheck_double l s c a a2 r f qs : qs = map (map r) fl_qs ->
  @fl_jcheck (DA (mkPlatform l s c a a2 (fun w => option_map f (strToDouble w)))) (@fl_ops (DA (mkPlatform l s c a a2 (fun w => option_map f (strToDouble w)))) r) qs = true.
Proof. intros ->. vm_compute. reflexivity. Qed.

(** both theorems apply to a platform with correctly rounded functions and the robot of C76
    (whose other hypotheses are shown beside C89 and C83): the Jacobian of the camera for both
    joints, and those of two waypoints *)
Example C100_example :
  platform_ok ex_pf double_unit /\ 2 <= bpow radix2 900 /\ moderate 2 2 fl_top fl_R /\ numerals_fit fl_top /\
  (exists m', reached fl_tinyxml ex_text fl_R "base" fl_sorted fl_jsorted fl_exact m' /\
     (forall k, In k [1; 0]%nat -> (k < length (get_joint_names m'))%nat) /\ (4 < length (get_link_names m'))%nat /\
     (exists m2 J', get_jacobian 4 [1; 0]%nat XYZW false m' = (m2, Ok J')) /\
     exists m2 P' J', solve_forward_kinematics fl_qs [4; 2]%nat [0; 1]%nat XYZW true true false m' = (m2, Ok (P', J'))) /\
  (exists m0 m, @ctor (DA ex_pf) fl_tinyxml ex_text = Ok m0 /\ run (fl_double ex_pf) m0 = Some m /\
     Forall2 (double_call ex_pf (1000 * double_unit * (1 + 2)) 2 2) (fl_double ex_pf) fl_exact /\
     (exists m1 J, get_jacobian 4 [1; 0]%nat XYZW false m = (m1, Ok J)) /\
     exists m1 P J, @solve_forward_kinematics (DA ex_pf) fl_dqs [4; 2]%nat [0; 1]%nat XYZW true true false m = (m1, Ok (P, J))).
Proof.
  split; [exact ex_pf_ok|]. split; [apply C89_example|]. split; [exact fl_moderate|]. split; [exact fl_fits|]. split; [exact (proj1 C83_example)|].
  destruct (@fl_jcheck_ok (DA ex_pf) _ _ (fl_jcheck_double (p_lit ex_pf) (p_sin ex_pf) (p_cos ex_pf) (p_asin ex_pf) (p_atan2 ex_pf) of_real (fun q => round_real (Q2R q)) fl_dqs eq_refl)) as (m0 & m & C & Er & H1 & H2). exists m0, m.
  split; [exact C|]. split; [exact Er|]. split; [apply fl_double_calls|]. split; [exact H1|exact H2].
Qed.
