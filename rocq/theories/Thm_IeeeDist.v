(** C101: squared distances between links, and their gradients, computed with IEEE doubles. *)
From Coq Require Import ZArith QArith Qreals String Ascii List Arith Lia Bool Permutation Reals Lra.
From Flocq Require Import Core BinarySingleNaN.
From Verif Require Import Base Num Pose DataStructure Urdf Kin Wrapper Decimal RealArith FloatArith Ieee
  Spec_Robot Spec_Hist Spec_Load Spec_Jac Spec_Mass Spec_Rot Spec_Body Spec_Deriv Spec_Float Spec_Ieee
  Pf_Data Inv Pf_FK Rep Pf_Ops Pf_Jac Pf_Pose Pf_Reach Pf_Wrap Pf_Wrap2 Pf_Mass Pf_Real Pf_Body Pf_ComD
  Pf_Float1 Pf_Float2 Pf_Float3 Pf_Float4 Pf_Float5 Pf_Float6 Pf_Float7 Pf_Float8 Pf_Float9
  Pf_Ieee1 Pf_Ieee2 Pf_Ieee3 Pf_Ieee4 Pf_Ieee5 Pf_Ieee6 Pf_Ieee7
  Thm_Pose Thm_Fk Thm_Float Thm_FloatDist Thm_Ieee Ex_Robot Ex_Float Ex_Ieee.
Import ListNotations.
Local Open Scope R_scope.

(** C101.  For every waypoint and pair of links, the squared distance computed with IEEE doubles
    (infinities and NaN included) is finite and as near to the exact one as C98 says, and so is
    every entry of its gradient for a joint.  Lengths go up to 2^400 only, since they are
    squared; [A], [L] and [D] are otherwise as in C89. *)
Theorem C101_double_distances :
  forall (pf : Platform) (u : R), platform_ok pf u -> double_unit <= u ->
  forall tinyxml text top E root sorted jsorted ops' m',
    @reached RA tinyxml text E root sorted jsorted ops' m' -> tinyxml text = Some top ->
    let s' := after sorted jsorted ops' in
  forall A L D, 0 <= A -> 1 <= L -> L <= bpow radix2 400 -> moderate A L top E -> numerals_fit top ->
    (forall n d, levels (r_joints E) root (as_added s') n d -> (d <= D)%nat) ->
    4000000 * u * (1 + A) * (INR D + 1) <= 1 ->
  forall m0 ops m, @ctor (DA pf) tinyxml text = Ok m0 ->
    Forall2 (double_call pf (1000 * u * (1 + A)) A L) ops ops' -> run ops m0 = Some m ->
  forall (qs : list (list double)) (qs' : list (list R)) ids1 ids2 jids wb wg m1 S G m2 S' G',
    Forall2 same_numbers qs qs' ->
    (forall k, In k jids -> (k < length (get_joint_names m'))%nat) -> bases_within A L wb qs' ->
    (forall q, In q qs' -> within_range A L (r_joints E) (by_name (jnames jsorted) (as_angles (at_waypoint (A := RA) jids wb q s')))) ->
    @compute_inter_link_squared_dists (DA pf) qs ids1 ids2 jids wb wg false m = (m1, Ok (S, G)) ->
    @compute_inter_link_squared_dists RA qs' ids1 ids2 jids wb wg false m' = (m2, Ok (S', G')) ->
    forall a b, (a < length qs')%nat -> (b < length ids1)%nat ->
    (exists x x', nth_error S (a * length ids1 + b) = Some x /\ nth_error S' (a * length ids1 + b) = Some x' /\
       finite x /\ Rabs (value x - x') <= 300000000 * u * (1 + A) * L ^ 2 * (INR D + 1) ^ 3) /\
    (wg = true ->
     exists g g', nth_error G (a * length ids1 + b) = Some g /\ nth_error G' (a * length ids1 + b) = Some g' /\
       forall c, (c < length jids)%nat -> exists y, nth_error g c = Some y /\
         finite y /\ Rabs (value y - nth c g' 0) <= 4000000000 * u * (1 + A) * L ^ 2 * (INR D + 1) ^ 3).
Proof.
  intros pf u Hpf U1 tinyxml text top E root sorted jsorted ops' m' Hr Et s' A L D A0 L1 Lb4 M Nf HD B m0 ops m C Fc Er
    qs qs' ids1 ids2 jids wb wg m1 Sd G m2 Sd' G' Hq Hk Hb W X1 X2 a b Ha Hb1.
  assert (Lb : L <= bpow radix2 900) by (eapply Rle_trans; [exact Lb4|]; apply bpow_le; lia).
  pose proof (Hu u U1 A D A0 B) as HU. pose proof (Hu0 u U1 A D A0 B) as HU0. pose proof (Pf_Ieee5.Hw u U1 A D A0 B) as HW. pose proof (A_small u U1 A D A0 B) as HAb.
  pose proof (ieee_accurate pf u Hpf U1) as Hacc. pose proof (proj1 HU0) as U0.
  destruct (runs_double pf u _ _ _ _ _ _ _ _ _ A L D _ _ _ Hpf U1 A0 L1 Lb B Hr Et M Nf C Fc Er) as (R & F & so & jso & jsf & t0 & Hx & Cl & SJ & HJ & EJ1 & EJ2 & Es & Ss & Sn).
  fold s' in Sn.
  destruct (reached_Rep _ _ _ _ _ _ _ _ Hx) as [HR1 _]. destruct (reached_Rep _ _ _ _ _ _ _ _ Hr) as [HR2 _]. fold s' in HR2.
  assert (EJ : jnames jso = jnames jsorted) by congruence.
  assert (Ll : length jso = length jsorted) by (apply (f_equal (@length string)) in EJ; unfold jnames in EJ; now rewrite !map_length in EJ).
  rewrite (rep_joint_count _ _ _ _ _ _ _ _ HR2) in Hk.
  assert (Hk1 : forall k, In k jids -> (k < length jso)%nat) by (intros k I; rewrite Ll; now apply Hk).
  destruct (@sqdists_ok (DA pf) _ _ _ _ _ _ qs ids1 ids2 jids wb wg false _ _ _ _ _ HR1 (orb_true_r wb) Hk1 X1) as (_ & V1 & W1).
  destruct (@sqdists_ok RA _ _ _ _ _ _ qs' ids1 ids2 jids wb wg false _ _ _ _ _ HR2 (orb_true_r wb) Hk X2) as (_ & V2 & W2).
  destruct (nth_error qs' a) as [q'|] eqn:Eq'; [|apply nth_error_None in Eq'; lia].
  destruct (Forall2_nth _ _ _ _ _ Hq Eq') as (q & Eq & Sq).
  destruct (nth_error ids1 b) as [e1|] eqn:E1; [|apply nth_error_None in E1; lia].
  assert (Iq : In q' qs') by (eapply nth_error_In; eauto).
  assert (Bq : wb = true -> base_within A L (skipn (length q' - 6) q')) by (intros Ew; now apply Hb).
  assert (Sw : state_near (ieee pf) u A L (@at_waypoint (FA (ieee pf)) jids wb q' t0) (@at_waypoint RA jids wb q' s')).
  { apply way_near; auto. }
  assert (Sm : state_sim pf (@at_waypoint (DA pf) jids wb q (after so jso ops)) (@at_waypoint (FA (ieee pf)) jids wb q' t0)).
  { apply (way_sim pf u Hpf HU A L A0 L1 Lb HAb HW); auto. }
  assert (Det : forall n P1 P2, pose_at E root jsorted (@at_waypoint RA jids wb q' s') n P1 -> pose_at E root jsorted (@at_waypoint RA jids wb q' s') n P2 -> P1 = P2).
  { intros n' P1 P2 H1 H2. exact (way_det _ _ _ _ _ _ _ _ _ _ _ _ _ _ Hr H1 H2). }
  pose proof (double_links pf u A L so sorted _ _ _ Es Sm Sw) as EN.
  set (w := @at_waypoint (DA pf) jids wb q (after so jso ops)) in *. set (wf := @at_waypoint (FA (ieee pf)) jids wb q' t0) in *. set (w' := @at_waypoint RA jids wb q' s') in *.
  pose proof (pos_INR D) as D0. set (t := u * (1 + A) * (INR D + 1)). set (K := L * (INR D + 1)).
  assert (HK : 1 <= K). { unfold K. assert (0 <= L * INR D) by (apply Rmult_le_pos; lra). lra. }
  assert (uA : 0 <= u * A) by (apply Rmult_le_pos; lra).
  assert (uD : 0 <= (u * (1 + A)) * INR D) by (apply Rmult_le_pos; [lra|exact D0]).
  assert (Hut : u <= t) by (unfold t; lra). assert (Ht : 4000000 * t <= 1) by (unfold t; lra).
  assert (TK : forall x, x * u * (1 + A) * L ^ 2 * (INR D + 1) ^ 3 = x * (t * K * K)) by (intros x; unfold t, K; ring).
  assert (TJ : forall x, x * u * (1 + A) * L * (INR D + 1) ^ 2 = x * (t * K)) by (intros x; unfold t, K; ring).
  rewrite !TK.
  assert (K440 : 16 * K <= bpow radix2 440).
  { pose proof (D_small u U1 A D A0 B) as Ds. assert (P : K <= bpow radix2 400 * bpow radix2 32) by (unfold K; apply Rmult_le_compat; lra).
    rewrite <- bpow_plus in P. assert (Q : bpow radix2 (400 + 32 + 4) <= bpow radix2 440) by (apply bpow_le; lia). rewrite bpow_plus in Q. change (bpow radix2 4) with 16 in Q. lra. }
  assert (Sz : forall e S x x', 0 <= e <= 40000000 -> S <= 4 -> finite x -> sized t K e S (value x) x' -> sim 440 x (value x)).
  { intros e S x x' He HS Fx Hx'. apply self_sim; [exact Fx|]. pose proof (sized_abs u U0 t K Hut Ht HK e S _ _ (proj1 He) Hx') as Q.
    eapply Rle_trans; [exact Q|]. eapply Rle_trans; [|exact K440]. apply Rmult_le_compat_r; lra. }
  (* a link's position in the two states *)
  assert (Pb : forall e P P', named_pose R root so jso w e P -> named_pose E root sorted jsorted w' e P' ->
    finite_vector pf (position P) /\ sized_v (ieee pf) t K 4000000 2 (vval pf (position P)) (position P')).
  { intros e P P' (n & N1 & H1) (n' & N2 & H2). rewrite EN in N1. assert (n' = n) by congruence. subst n'.
    destruct (double_pose pf u Hpf U1 A L D A0 L1 Lb B R F E jso jsf jsorted _ _ _ root SJ HJ EJ1 EJ2 Sm Sw (W q' Iq) HD n P H1) as [[Fv _] (Q & Q1 & Q2 & Q3)].
    rewrite (Det _ _ _ Q1 H2) in Q3. rewrite TJ in Q3.
    destruct (exact_bound (ieee pf) u Hacc HU0 A L A0 L1 HW F E root jsf jsorted wf w' D HJ EJ2 Sw (W q' Iq) HD B Det n P' H2) as [_ N3]. fold K in N3.
    destruct (finite_part pf (position P) (position P')) as (D1 & D2 & D3). destruct (comp_nv (position P')) as (N4 & N5 & N6).
    split; [exact Fv|]. split; [|split]; cbn [vval vx vy vz]; split; lra. }
  assert (Jb : forall e J J' c r, named_jac R root so jso w IGNORE jids wb e J -> named_jac E root sorted jsorted w' IGNORE jids wb e J' ->
    (c < length jids)%nat -> (r < 3)%nat -> exists row x, nth_error J r = Some row /\ nth_error row c = Some x /\ finite x /\ sized t K 40000000 4 (value x) (entry J' r c)).
  { intros e J J' c r (n & N1 & H1) (n' & N2 & H2) Lc Lr. rewrite EN in N1. assert (n' = n) by congruence. subst n'.
    destruct (nth_error jids c) as [k|] eqn:Ek; [|apply nth_error_None in Ek; lia].
    assert (Kk : (k < length jsorted)%nat) by (apply Hk; eapply nth_error_In; eauto).
    destruct (double_jac pf u Hpf U1 A L D A0 L1 Lb B R F E so sorted jso jsf jsorted w wf w' root SJ HJ (proj1 (proj2 Hx)) (proj1 (proj2 Hr)) EJ1 EJ2 Sm Sw (W q' Iq) HD Det
      n IGNORE jids wb J J' c k r H1 H2 Ek Kk Lr (or_introl Lr)) as (row & x & R1 & R2 & Fx & R3 & _).
    exists row, x. split; [exact R1|]. split; [exact R2|]. split; [exact Fx|]. split.
    - rewrite <- TJ. exact (R3 Lr).
    - unfold K. apply (jac_bound (ieee pf) u Hacc HU0 A L A0 L1 HW F E root jsf sorted jsorted wf w' D HJ (proj1 (proj2 Hr)) EJ2 Sw (W q' Iq) HD B Det n jids wb J' c k r); auto. }
  assert (Vs : forall P P', finite_vector pf P -> sized_v (ieee pf) t K 4000000 2 (vval pf P) P' -> simv pf 440 P (vval pf P)).
  { intros P P' (F1 & F2 & F3) (S1 & S2 & S3). cbn [vval vx vy vz] in S1, S2, S3. split; [|split]; eapply (Sz 4000000 2); eauto; lra. }
  assert (Db : forall P1 P2 P1' P2', finite_vector pf P1 /\ sized_v (ieee pf) t K 4000000 2 (vval pf P1) P1' -> finite_vector pf P2 /\ sized_v (ieee pf) t K 4000000 2 (vval pf P2) P2' ->
    simv pf 441 (v_sub P1 P2) (v_sub (vval pf P1) (vval pf P2)) /\ sized_v (ieee pf) t K 8000010 4 (v_sub (vval pf P1) (vval pf P2)) (@v_sub RA P1' P2')).
  { intros P1 P2 P1' P2' [F1 S1] [F2 S2]. split; [|now apply (diff_both (ieee pf) u Hacc U0 t K Hut Ht HK)].
    exact (sim_v_sub pf 440 440 _ _ _ _ (Vs _ _ F1 S1) (Vs _ _ F2 S2) ltac:(lia)). }
  split.
  - destruct (V1 a b q e1 Eq E1) as (e2 & x & E2 & Ex & p1 & p2 & P1 & P2 & ->).
    destruct (V2 a b q' e1 Eq' E1) as (e2' & x' & E2' & Ex' & p1' & p2' & P1' & P2' & ->). assert (e2' = e2) by congruence. subst e2'.
    destruct (Db _ _ _ _ (Pb _ _ _ P1 P1') (Pb _ _ _ P2 P2')) as [Q1 Q2].
    eexists _, _. split; [exact Ex|]. split; [exact Ex'|].
    destruct (sqnorm_sim pf 441 _ _ Q1 ltac:(lia)) as (Fx & Vx & _). split; [exact Fx|]. rewrite Vx.
    exact (sqnorm_both (ieee pf) u Hacc U0 t K Hut Ht HK _ _ Q2).
  - intros Hg. destruct (W1 Hg) as [_ W1']. destruct (W2 Hg) as [_ W2'].
    destruct (W1' a b q e1 Eq E1) as (e2 & g & E2 & Ex & p1 & p2 & J1 & J2 & P1 & P2 & K1 & K2 & ->).
    destruct (W2' a b q' e1 Eq' E1) as (e2' & g' & E2' & Ex' & p1' & p2' & J1' & J2' & P1' & P2' & K1' & K2' & ->). assert (e2' = e2) by congruence. subst e2'.
    eexists _, _. split; [exact Ex|]. split; [exact Ex'|]. intros c Lc.
    assert (Sh : forall A0 R0 root0 so0 jso0 w0 e (J : mat), @named_jac A0 R0 root0 so0 jso0 w0 IGNORE jids wb e J -> has_shape 3 (length jids + if wb then 6 else 0) J).
    { intros A1 R0 root0 so0 jso0 w0 e J (n & _ & H & _). exact H. }
    assert (Lc' : (c < length jids + if wb then 6 else 0)%nat) by lia.
    rewrite (grad_entry_RA _ _ _ _ _ (Sh _ _ _ _ _ _ _ _ K1') (Sh _ _ _ _ _ _ _ _ K2') Lc').
    destruct (Db _ _ _ _ (Pb _ _ _ P1 P1') (Pb _ _ _ P2 P2')) as [Q1 (D1 & D2 & D3)].
    set (v := @v_sub (DA pf) (position p1) (position p2)) in *. set (vf := @v_sub (FA (ieee pf)) (vval pf (position p1)) (vval pf (position p2))) in *. set (v' := @v_sub RA (position p1') (position p2')) in *.
    set (ja (J : @mat (DA pf)) r := nth c (nth r J []) (@n0 (DA pf))).
    assert (Ja : forall e J J' r, named_jac R root so jso w IGNORE jids wb e J -> named_jac E root sorted jsorted w' IGNORE jids wb e J' -> (r < 3)%nat ->
      (exists row, nth_error J r = Some row /\ nth_error row c = Some (ja J r)) /\ sim 440 (ja J r) (value (ja J r)) /\ sized t K 40000000 4 (value (ja J r)) (entry J' r c)).
    { intros e J J' r H1 H2 Lr. destruct (Jb e J J' c r H1 H2 Lc Lr) as (row & x & R1 & R2 & Fx & R3).
      assert (Ej : ja J r = x) by (unfold ja; rewrite (nth_error_nth _ _ _ R1); exact (nth_error_nth _ _ _ R2)).
      rewrite Ej. split; [exists row; now split|]. split; [eapply (Sz 40000000 4); eauto; lra|exact R3]. }
    eexists. split; [apply (grad_found _ _ _ _ _ Lc')|]. cbv beta zeta.
    assert (Gz : forall r, (r < 3)%nat -> nth c (nth r (mat_zip sub J1 J2) []) (@n0 (DA pf)) = @sub (DA pf) (ja J1 r) (ja J2 r)).
    { intros r Lr. destruct (Ja _ _ _ r K1 K1' Lr) as [(r1 & A1 & A2) _]. destruct (Ja _ _ _ r K2 K2' Lr) as [(r2 & B1 & B2) _]. exact (zip_found sub _ _ _ _ _ _ _ _ A1 A2 B1 B2). }
    rewrite (Gz 0%nat), (Gz 1%nat), (Gz 2%nat) by lia.
    destruct (grad_sim pf u Hpf 440 (ja J1) (ja J2) v (fun r => value (ja J1 r)) (fun r => value (ja J2 r)) vf) as (Fy & Vy & _); [| |exact Q1|lia|].
    { intros r Lr. apply (Ja _ _ _ r K1 K1' Lr). }
    { intros r Lr. apply (Ja _ _ _ r K2 K2' Lr). }
    split; [exact Fy|]. cbv beta zeta in Vy. rewrite Vy.
    apply (grad_both (ieee pf) u Hacc U0 t K Hut Ht HK (fun r => value (ja J1 r)) (fun r => value (ja J2 r)) (fun r => match r with 0%nat => vx vf | 1%nat => vy vf | _ => vz vf end)
      (fun r => entry J1' r c) (fun r => entry J2' r c) (fun r => match r with 0%nat => vx v' | 1%nat => vy v' | _ => vz v' end)).
    + intros r Lr. apply (Ja _ _ _ r K1 K1' Lr).
    + intros r Lr. apply (Ja _ _ _ r K2 K2' Lr).
    + intros r Lr. destruct r as [|[|r]]; assumption.
Qed.
Print Assumptions C101_double_distances.

Lemma fl_dcheck_double l s c a a2 r f qs : qs = map (map r) fl_qs ->
  @fl_dcheck (DA (mkPlatform l s c a a2 (fun w => option_map f (strToDouble w)))) (@fl_ops (DA (mkPlatform l s c a a2 (fun w => option_map f (strToDouble w)))) r) qs = true.
Proof. intros ->. vm_compute. reflexivity. Qed.

(** it applies to a platform with correctly rounded functions and the robot of C76 (whose other
    hypotheses are shown beside C89): two pairs of links at each waypoint, with gradients *)
Example C101_example :
  platform_ok ex_pf double_unit /\ 2 <= bpow radix2 400 /\ moderate 2 2 fl_top fl_R /\ numerals_fit fl_top /\ Forall2 same_numbers fl_dqs fl_qs /\
  (exists m', reached fl_tinyxml ex_text fl_R "base" fl_sorted fl_jsorted fl_exact m' /\
     (forall k, In k [0; 1]%nat -> (k < length (get_joint_names m'))%nat) /\
     exists m2 S' G', compute_inter_link_squared_dists fl_qs [4; 2]%nat [0; 4]%nat [0; 1]%nat true true false m' = (m2, Ok (S', G'))) /\
  (exists m0 m, @ctor (DA ex_pf) fl_tinyxml ex_text = Ok m0 /\ run (fl_double ex_pf) m0 = Some m /\
     Forall2 (double_call ex_pf (1000 * double_unit * (1 + 2)) 2 2) (fl_double ex_pf) fl_exact /\
     exists m1 S G, @compute_inter_link_squared_dists (DA ex_pf) fl_dqs [4; 2]%nat [0; 4]%nat [0; 1]%nat true true false m = (m1, Ok (S, G))).
Proof.
  split; [exact ex_pf_ok|]. split; [change 2 with (bpow radix2 1); apply bpow_le; lia|]. split; [exact fl_moderate|]. split; [exact fl_fits|]. split; [exact fl_dqs_same|]. split; [exact (proj1 C98_example)|].
  destruct (@fl_dcheck_ok (DA ex_pf) _ _ (fl_dcheck_double (p_lit ex_pf) (p_sin ex_pf) (p_cos ex_pf) (p_asin ex_pf) (p_atan2 ex_pf) of_real (fun q => round_real (Q2R q)) fl_dqs eq_refl)) as (m0 & m & C & Er & H1). exists m0, m.
  split; [exact C|]. split; [exact Er|]. split; [apply fl_double_calls|]. exact H1.
Qed.
