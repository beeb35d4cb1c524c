(** C102: mass and centre of mass computed with IEEE doubles. *)
From Coq Require Import ZArith QArith Qreals String Ascii List Arith Lia Bool Permutation Reals Lra.
From Flocq Require Import Core BinarySingleNaN.
From Verif Require Import Base Num Pose DataStructure Urdf Kin Wrapper Decimal RealArith FloatArith Ieee
  Spec_Robot Spec_Hist Spec_Load Spec_Jac Spec_Mass Spec_Rot Spec_Body Spec_Deriv Spec_Float Spec_Ieee
  Pf_Data Inv Pf_FK Rep Pf_Ops Pf_Jac Pf_Pose Pf_Reach Pf_Wrap Pf_Wrap2 Pf_Mass Pf_Real Pf_Body Pf_ComD
  Pf_Float1 Pf_Float2 Pf_Float3 Pf_Float4 Pf_Float5 Pf_Float6 Pf_Float7 Pf_Float8 Pf_Float9
  Pf_Ieee1 Pf_Ieee2 Pf_Ieee3 Pf_Ieee4 Pf_Ieee5 Pf_Ieee6 Pf_Ieee7 Pf_Ieee8
  Thm_Pose Thm_Fk Thm_Float Thm_FloatMass Thm_Ieee Ex_Robot Ex_Float Ex_Ieee.
Import ListNotations.
Local Open Scope R_scope.

Lemma root3 a b c e : Rabs a <= e -> Rabs b <= e -> Rabs c <= e -> sqrt (a ^ 2 + b ^ 2 + c ^ 2) <= 2 * e.
Proof.
  intros H1 H2 H3. pose proof (Rabs_pos a) as P. assert (E : 0 <= 2 * e) by lra. rewrite <- (sqrt_Rsqr (2 * e) E). apply sqrt_le_1_alt.
  assert (S : forall x, Rabs x <= e -> x ^ 2 <= e * e). { intros x Hx. rewrite <- Rsqr_pow2, Rsqr_abs. unfold Rsqr. apply Rmult_le_compat; try apply Rabs_pos; exact Hx. }
  pose proof (S a H1). pose proof (S b H2). pose proof (S c H3). unfold Rsqr. pose proof (Rmult_le_pos e e). lra.
Qed.

(** C102.  The total mass, the centre of mass, and the entries of its Jacobian for the joints,
    computed with IEEE doubles (infinities and NaN included), are finite and within the bounds
    of C84, if lengths and the total mass are at most 2^400.  [A], [L] and [D] are otherwise as
    in C89, [M] and [N] as in C84. *)
Theorem C102_double_centre_of_mass :
  forall (pf : Platform) (u : R), platform_ok pf u -> double_unit <= u ->
  forall tinyxml text top E root sorted jsorted ops' m',
    @reached RA tinyxml text E root sorted jsorted ops' m' -> clean ops' = true -> tinyxml text = Some top ->
    let s' := after sorted jsorted ops' in
  forall A L D, 0 <= A -> 1 <= L -> L <= bpow radix2 400 -> moderate A L top E -> numerals_fit top ->
    within_range A L (r_joints E) (by_name (jnames jsorted) (as_angles s')) ->
    (forall n d, levels (r_joints E) root (as_added s') n d -> (d <= D)%nat) ->
    4000000 * u * (1 + A) * (INR D + 1) <= 1 ->
  forall M N, M = total_mass m' -> N = INR (massive_count E) -> masses_nonnegative E ->
    0 < M -> M <= bpow radix2 400 -> 1000 * u * N * (1 + / M) <= 1 ->
  forall m0 ops m, @ctor (DA pf) tinyxml text = Ok m0 ->
    Forall2 (double_call pf (1000 * u * (1 + A)) A L) ops ops' -> run ops m0 = Some m ->
    (finite (total_mass m) /\ Rabs (value (total_mass m) - M) <= 4 * u * N * (1 + M)) /\
    (forall m1 c m2 c', get_com m = (m1, Ok c) -> get_com m' = (m2, Ok c') ->
       finite_vector pf c /\
       v_error pf c c' <= 40000000 * u * (1 + A) * L * (INR D + 1) ^ 2 + 400 * u * (L * (INR D + 1)) * N * (1 + / M)) /\
    (forall jids wb m1 J m2 J', (forall k, In k jids -> (k < length (get_joint_names m'))%nat) ->
       get_com_jacobian jids wb m = (m1, Ok J) -> get_com_jacobian jids wb m' = (m2, Ok J') ->
       forall r c, (r < 3)%nat -> (c < length jids)%nat ->
         exists row x, nth_error J r = Some row /\ nth_error row c = Some x /\ finite x /\
         Rabs (value x - entry J' r c) <=
           200000000 * u * (1 + A) * L * (INR D + 1) ^ 2 + 1000 * u * (L * (INR D + 1)) * N * (1 + / M)).
Proof.
  intros pf u Hpf U1 tinyxml text top E root sorted jsorted ops' m' Hr Hc Et s' A L D A0 L1 Lb4 Md Nf W HD B M N EM EN Pos M0 MB BN m0 ops m C F0 Er.
  assert (Lb : L <= bpow radix2 900) by (eapply Rle_trans; [exact Lb4|]; apply bpow_le; lia).
  pose proof (Pf_Ieee5.Hu u U1 A D A0 B) as HU. pose proof (Hu0 u U1 A D A0 B) as HU0. pose proof (Pf_Ieee5.Hw u U1 A D A0 B) as HW.
  pose proof (ieee_accurate pf u Hpf U1) as Hacc. pose proof (proj1 HU0) as U0.
  destruct (runs_double_full pf u _ _ _ _ _ _ _ _ _ A L D _ _ _ Hpf U1 A0 L1 Lb B Hr Et Md Nf C F0 Er) as (R & F & so & sf & jso & jsf & t & Hx & Cl & SJ & HJ & EJ1 & EJ2 & Es & Ss & Sn & KS & KN).
  fold s' in Sn. rewrite Hc in Cl.
  destruct (reached_Rep _ _ _ _ _ _ _ _ Hx) as [HR1 HC1]. destruct (reached_Rep _ _ _ _ _ _ _ _ Hr) as [HR2 HC2].
  specialize (HC1 Cl). specialize (HC2 Hc). fold s' in HR2.
  assert (G1 : Good m) by (split; auto; apply HR1). assert (G2 : Good m') by (split; auto; apply HR2).
  assert (EJ : jnames jso = jnames jsorted) by congruence.
  assert (Ll : length jso = length jsorted) by (apply (f_equal (@length string)) in EJ; unfold jnames in EJ; now rewrite !map_length in EJ).
  pose proof (proj1 (proj2 Hr)) as O. pose proof (proj1 (proj2 Hx)) as OR.
  pose proof (massive_perm _ _ (ord_links _ _ _ O)) as MP.
  assert (Pos' : forall n i, In (n, i) (massive sorted) -> 0 <= in_mass i).
  { intros n i I. apply (Permutation_in _ MP) in I. unfold massive in I. apply in_flat_map in I. destruct I as ([n1 [i1|]] & I1 & I2); [|destruct I2].
    destruct I2 as [Eq|[]]. injection Eq as <- <-. exact (Pos _ _ I1). }
  assert (Ms : M = sum_l (map (fun ni => in_mass (snd ni)) (massive sorted))).
  { rewrite EM, (rep_mass _ _ _ _ _ _ _ _ HR2), mass_sum_rsum. symmetry. apply sum_l_rsum. }
  assert (Ns : N = INR (length (massive sorted))) by (rewrite EN; unfold massive_count; now rewrite (Permutation_length MP)).
  assert (Det : forall n P1 P2, pose_at E root jsorted s' n P1 -> pose_at E root jsorted s' n P2 -> P1 = P2).
  { intros n' P1 P2 H1 H2. exact (rep_pose_det _ _ _ _ _ _ _ _ HR2 _ _ _ H1 H2). }
  assert (Names : Forall2 (fun (x : string * @Inertial (DA pf)) (x' : string * @Inertial RA) => fst x = fst x') (massive so) (massive sorted)).
  { pose proof (massive_sim pf so sf KS) as F1. pose proof (massive_both (ieee pf) u A L _ _ KN) as F2. clear - F1 F2. revert F2. generalize (massive sorted).
    induction F1 as [|x y l l' [H1 _] F IH]; intros ms F2; inversion F2 as [|? z ? ms' [H2 _] F3]; subst; [constructor|]. constructor; [congruence|now apply IH]. }
  pose proof (pos_INR D) as D0. set (K := L * (INR D + 1)). assert (LD : 0 <= L * INR D) by (apply Rmult_le_pos; lra). assert (K1 : 1 <= K) by (unfold K; lra).
  assert (g0 : 0 <= u * (1 + A) * (INR D + 1)) by (apply Rmult_le_pos; [apply Rmult_le_pos; lra|lra]).
  assert (K440 : 16 * K <= bpow radix2 440).
  { pose proof (D_small u U1 A D A0 B) as Ds. assert (P : K <= bpow radix2 400 * bpow radix2 32) by (unfold K; apply Rmult_le_compat; lra).
    rewrite <- bpow_plus in P. assert (Q : bpow radix2 (400 + 32 + 4) <= bpow radix2 440) by (apply bpow_le; lia). rewrite bpow_plus in Q. change (bpow radix2 4) with 16 in Q. lra. }
  rewrite Ms in M0, MB. rewrite Ms, Ns in BN.
  split; [|split].
  - rewrite (rep_mass _ _ _ _ _ _ _ _ HR1), Ms, Ns. exact (double_total pf u Hpf U1 HU0 A L so sf sorted KS KN Pos' M0 MB BN).
  - intros m1 c m2 c' X1 X2.
    destruct (get_com_ok _ _ _ _ _ _ _ _ _ _ HR1 G1 (reached_has_com _ _ _) X1) as (Ps & FP & ->).
    destruct (get_com_ok _ _ _ _ _ _ _ _ _ _ HR2 G2 (reached_has_com _ _ _) X2) as (Ps' & FP' & ->).
    set (dl := 4000000 * u * (1 + A) * L * (INR D + 1) ^ 2).
    assert (dK : dl = 4000000 * u * (1 + A) * (INR D + 1) * K) by (unfold dl, K; ring).
    assert (dl0 : 0 <= dl) by (rewrite dK; apply Rmult_le_pos; lra).
    assert (dl1 : dl <= 2 * K). { rewrite dK. assert (4000000 * u * (1 + A) * (INR D + 1) * K <= 1 * K) by (apply Rmult_le_compat_r; lra). lra. }
    assert (Pts : Forall2 (fun p p' => finite_vector pf p /\ nv p' <= 2 * K /\ v_error pf p p' <= dl)
      (map (fun x => com_point (snd x) (snd (fst x))) (combine (massive so) Ps)) (map (fun x => com_point (snd x) (snd (fst x))) (combine (massive sorted) Ps'))).
    { pose proof (reached_has_com so jso ops) as HC. pose proof (reached_has_com sorted jsorted ops') as HC'. fold s' in HC'.
      assert (SUB : forall ms ms', Forall2 (fun (x : string * @Inertial (DA pf)) (x' : string * @Inertial RA) => fst x = fst x') ms ms' ->
         incl ms (massive so) -> incl ms' (massive sorted) -> forall Ps Ps',
         Forall2 (fun ni P => pose_at R root jso (after so jso ops) (fst ni) P) ms Ps -> Forall2 (fun ni P => pose_at E root jsorted s' (fst ni) P) ms' Ps' ->
         Forall2 (fun p p' => finite_vector pf p /\ nv p' <= 2 * K /\ v_error pf p p' <= dl)
           (map (fun x => com_point (snd x) (snd (fst x))) (combine ms Ps)) (map (fun x => com_point (snd x) (snd (fst x))) (combine ms' Ps'))); [|apply SUB; auto using incl_refl].
      clear Ps Ps' FP FP' X1 X2. induction 1 as [|[n i] [n' i'] ms ms' H1 F1 IH]; intros I I' Ps Ps' FP FP'.
      - constructor.
      - inversion FP as [|? P ? Qs HP FQ]; subst. inversion FP' as [|? P' ? Qs' HP' FQ']; subst. cbn [combine map fst snd] in *. subst n'.
        constructor; [|apply IH; auto; intros y Y; [apply I | apply I']; now right].
        pose proof (HC n i (I _ (or_introl eq_refl))) as Ia. pose proof (HC' n i' (I' _ (or_introl eq_refl))) as Ia'.
        pose proof (fk_added _ _ _ _ _ _ _ _ _ Ia HP) as Q. pose proof (fk_added _ _ _ _ _ _ _ _ _ Ia' HP') as Q'.
        destruct (double_pose pf u Hpf U1 A L D A0 L1 Lb B R F E jso jsf jsorted _ t s' root SJ HJ EJ1 EJ2 Ss Sn W HD _ _ Q) as [[Fv _] (P1 & H2 & _ & H3)].
        rewrite (Det _ _ _ H2 Q') in H3.
        destruct (exact_bound (ieee pf) u Hacc HU0 A L A0 L1 HW F E root jsf jsorted t s' D HJ EJ2 Sn W HD B Det _ _ Q') as [_ N3].
        split; [exact Fv|]. split; [exact N3|exact H3]. }
    assert (LP : length Ps = length (massive so)) by (symmetry; eapply Forall2_len; exact FP).
    assert (LP' : length Ps' = length (massive sorted)) by (symmetry; eapply Forall2_len; exact FP').
    assert (Co : forall k, finite (gcoord k (com_of (massive so) Ps)) /\
       Rabs (value (gcoord k (com_of (massive so) Ps)) - coord k (com_of (massive sorted) Ps')) <= 5 * dl + 100 * u * (2 * K) * N * (1 + / M)).
    { intros k.
      set (vs := map (fun x => gcoord k (com_point (snd x) (snd (fst x)))) (combine (massive so) Ps)).
      set (vs' := map (fun x => coord k (com_point (snd x) (snd (fst x)))) (combine (massive sorted) Ps')).
      assert (E1 : map (fun x => (in_mass (snd (fst x)), gcoord k (com_point (snd x) (snd (fst x))))) (combine (massive so) Ps) = combine (map (fun ni => in_mass (snd ni)) (massive so)) vs).
      { unfold vs. clear - LP. revert Ps LP. induction (massive so) as [|x ms IH]; intros [|P Ps] LP; try discriminate LP; [reflexivity|].
        cbn [combine map fst snd]. f_equal. apply IH. now injection LP. }
      assert (E2 : coord k (com_of (massive sorted) Ps') = sum_l (moments (combine (map (fun ni => in_mass (snd ni)) (massive sorted)) vs')) / sum_l (map (fun ni => in_mass (snd ni)) (massive sorted))).
      { unfold com_of, scaled_down. rewrite mass_sum_rsum, <- sum_l_rsum.
        assert (Sc : forall (v : @Vector3 RA) d, coord k (@V3 RA (vx v / d) (vy v / d) (vz v / d))%num = coord k v / d) by (intros v d; destruct k as [|[|k]]; reflexivity).
        rewrite Sc. f_equal. rewrite weighted_coord.
        replace (coord k v_clear) with 0 by (destruct k as [|[|k]]; cbn [coord vx vy vz v_clear]; rnum; reflexivity).
        rewrite Rplus_0_l. rewrite rsum_map. cbn [fst snd]. unfold moments, vs'. clear - LP'. revert Ps' LP'.
        induction (massive sorted) as [|x ms IH]; intros [|P Ps] LP; try discriminate LP; [reflexivity|].
        unfold rsum in *. cbn [combine map fst snd fold_right]. unfold sum_l. cbn [fold_right]. f_equal. apply IH. now injection LP. }
      rewrite com_coord, E1, E2, Ms, Ns. apply (double_mean pf u Hpf U1 HU0 A L so sf sorted KS KN Pos' M0 MB BN (2 * K) dl vs vs'); try lra.
      - unfold vs, vs'. rewrite <- (map_map (fun x => com_point (snd x) (snd (fst x))) (gcoord k)), <- (map_map (fun x => com_point (snd x) (snd (fst x))) (coord k)).
        clear - Pts. induction Pts as [|p p' l l' (H1 & H2 & H3) F IH]; [constructor|]. cbn [map]. constructor; [|exact IH].
        destruct H1 as (F1 & F2 & F3). pose proof (comp_nv p') as (N1 & N2 & N3). pose proof (finite_part pf p p') as (V1 & V2 & V3).
        destruct k as [|[|k]]; cbn [coord gcoord] in *; (split; [assumption|]); split; lra.
      - unfold vs'. rewrite map_length, combine_length, LP'. apply Nat.min_id. }
    destruct (Co 0%nat) as [F1 C1]. destruct (Co 1%nat) as [F2 C2]. destruct (Co 2%nat) as [F3 C3]. cbn [gcoord coord] in *.
    split; [split; [exact F1|]; split; [exact F2|exact F3]|]. unfold v_error. eapply Rle_trans; [apply (root3 _ _ _ _ C1 C2 C3)|]. unfold dl, K. lra.
  - intros jids wb m1 J m2 J' Hk X1 X2 r c Lr Lc. rewrite (rep_joint_count _ _ _ _ _ _ _ _ HR2) in Hk.
    assert (Hk1 : forall k, In k jids -> (k < length jso)%nat) by (intros k I; rewrite Ll; now apply Hk).
    destruct (nth_error jids c) as [k|] eqn:Ek; [|apply nth_error_None in Ek; lia].
    assert (Kk : (k < length jsorted)%nat) by (apply Hk; eapply nth_error_In; eauto).
    destruct (get_com_jacobian_ok _ _ _ _ _ _ _ _ _ _ _ _ HR1 G1 Hk1 X1) as (Js & FJ & ->).
    destruct (get_com_jacobian_ok _ _ _ _ _ _ _ _ _ _ _ _ HR2 G2 Hk X2) as (Js' & FJ' & ->). fold s' in FJ'.
    set (dl := 40000000 * u * (1 + A) * L * (INR D + 1) ^ 2).
    assert (dK : dl = 10 * (4000000 * u * (1 + A) * (INR D + 1) * K)) by (unfold dl, K; ring).
    assert (dl0 : 0 <= dl) by (rewrite dK; apply Rmult_le_pos; [lra|]; apply Rmult_le_pos; lra).
    assert (dl1 : dl <= 10 * K). { rewrite dK. assert (4000000 * u * (1 + A) * (INR D + 1) * K <= 1 * K) by (apply Rmult_le_compat_r; lra). lra. }
    assert (Lc' : (c < length jids + (if wb then 6 else 0))%nat) by lia.
    assert (Es' : Forall2 (fun x x' => finite x /\ Rabs x' <= 10 * K /\ Rabs (value x - x') <= dl) (map (fun J => gentry J r c) Js) (map (fun J => entry J r c) Js')).
    { revert FJ FJ'. generalize Js Js'. revert Names. generalize (massive so) (massive sorted). induction 1 as [|[n i] [n' i'] ms ms' H1 F1 IH]; intros Ks Ks' FJ FJ'; inversion FJ as [|? X ? Xs HX FX]; subst; inversion FJ' as [|? X' ? Xs' HX' FX']; subst; [constructor|].
      cbn [map]. constructor; [|apply IH; auto]. cbn [fst] in *. subst n'.
      destruct (double_jac pf u Hpf U1 A L D A0 L1 Lb B R F E so sorted jso jsf jsorted _ t s' root SJ HJ OR O EJ1 EJ2 Ss Sn W HD Det
        _ IGNORE jids wb X X' c k r HX HX' Ek Kk Lr (or_introl Lr)) as (row & x & R1 & R2 & Fx & R3 & _).
      assert (Ex : gentry X r c = x) by (unfold gentry; rewrite (nth_error_nth _ _ _ R1); exact (nth_error_nth _ _ _ R2)). rewrite Ex.
      split; [exact Fx|]. split; [|exact (R3 Lr)].
      pose proof (jac_bound (ieee pf) u Hacc HU0 A L A0 L1 HW F E root jsf sorted jsorted t s' D HJ O EJ2 Sn W HD B Det _ jids wb X' c k r HX' Ek Kk Lr) as Q. fold K in Q. lra. }
    assert (LJ : length Js = length (massive so)) by (symmetry; eapply Forall2_len; exact FJ).
    assert (LJ' : length Js' = length (massive sorted)) by (symmetry; eapply Forall2_len; exact FJ').
    assert (LE : length (map (fun J => entry J r c) Js') = length (massive sorted)) by (rewrite map_length; exact LJ').
    destruct (double_mean pf u Hpf U1 HU0 A L so sf sorted KS KN Pos' M0 MB BN (10 * K) dl _ _ ltac:(lra) ltac:(lra) ltac:(lra) Es' LE) as [Fc Ec].
    assert (Hsh : forall x, In x (map (fun x => (in_mass (snd (fst x)), snd x)) (combine (massive so) Js)) -> has_shape 3 (length jids + (if wb then 6 else 0)) (snd x)).
    { intros x I. apply in_map_iff in I. destruct I as ([ni X] & <- & I). cbn [snd fst]. apply in_combine_r in I. destruct (Forall2_in_r _ _ _ FJ X I) as (ni' & _ & (HSh & _)). exact HSh. }
    destruct (gmean 3 _ _ (mass_sum (massive so)) r c Lr Lc' Hsh) as [Sh Eg].
    destruct (gentry_found _ _ _ r c Sh Lr Lc') as (row & R1 & R2). rewrite Eg in R2. exists row. eexists. split; [exact R1|]. split; [exact R2|].
    replace (map (fun x => mul (fst x) (gentry (snd x) r c)) (map (fun x => (in_mass (snd (fst x)), snd x)) (combine (massive so) Js)))
      with (map (fun p => @mul (DA pf) (fst p) (snd p)) (combine (map (fun ni => in_mass (snd ni)) (massive so)) (map (fun J => gentry J r c) Js))).
    + split; [exact Fc|]. rewrite entry_mean; auto.
      * rewrite mass_sum_rsum, <- (sum_l_rsum (fun ni : string * @Inertial RA => in_mass (snd ni)) (massive sorted)).
        replace (rsum (fun w => fst w * entry (snd w) r c) (map (fun x => (in_mass (snd (fst x)), snd x)) (combine (massive sorted) Js')))
          with (sum_l (moments (combine (map (fun ni => in_mass (snd ni)) (massive sorted)) (map (fun J => entry J r c) Js')))).
        -- eapply Rle_trans; [exact Ec|]. rewrite Ms, Ns. unfold dl, K. lra.
        -- unfold moments. clear - LJ'. revert Js' LJ'. induction (massive sorted) as [|x ms IH]; intros [|P Ps] LP; try discriminate LP; [reflexivity|].
           unfold rsum in *. cbn [combine map fst snd fold_right]. unfold sum_l. cbn [fold_right]. f_equal. apply IH. now injection LP.
      * intros x I. apply in_map_iff in I. destruct I as ([ni X] & <- & I). cbn [snd fst]. apply in_combine_r in I. destruct (Forall2_in_r _ _ _ FJ' X I) as (ni' & _ & (HSh & _)). exact HSh.
    + rewrite !map_map. clear - LJ. revert Js LJ. induction (massive so) as [|x ms IH]; intros [|P Ps] LP; try discriminate LP; [reflexivity|].
      cbn [combine map fst snd]. f_equal. apply IH. now injection LP.
Qed.
Print Assumptions C102_double_centre_of_mass.

Lemma fl_ccheck_double l s c a a2 (r : R -> double) f :
  @fl_ccheck (DA (mkPlatform l s c a a2 (fun w => option_map f (strToDouble w)))) (@fl_ops (DA (mkPlatform l s c a a2 (fun w => option_map f (strToDouble w)))) r) = true.
Proof. vm_compute. reflexivity. Qed.

(** it applies to a platform with correctly rounded functions and the robot of C76 (whose other
    hypotheses are shown beside C89), which has one massive link of mass 3 *)
Example C102_example :
  platform_ok ex_pf double_unit /\ 2 <= bpow radix2 400 /\ moderate 2 2 fl_top fl_R /\ numerals_fit fl_top /\
  (exists m', reached fl_tinyxml ex_text fl_R "base" fl_sorted fl_jsorted fl_exact m' /\ clean fl_exact = true /\
     total_mass m' = 3 /\ massive_count fl_R = 1%nat /\ masses_nonnegative fl_R /\ total_mass m' <= bpow radix2 400 /\
     1000 * double_unit * INR (massive_count fl_R) * (1 + / total_mass m') <= 1 /\
     (forall k, In k [1; 0]%nat -> (k < length (get_joint_names m'))%nat) /\
     (exists m2 c', get_com m' = (m2, Ok c')) /\ exists m2 J', get_com_jacobian [1; 0]%nat false m' = (m2, Ok J')) /\
  (exists m0 m, @ctor (DA ex_pf) fl_tinyxml ex_text = Ok m0 /\ run (fl_double ex_pf) m0 = Some m /\
     Forall2 (double_call ex_pf (1000 * double_unit * (1 + 2)) 2 2) (fl_double ex_pf) fl_exact /\
     (exists m1 c, get_com m = (m1, Ok c)) /\ exists m1 J, get_com_jacobian [1; 0]%nat false m = (m1, Ok J)).
Proof.
  split; [exact ex_pf_ok|]. split; [change 2 with (bpow radix2 1); apply bpow_le; lia|]. split; [exact fl_moderate|]. split; [exact fl_fits|]. split.
  - destruct (proj1 C84_example) as (m' & H1 & H2 & H3 & H4 & H5 & H6 & H7 & H8 & H9). exists m'.
    split; [exact H1|]. split; [exact H2|]. split; [exact H3|]. split; [exact H4|]. split; [exact H5|]. split; [|split; [exact H6|]; split; [exact H7|]; split; [exact H8|exact H9]].
    rewrite H3. assert (Q : bpow radix2 2 <= bpow radix2 400) by (apply bpow_le; lia). change (bpow radix2 2) with 4 in Q. lra.
  - destruct (@fl_ccheck_ok (DA ex_pf) _ (fl_ccheck_double (p_lit ex_pf) (p_sin ex_pf) (p_cos ex_pf) (p_asin ex_pf) (p_atan2 ex_pf) of_real (fun q => round_real (Q2R q)))) as (m0 & m & C & Er & H1 & H2). exists m0, m.
    split; [exact C|]. split; [exact Er|]. split; [apply fl_double_calls|]. split; [exact H1|exact H2].
Qed.
