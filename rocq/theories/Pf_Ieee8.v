(** Masses, centres of mass and their Jacobians computed with doubles; for C102. *)
From Coq Require Import ZArith QArith Qreals String Ascii List Arith Lia Bool Permutation Reals Lra Classical.
From Flocq Require Import Core BinarySingleNaN.
From Verif Require Import Base Num Pose DataStructure Urdf Kin Wrapper Decimal RealArith FloatArith Ieee
  Spec_Robot Spec_Hist Spec_Load Spec_Jac Spec_Mass Spec_Body Spec_Deriv Spec_Float Spec_Ieee
  Pf_Data Pf_Urdf Inv Pf_FK Rep Pf_Ops Pf_Jac Pf_Pose Pf_Reach Pf_Wrap Pf_Mass Pf_Real Pf_Body Pf_JacD Pf_ComD
  Pf_Float1 Pf_Float2 Pf_Float3 Pf_Float4 Pf_Float5 Pf_Float6 Pf_Float7 Pf_Float8 Pf_Float9
  Pf_Ieee1 Pf_Ieee2 Pf_Ieee3 Pf_Ieee4 Pf_Ieee5 Pf_Ieee6 Pf_Ieee7.
Import ListNotations.
Local Open Scope R_scope.

(** ** One entry of a weighted mean of matrices, in any arithmetic *)
Section Entries.
Context {AA : Arith}.
Definition gentry (J : @mat AA) (r c : nat) : num := nth c (nth r J []) (@n0 AA).
Lemma gentry_found rows cols (J : @mat AA) r c : has_shape rows cols J -> (r < rows)%nat -> (c < cols)%nat ->
  exists row, nth_error J r = Some row /\ nth_error row c = Some (gentry J r c).
Proof.
  intros [L H] Lr Lc. destruct (nth_error J r) as [row|] eqn:E; [|apply nth_error_None in E; lia]. exists row. split; [reflexivity|].
  unfold gentry. rewrite (nth_error_nth _ _ _ E). apply nth_error_nth'. rewrite (H row (nth_error_In _ _ E)). exact Lc.
Qed.
Lemma gzip_shape f rows cols (P Q : @mat AA) : has_shape rows cols P -> has_shape rows cols Q -> has_shape rows cols (mat_zip f P Q).
Proof.
  intros [LP HP] [LQ HQ]. split; [unfold mat_zip; rewrite map_length, combine_length; lia|].
  intros row I. unfold mat_zip in I. apply in_map_iff in I. destruct I as ([p q] & <- & I). cbn [fst snd].
  unfold zipw. rewrite map_length, combine_length, (HP p (in_combine_l _ _ _ _ I)), (HQ q (in_combine_r _ _ _ _ I)). lia.
Qed.
Lemma gmap_shape f rows cols (P : @mat AA) : has_shape rows cols P -> has_shape rows cols (@mat_map AA f P).
Proof.
  intros [LP HP]. split; [unfold mat_map; now rewrite map_length|]. intros row I. unfold mat_map in I. apply in_map_iff in I.
  destruct I as (p & <- & I). rewrite map_length. auto.
Qed.
Lemma gmap_found f (J : @mat AA) r c row x : nth_error J r = Some row -> nth_error row c = Some x -> gentry (@mat_map AA f J) r c = f x.
Proof.
  intros H1 H2. unfold gentry, mat_map. rewrite (nth_error_nth _ _ _ (map_nth_error (map f) _ _ H1)). exact (nth_error_nth _ _ _ (map_nth_error f _ _ H2)).
Qed.
Lemma gmap_entry f rows cols (J : @mat AA) r c : has_shape rows cols J -> (r < rows)%nat -> (c < cols)%nat -> gentry (@mat_map AA f J) r c = f (gentry J r c).
Proof. intros H Lr Lc. destruct (gentry_found rows cols J r c H Lr Lc) as (row & H1 & H2). exact (gmap_found f J r c row _ H1 H2). Qed.
Lemma gzip_entry f rows cols (P Q : @mat AA) r c : has_shape rows cols P -> has_shape rows cols Q -> (r < rows)%nat -> (c < cols)%nat ->
  gentry (mat_zip f P Q) r c = f (gentry P r c) (gentry Q r c).
Proof.
  intros HP HQ Lr Lc. destruct (gentry_found _ _ _ _ _ HP Lr Lc) as (row & H1 & H2). destruct (gentry_found _ _ _ _ _ HQ Lr Lc) as (row' & H3 & H4).
  exact (zip_found f _ _ _ _ _ _ _ _ H1 H2 H3 H4).
Qed.
Lemma gfold rows cols (ws : list (num * @mat AA)) r c : (r < rows)%nat -> (c < cols)%nat -> (forall x, In x ws -> has_shape rows cols (snd x)) ->
  forall acc, has_shape rows cols acc ->
  has_shape rows cols (fold_left (fun acc wj => mat_zip add acc (mat_map (mul (fst wj)) (snd wj))) ws acc) /\
  gentry (fold_left (fun acc wj => mat_zip add acc (mat_map (mul (fst wj)) (snd wj))) ws acc) r c =
    fold_left add (map (fun x => mul (fst x) (gentry (snd x) r c)) ws) (gentry acc r c).
Proof.
  intros Lr Lc. induction ws as [|x ws IH]; intros Hx acc Ha; [split; auto|]. cbn [fold_left map].
  assert (Hs : has_shape rows cols (@mat_map AA (mul (fst x)) (snd x))) by (apply gmap_shape, Hx; now left).
  destruct (IH (fun w' I => Hx w' (or_intror I)) _ (gzip_shape add _ _ _ _ Ha Hs)) as [S1 E1]. split; [exact S1|].
  rewrite E1, (gzip_entry add rows cols), (gmap_entry _ rows cols); auto. apply Hx; now left.
Qed.
Lemma gmean rows cols (ws : list (num * @mat AA)) total r c : (r < rows)%nat -> (c < cols)%nat -> (forall x, In x ws -> has_shape rows cols (snd x)) ->
  has_shape rows cols (mean_mat rows cols ws total) /\
  gentry (mean_mat rows cols ws total) r c = div (fold_left add (map (fun x => mul (fst x) (gentry (snd x) r c)) ws) (@n0 AA)) total.
Proof.
  intros Lr Lc Hx.
  assert (Hz : has_shape rows cols (@mat_zero AA rows cols)).
  { split; [apply repeat_length|]. intros row I. apply repeat_spec in I. subst. apply repeat_length. }
  assert (Ez : gentry (@mat_zero AA rows cols) r c = @n0 AA).
  { unfold gentry, mat_zero. rewrite (nth_indep _ [] (repeat (@n0 AA) cols)) by now rewrite repeat_length. rewrite nth_repeat. apply nth_repeat. }
  destruct (gfold rows cols ws r c Lr Lc Hx _ Hz) as [S1 E1]. rewrite Ez in E1. split.
  - exact (gmap_shape (fun x => div x total) rows cols _ S1).
  - pose proof (gmap_entry (fun x => div x total) rows cols _ r c S1 Lr Lc) as E2. rewrite E1 in E2. exact E2.
Qed.
(** one coordinate of a weighted sum *)
Definition gcoord (k : nat) (v : @Vector3 AA) : num := match k with 0%nat => vx v | 1%nat => vy v | _ => vz v end.
Lemma gweighted k (l : list (num * @Vector3 AA)) : forall acc,
  gcoord k (weighted_sum l acc) = fold_left add (map (fun mp => mul (fst mp) (gcoord k (snd mp))) l) (gcoord k acc).
Proof.
  induction l as [|mp l IH]; intros acc; [reflexivity|]. unfold weighted_sum in *. cbn [fold_left]. rewrite IH.
  cbn [map fold_left fst snd]. f_equal. destruct k as [|[|k]]; reflexivity.
Qed.
Lemma mass_sum_fold (ms : list (string * @Inertial AA)) : mass_sum ms = fold_left add (map (fun ni => in_mass (snd ni)) ms) (@n0 AA).
Proof. unfold mass_sum. generalize (@n0 AA). induction ms as [|x ms IH]; intros a; [reflexivity|]. apply IH. Qed.
Lemma com_coord k ms (Ps : list (@Pose AA)) : gcoord k (com_of ms Ps) =
  div (fold_left add (map (fun p => mul (fst p) (snd p)) (map (fun x => (in_mass (snd (fst x)), gcoord k (com_point (snd x) (snd (fst x))))) (combine ms Ps))) (@n0 AA)) (mass_sum ms).
Proof.
  unfold com_of, scaled_down.
  assert (Sc : forall v d, gcoord k (V3 (div (vx v) d) (div (vy v) d) (div (vz v) d)) = div (gcoord k v) d) by (intros v d; destruct k as [|[|k]]; reflexivity).
  rewrite Sc, gweighted, !map_map. cbn [fst snd]. f_equal. f_equal. destruct k as [|[|k]]; reflexivity.
Qed.
End Entries.

Section Mean.
Variable pf : Platform.
Variable u : R.
Hypothesis Hpf : platform_ok pf u.
Hypothesis Hu1 : double_unit <= u.
Hypothesis Hu : 0 <= u <= / 1000.
Notation o := (ieee pf).

(** adding up doubles of moderate size *)
Lemma sum_sim b N : 1 <= b -> 1000 * u * N <= 1 -> 2 * N * b <= bpow radix2 1000 ->
  forall (l : list double) (acc : double) j, (forall x, In x l -> finite x /\ Rabs (value x) <= b) ->
  finite acc -> Rabs (value acc) <= INR j * (2 * b) -> INR (j + length l) <= N ->
  finite (fold_left (@add (DA pf)) l acc) /\ value (fold_left (@add (DA pf)) l acc) = fold_left (o_add o) (map value l) (value acc) /\
  Rabs (value (fold_left (@add (DA pf)) l acc)) <= 2 * N * b.
Proof.
  intros B1 HN Big. pose proof (ieee_accurate pf u Hpf Hu1) as Hacc.
  induction l as [|x l IH]; intros acc j Hl Fa Ba Hj.
  - cbn [fold_left map]. split; [exact Fa|]. split; [reflexivity|]. cbn [length] in Hj. rewrite Nat.add_0_r in Hj.
    assert (INR j * (2 * b) <= N * (2 * b)) by (apply Rmult_le_compat_r; lra). lra.
  - cbn [fold_left map length] in *. destruct (Hl x (or_introl eq_refl)) as [Fx Bx].
    replace (j + S (length l))%nat with (S j + length l)%nat in Hj by lia.
    pose proof (pos_INR j) as J0. pose proof (pos_INR (length l)) as L0. pose proof Hj as Hj'. rewrite plus_INR, S_INR in Hj'.
    assert (J1 : (INR j + 1) * (2 * b) <= N * (2 * b)) by (apply Rmult_le_compat_r; lra).
    assert (S1 : Rabs (value acc + value x) <= (INR j + 1) * (2 * b) - b). { eapply Rle_trans; [apply Rabs_triang|]. lra. }
    assert (Ka : sim 1000 acc (value acc)) by (apply self_sim; [exact Fa|]; lra).
    assert (J2 : 0 <= INR j * (2 * b)) by (apply Rmult_le_pos; lra).
    assert (Kx : sim 1000 x (value x)) by (apply self_sim; [exact Fx|]; lra).
    destruct (sim_add pf 1000 1000 _ _ _ _ Ka Kx ltac:(lia)) as (Fs & Vs & _). change (@add (FA o)) with (o_add o) in Vs.
    assert (Bs : Rabs (value (@add (DA pf) acc x)) <= INR (S j) * (2 * b)).
    { rewrite Vs, S_INR. pose proof (acc_add _ _ Hacc (value acc) (value x)) as Q. unfold rounds in Q.
      assert (Q1 : u * (1 + Rabs (value acc + value x)) <= u * (4 * (N * b))).
      { apply Rmult_le_compat_l; [lra|]. assert (N1 : 1 * 1 <= N * b) by (apply Rmult_le_compat; lra). lra. }
      assert (Q2 : u * N * (4 * b) <= / 1000 * (4 * b)) by (apply Rmult_le_compat_r; lra).
      replace (o_add o (value acc) (value x)) with ((o_add o (value acc) (value x) - (value acc + value x)) + (value acc + value x)) by ring.
      eapply Rle_trans; [apply Rabs_triang|]. lra. }
    destruct (IH (@add (DA pf) acc x) (S j) (fun y I => Hl y (or_intror I)) Fs Bs Hj) as (I1 & I2 & I3).
    split; [exact I1|]. split; [|exact I3]. rewrite I2, Vs. reflexivity.
Qed.

Variables A L : R.
Variables (so : list (string * option (@Inertial (DA pf)))) (sf : list (string * option (@Inertial (FA o)))) (sorted : list (string * option (@Inertial RA))).
Hypothesis HSim : Forall2 (link_sim pf) so sf.
Hypothesis HNear : Forall2 (link_near o u A L) sf sorted.
Hypothesis Pos : forall n i, In (n, i) (massive sorted) -> 0 <= in_mass i.
Let M := sum_l (map (fun ni => in_mass (snd ni)) (massive sorted)).
Let N := INR (length (massive sorted)).
Hypothesis M0 : 0 < M.
Hypothesis MB : M <= bpow radix2 400.
Hypothesis BN : 1000 * u * N * (1 + / M) <= 1.
Notation mass_list := (map (fun ni : string * @Inertial (DA pf) => in_mass (snd ni)) (massive so)).

Lemma massive_sim : Forall2 (fun (x : string * @Inertial (DA pf)) (x' : string * @Inertial (FA o)) => fst x = fst x' /\ sim 1001 (in_mass (snd x)) (in_mass (snd x'))) (massive so) (massive sf).
Proof.
  clear - HSim. induction HSim as [|[n i] [n' i'] l l' [H1 H2] F IH]; [constructor|]. cbn [fst snd] in *. subst n'.
  unfold massive in *. cbn [flat_map fst snd]. apply Forall2_app; [|exact (IH F)].
  destruct i as [i|], i' as [i'|]; cbn [both] in H2; try contradiction; [|constructor]. constructor; [|constructor]. split; [reflexivity|]. apply H2.
Qed.
Lemma HM : Forall2 (massive_near o u) (massive sf) (massive sorted).
Proof. apply (massive_both o u A L). exact HNear. Qed.
Lemma mass_values : map value mass_list = map (fun ni => in_mass (snd ni)) (massive sf).
Proof. rewrite map_map. induction massive_sim as [|x y l l' (H1 & H2 & H3 & H4) F IH]; [reflexivity|]. cbn [map]. now rewrite H3, IH. Qed.
Lemma N_facts : 1 <= N /\ 0 < / M /\ 1000 * u * N <= 1 /\ N <= bpow radix2 44 /\ 1000 * (u * N * (1 + M)) <= M.
Proof.
  assert (iM : 0 < / M) by now apply Rinv_0_lt_compat.
  assert (N1 : 1 <= N).
  { unfold N, M in *. destruct (massive sorted) as [|x l]; [cbn in M0; lra|]. cbn [length]. rewrite S_INR. pose proof (pos_INR (length l)). lra. }
  assert (uN : 0 <= u * N) by (apply Rmult_le_pos; lra). assert (uNi : 0 <= u * N * / M) by (apply Rmult_le_pos; lra).
  assert (U : 1000 * u * N <= 1) by lra. split; [exact N1|]. split; [exact iM|]. split; [exact U|]. split.
  - assert (Q : double_unit * N <= u * N) by (apply Rmult_le_compat_r; lra). change (bpow radix2 44) with (IZR 17592186044416). unfold double_unit in Q. lra.
  - assert (Q : (1000 * u * N * (1 + / M)) * M <= 1 * M) by (apply Rmult_le_compat_r; lra).
    replace ((1000 * u * N * (1 + / M)) * M) with (1000 * (u * N * (1 + M))) in Q by (field; lra). lra.
Qed.
Lemma mass_bounds : forall m, In m mass_list -> finite m /\ Rabs (value m) <= bpow radix2 402.
Proof.
  assert (G : bpow radix2 400 * 4 = bpow radix2 402) by (change 4 with (bpow radix2 2); rewrite <- bpow_plus; reflexivity).
  assert (G1 : 1 <= bpow radix2 400) by (change 1 with (bpow radix2 0); apply bpow_le; lia).
  assert (Le : forall n i, In (n, i) (massive sorted) -> in_mass i <= M).
  { clear - Pos. unfold M. induction (massive sorted) as [|[n0 i0] l IH]; intros n i I; [destruct I|].
    cbn [map snd]. change (sum_l (?a :: ?b)) with (a + sum_l b).
    assert (0 <= sum_l (map (fun ni : string * @Inertial RA => in_mass (snd ni)) l)).
    { clear - Pos. induction l as [|[n1 i1] l IH]; [cbn; lra|]. cbn [map snd]. change (sum_l (?a :: ?b)) with (a + sum_l b).
      pose proof (Pos n1 i1 (or_intror (or_introl eq_refl))). assert (0 <= sum_l (map (fun ni : string * @Inertial RA => in_mass (snd ni)) l)); [apply IH|lra].
      intros n i [H1|H1]; [apply (Pos n i); left; exact H1 | apply (Pos n i); right; right; exact H1]. }
    destruct I as [E|I].
    - injection E as <- <-. lra.
    - assert (in_mass i <= sum_l (map (fun ni : string * @Inertial RA => in_mass (snd ni)) l)) by (apply (IH (fun n i I => Pos n i (or_intror I)) n i I)).
      pose proof (Pos n0 i0 (or_introl eq_refl)). lra. }
  intros m I. apply in_map_iff in I. destruct I as (x & <- & I).
  destruct (Forall2_in_l _ _ _ massive_sim x I) as (y & Iy & _ & (F & V & _)). destruct (Forall2_in_l _ _ _ HM y Iy) as ([n i] & Ii & _ & Rn). unfold rounds in Rn. cbn [snd] in Rn.
  split; [exact F|]. rewrite V. pose proof (Pos n i Ii) as P0. pose proof (Le n i Ii) as P1. rewrite (Rabs_right (in_mass i)) in Rn by lra.
  assert (Q : u * (1 + in_mass i) <= / 1000 * (1 + in_mass i)) by (apply Rmult_le_compat_r; lra).
  change (@num (FA o)) with Rdefinitions.R in *. change (@num RA) with Rdefinitions.R in *.
  replace (in_mass (snd y)) with ((in_mass (snd y) - in_mass i) + in_mass i) by ring. eapply Rle_trans; [apply Rabs_triang|]. rewrite (Rabs_right (in_mass i)) by lra. lra.
Qed.
Lemma lengths : length (massive so) = length (massive sf) /\ length (massive sf) = length (massive sorted).
Proof. split; eapply Forall2_len; [exact massive_sim|exact HM]. Qed.
Lemma zero_sim : finite (@n0 (DA pf)) /\ value (@n0 (DA pf)) = 0.
Proof. destruct (lit0 pf u Hpf Hu1) as [(F & V & _) E]. split; [exact F|]. rewrite V. exact E. Qed.

Lemma double_total_sim : finite (mass_sum (massive so)) /\ value (mass_sum (massive so)) = fold_left (o_add o) (map (fun ni => in_mass (snd ni)) (massive sf)) 0 /\
  Rabs (value (mass_sum (massive so))) <= bpow radix2 1000.
Proof.
  destruct N_facts as (N1 & iM & U & N44 & MM). destruct zero_sim as [Fz Vz]. destruct lengths as [L1 L2]. rewrite mass_sum_fold, <- mass_values.
  assert (B1 : 1 <= bpow radix2 402) by (change 1 with (bpow radix2 0); apply bpow_le; lia).
  assert (B2 : N * bpow radix2 402 <= bpow radix2 44 * bpow radix2 402) by (apply Rmult_le_compat_r; lra).
  assert (B3 : 2 * (bpow radix2 44 * bpow radix2 402) <= bpow radix2 1000).
  { rewrite <- bpow_plus. change 2 with (bpow radix2 1). rewrite <- bpow_plus. apply bpow_le. lia. }
  destruct (sum_sim (bpow radix2 402) N B1 U ltac:(lra) mass_list (@n0 (DA pf)) 0 mass_bounds Fz) as (F & V & B).
  - rewrite Vz, Rabs_R0. cbn [INR]. lra.
  - rewrite map_length, Nat.add_0_l, L1, L2. apply Rle_refl.
  - split; [exact F|]. split; [rewrite V, Vz; reflexivity|]. lra.
Qed.
Lemma double_total : finite (mass_sum (massive so)) /\ Rabs (value (mass_sum (massive so)) - M) <= 4 * u * N * (1 + M).
Proof.
  destruct double_total_sim as (F & V & _). split; [exact F|]. rewrite V.
  exact (total_both o u (ieee_accurate pf u Hpf Hu1) Hu sf sorted HM Pos M0 BN).
Qed.

Lemma double_mean X d (vs : list double) (vs' : list R) : 1 <= X -> 0 <= d <= X -> X <= bpow radix2 440 ->
  Forall2 (fun x x' => finite x /\ Rabs x' <= X /\ Rabs (value x - x') <= d) vs vs' -> length vs' = length (massive sorted) ->
  let c := @div (DA pf) (fold_left (@add (DA pf)) (map (fun p => @mul (DA pf) (fst p) (snd p)) (combine mass_list vs)) (@n0 (DA pf))) (mass_sum (massive so)) in
  finite c /\ Rabs (value c - sum_l (moments (combine (map (fun ni => in_mass (snd ni)) (massive sorted)) vs')) / M) <= 5 * d + 100 * u * X * N * (1 + / M).
Proof.
  intros X1 D1 XB F Len c. destruct N_facts as (N1 & iM & U & N44 & MM). destruct zero_sim as [Fz Vz]. destruct lengths as [L1 L2].
  pose proof (ieee_accurate pf u Hpf Hu1) as Hacc.
  assert (Lv : length vs = length vs') by (eapply Forall2_len; exact F).
  assert (F' : Forall2 (fun x x' => Rabs x' <= X /\ Rabs (x - x') <= d) (map value vs) vs').
  { clear - F. induction F as [|x x' l l' (H1 & H2 & H3) F IH]; cbn [map]; constructor; auto. }
  pose proof (mean_both o u Hacc Hu sf sorted HM Pos M0 BN X d (map value vs) vs' X1 D1 F' Len) as RM. fold M N in RM. rewrite <- mass_values in RM.
  destruct double_total as [Ft Et]. destruct double_total_sim as (_ & Vt & Bt). rewrite <- mass_values in Vt. rewrite <- Vt in RM.
  assert (V2 : forall x, In x vs -> finite x /\ Rabs (value x) <= bpow radix2 441).
  { intros x I. destruct (Forall2_in_l _ _ _ F x I) as (x' & _ & H1 & H2 & H3). split; [exact H1|].
    replace (value x) with ((value x - x') + x') by ring. eapply Rle_trans; [apply Rabs_triang|].
    assert (Q : bpow radix2 440 * 2 = bpow radix2 441) by (change 2 with (bpow radix2 1); rewrite <- bpow_plus; reflexivity). lra. }
  set (ts := map (fun p => @mul (DA pf) (fst p) (snd p)) (combine mass_list vs)) in *.
  assert (T1 : map value ts = fmoments o (combine (map value mass_list) (map value vs)) /\ forall x, In x ts -> finite x /\ Rabs (value x) <= bpow radix2 843).
  { unfold ts. pose proof mass_bounds as MBd. clear - MBd V2. set (ml := mass_list) in *. clearbody ml. revert vs V2. induction ml as [|m ml IH]; intros [|v vs] V2; [split; [reflexivity|intros x []]..|].
    cbn [combine map fst snd]. destruct (MBd m (or_introl eq_refl)) as [Fm Bm]. destruct (V2 v (or_introl eq_refl)) as [Fv Bv].
    destruct (sim_mul pf 402 441 _ _ _ _ (self_sim 402 m Fm Bm) (self_sim 441 v Fv Bv) ltac:(lia)) as (Fp & Vp & Bp). change (402 + 441)%Z with 843%Z in Bp.
    destruct (IH (fun y I => MBd y (or_intror I)) vs (fun y I => V2 y (or_intror I))) as [I1 I2]. split.
    - unfold fmoments in *. cbn [combine map fst snd]. rewrite I1, Vp. reflexivity.
    - intros x [<-|I]; [|now apply I2]. split; [exact Fp|]. rewrite Vp. exact Bp. }
  destruct T1 as [T1 T2].
  assert (B1 : 1 <= bpow radix2 843) by (change 1 with (bpow radix2 0); apply bpow_le; lia).
  assert (B2 : N * bpow radix2 843 <= bpow radix2 44 * bpow radix2 843) by (apply Rmult_le_compat_r; lra).
  assert (B3 : 2 * (bpow radix2 44 * bpow radix2 843) <= bpow radix2 1000).
  { rewrite <- bpow_plus. change 2 with (bpow radix2 1). rewrite <- bpow_plus. apply bpow_le. lia. }
  assert (Lt : INR (0 + length ts) <= N).
  { unfold ts. rewrite map_length, combine_length, map_length, Lv, Len, L1, L2, Nat.min_id, Nat.add_0_l. apply Rle_refl. }
  assert (Z0 : Rabs (value (@n0 (DA pf))) <= INR 0 * (2 * bpow radix2 843)) by (rewrite Vz, Rabs_R0; cbn [INR]; lra).
  destruct (sum_sim (bpow radix2 843) N B1 U ltac:(lra) ts (@n0 (DA pf)) 0 T2 Fz Z0 Lt) as (Fs & Vs & Bs). rewrite Vz, T1 in Vs.
  unfold c. clear c. set (num_ := fold_left (@add (DA pf)) ts (@n0 (DA pf))) in *. clearbody num_.
  change (@num (FA o)) with Rdefinitions.R in *. change (@num (DA pf)) with double in *. change (@num RA) with Rdefinitions.R in *. rewrite <- Vs in RM.
  (* the exact mean is at most X *)
  assert (EX : Rabs (sum_l (moments (combine (map (fun ni => in_mass (snd ni)) (massive sorted)) vs')) / M) <= X).
  { unfold Rdiv. rewrite Rabs_mult, (Rabs_pos_eq (/ M)) by lra.
    assert (Q : Rabs (sum_l (moments (combine (map (fun ni => in_mass (snd ni)) (massive sorted)) vs'))) <= X * M).
    { unfold M. assert (Fx : forall x, In x vs' -> Rabs x <= X) by (intros x I; destruct (Forall2_in_r _ _ _ F x I) as (y & _ & _ & H & _); exact H).
      clear - Pos Fx Len X1. revert vs' Fx Len. induction (massive sorted) as [|[n i] l IH]; intros [|v vs'] Fx Len; try discriminate Len.
      - unfold moments, sum_l. cbn. rewrite Rabs_R0. lra.
      - unfold moments in *. cbn [combine map fst snd]. change (sum_l (?a :: ?b)) with (a + sum_l b).
        specialize (IH (fun n i I => Pos n i (or_intror I)) vs' (fun x I => Fx x (or_intror I)) ltac:(now injection Len)).
        eapply Rle_trans; [apply Rabs_triang|]. rewrite Rabs_mult. pose proof (Pos n i (or_introl eq_refl)) as P0. rewrite (Rabs_pos_eq (in_mass i)) by exact P0.
        assert (in_mass i * Rabs v <= in_mass i * X) by (apply Rmult_le_compat_l; [exact P0|apply Fx; now left]).
        change (@num RA) with Rdefinitions.R in *. lra. }
    assert (Q1 : Rabs (sum_l (moments (combine (map (fun ni => in_mass (snd ni)) (massive sorted)) vs'))) * / M <= X * M * / M) by (apply Rmult_le_compat_r; lra).
    replace (X * M * / M) with X in Q1 by (field; lra). exact Q1. }
  assert (Er : 100 * u * X * N * (1 + / M) <= X).
  { replace (100 * u * X * N * (1 + / M)) with ((1000 * u * N * (1 + / M)) * (X / 10)) by (field; lra).
    assert ((1000 * u * N * (1 + / M)) * (X / 10) <= 1 * (X / 10)) by (apply Rmult_le_compat_r; lra). lra. }
  set (ex := sum_l (moments _) / M) in *.
  assert (Q7 : Rabs (o_div o (value num_) (value (mass_sum (massive so)))) <= bpow radix2 1000).
  { replace (o_div o (value num_) (value (mass_sum (massive so)))) with ((o_div o (value num_) (value (mass_sum (massive so))) - ex) + ex) by ring.
    eapply Rle_trans; [apply Rabs_triang|]. assert (Q : bpow radix2 440 * 8 <= bpow radix2 1000) by (change 8 with (bpow radix2 3); rewrite <- bpow_plus; apply bpow_le; lia). lra. }
  assert (Tp : value (mass_sum (massive so)) <> 0).
  { apply Rabs_le_inv in Et. assert (4 * u * N * (1 + M) <= M / 250) by lra. lra. }
  destruct (sim_div pf 1000 num_ (mass_sum (massive so)) _ _ 1000 1000 (self_sim 1000 num_ Fs ltac:(lra)) (self_sim 1000 _ Ft Bt) Tp ltac:(lia) Q7) as (Fc & Vc & _).
  split; [exact Fc|]. rewrite Vc. exact RM.
Qed.
End Mean.
