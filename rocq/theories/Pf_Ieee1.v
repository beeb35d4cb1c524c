(** Finite doubles compute like rounded real numbers. *)
From Coq Require Import ZArith QArith Qreals Reals Lra Lia String List Bool.
From Flocq Require Import Core BinarySingleNaN.
From Verif Require Import Base Num Pose Urdf Decimal RealArith FloatArith Ieee Spec_Robot Spec_Float Spec_Ieee Ex_Float.
Import ListNotations.
Local Open Scope R_scope.

(** the double that stands for a number (if there is one) *)
Definition of_real (r : R) : double :=
  binary_normalize double_prec double_emax _ _ mode_NE
    (Ztrunc (scaled_mantissa radix2 (SpecFloat.fexp double_prec double_emax) r)) (cexp radix2 (SpecFloat.fexp double_prec double_emax) r) false.

Lemma of_real_value (x : double) : finite x -> value (of_real (value x)) = value x /\ finite (of_real (value x)).
Proof.
  intros F. unfold of_real, value. set (r := B2R x).
  pose proof (generic_format_B2R double_prec double_emax x) as G. fold r in G.
  pose proof (binary_normalize_correct double_prec double_emax _ _ mode_NE (Ztrunc (scaled_mantissa radix2 (SpecFloat.fexp double_prec double_emax) r)) (cexp radix2 (SpecFloat.fexp double_prec double_emax) r) false) as H.
  cbv zeta in H. unfold generic_format in G. rewrite <- G in H.
  rewrite (round_generic radix2 (SpecFloat.fexp double_prec double_emax) (round_mode mode_NE) r) in H by (exact (generic_format_B2R double_prec double_emax x)).
  rewrite Rlt_bool_true in H by (apply abs_B2R_lt_emax). destruct H as (H1 & H2 & _). split; [exact H1|exact H2].
Qed.
Lemma same_value (x y : double) : finite x -> finite y -> value x = value y -> x = y \/ exists a b, x = B754_zero a /\ y = B754_zero b.
Proof.
  unfold finite, value. destruct x as [a| | |a m e B], y as [b| | |b m' e' B']; try discriminate; intros _ _ E.
  - right. eauto.
  - exfalso. symmetry in E. revert E. cbn [B2R]. apply F2R_neq_0. destruct b; discriminate.
  - exfalso. revert E. cbn [B2R]. apply F2R_neq_0. destruct a; discriminate.
  - left. apply B2R_inj; auto.
Qed.

(** the functions of the platform, on numbers *)
Definition on_reals (f : double -> double) (g : R -> R) (r : R) : R :=
  if Req_EM_T (value (of_real r)) r then if is_finite (of_real r) then value (f (of_real r)) else g r else g r.
Definition ieee (pf : Platform) : Ops := {|
  o_lit := fun q => double_round (Q2R q);
  o_add := fun a b => double_round (a + b); o_sub := fun a b => double_round (a - b);
  o_mul := fun a b => double_round (a * b); o_div := fun a b => double_round (a / b);
  o_sqrt := fun a => double_round (sqrt a);
  o_sin := on_reals (p_sin pf) sin; o_cos := on_reals (p_cos pf) cos; o_asin := asin; o_atan2 := ratan2;
  o_parse := fun s => match strToDouble s with
                      | None => None
                      | Some q => if Rle_dec (Rabs (Q2R q)) (bpow radix2 1000)
                                  then match p_parse pf s with Some x => Some (value x) | None => Some (Q2R q) end
                                  else Some (Q2R q)
                      end |}.

Section Sim.
Variable pf : Platform.
Variable u : R.
Hypothesis Hpf : platform_ok pf u.
Hypothesis Hu : double_unit <= u.
Notation o := (ieee pf).

Lemma u_pos : 0 <= u. Proof. unfold double_unit in Hu. lra. Qed.
Lemma rounds_mono x y : rounds double_unit x y -> rounds u x y.
Proof. unfold rounds. intros H. eapply Rle_trans; [exact H|]. apply Rmult_le_compat_r; [pose proof (Rabs_pos x); lra|exact Hu]. Qed.
Lemma rounds_same x : rounds u x x.
Proof. unfold rounds. rewrite Rminus_diag_eq, Rabs_R0 by reflexivity. apply Rmult_le_pos; [exact u_pos|]. pose proof (Rabs_pos x). lra. Qed.

Lemma on_reals_accurate f g : (forall x, finite x -> finite (f x) /\ rounds u (g (value x)) (value (f x))) -> forall a, rounds u (g a) (on_reals f g a).
Proof.
  intros H a. unfold on_reals. destruct (Req_EM_T (value (of_real a)) a) as [E|E]; [|apply rounds_same].
  destruct (is_finite (of_real a)) eqn:F; [|apply rounds_same]. destruct (H (of_real a) F) as [_ X]. rewrite E in X. exact X.
Qed.
Lemma ieee_accurate : accurate o u.
Proof.
  split; cbn [o_lit o_add o_sub o_mul o_div o_sqrt o_sin o_cos o_parse ieee].
  - unfold Q2R. cbn. rewrite Rmult_0_l. unfold double_round. apply round_0. apply valid_rnd_N.
  - intros. apply rounds_mono, double_rounds.
  - intros. apply rounds_mono, double_rounds.
  - intros. apply rounds_mono, double_rounds.
  - intros. apply rounds_mono, double_rounds.
  - intros. apply rounds_mono, double_rounds.
  - intros. apply rounds_mono, double_rounds.
  - apply on_reals_accurate. apply (pk_sin _ _ Hpf).
  - apply on_reals_accurate. apply (pk_cos _ _ Hpf).
  - intros s. destruct (strToDouble s) as [q|] eqn:E; [|exact I]. destruct (Rle_dec (Rabs (Q2R q)) (bpow radix2 1000)) as [B|B]; [|apply rounds_same].
    destruct (pk_parse _ _ Hpf s q E B) as (x & P & F & X). rewrite P. exact X.
Qed.

(** [x] is finite, stands for [r], and [r] is at most 2^k *)
Definition sim (k : Z) (x : double) (r : R) : Prop := finite x /\ value x = r /\ Rabs r <= bpow radix2 k.
Lemma sim_le k l x r : (k <= l)%Z -> sim k x r -> sim l x r.
Proof. intros H (F & V & B). split; [exact F|]. split; [exact V|]. eapply Rle_trans; [exact B|]. now apply bpow_le. Qed.

Lemma round_bound k x : (-1074 <= k)%Z -> Rabs x <= bpow radix2 k -> Rabs (double_round x) <= bpow radix2 k.
Proof.
  intros K H. unfold double_round. apply abs_round_le_generic; [apply FLT_exp_valid; reflexivity | apply valid_rnd_N | | exact H].
  apply generic_format_bpow. unfold FLT_exp. lia.
Qed.
Lemma below k x : (k < 1024)%Z -> Rabs x <= bpow radix2 k -> Rlt_bool (Rabs x) (bpow radix2 double_emax) = true.
Proof. intros K H. apply Rlt_bool_true. eapply Rle_lt_trans; [exact H|]. apply bpow_lt. exact K. Qed.

Lemma sim_add k l x y a b : sim k x a -> sim l y b -> (-1074 <= Z.max k l + 1 < 1024)%Z -> sim (Z.max k l + 1) (@add (DA pf) x y) (@add (FA o) a b).
Proof.
  intros (F & V & B) (F' & V' & B') K. subst a b.
  assert (S : Rabs (value x + value y) <= bpow radix2 (Z.max k l + 1)).
  { eapply Rle_trans; [apply Rabs_triang|]. rewrite bpow_plus. change (bpow radix2 1) with 2.
    pose proof (bpow_le radix2 k (Z.max k l) ltac:(lia)). pose proof (bpow_le radix2 l (Z.max k l) ltac:(lia)). lra. }
  pose proof (round_bound _ _ (proj1 K) S) as R1. pose proof (Bplus_correct double_prec double_emax _ _ mode_NE x y F F') as H.
  change (round radix2 (SpecFloat.fexp double_prec double_emax) (round_mode mode_NE)) with double_round in H.
  fold (value x) (value y) in H. rewrite (below _ _ (proj2 K) R1) in H. destruct H as (H1 & H2 & _). split; [exact H2|]. split; [exact H1|exact R1].
Qed.
Lemma sim_sub k l x y a b : sim k x a -> sim l y b -> (-1074 <= Z.max k l + 1 < 1024)%Z -> sim (Z.max k l + 1) (@sub (DA pf) x y) (@sub (FA o) a b).
Proof.
  intros (F & V & B) (F' & V' & B') K. subst a b.
  assert (S : Rabs (value x - value y) <= bpow radix2 (Z.max k l + 1)).
  { eapply Rle_trans; [apply Rabs_triang|]. rewrite Rabs_Ropp, bpow_plus. change (bpow radix2 1) with 2.
    pose proof (bpow_le radix2 k (Z.max k l) ltac:(lia)). pose proof (bpow_le radix2 l (Z.max k l) ltac:(lia)). lra. }
  pose proof (round_bound _ _ (proj1 K) S) as R1. pose proof (Bminus_correct double_prec double_emax _ _ mode_NE x y F F') as H.
  change (round radix2 (SpecFloat.fexp double_prec double_emax) (round_mode mode_NE)) with double_round in H.
  fold (value x) (value y) in H. rewrite (below _ _ (proj2 K) R1) in H. destruct H as (H1 & H2 & _). split; [exact H2|]. split; [exact H1|exact R1].
Qed.
Lemma sim_mul k l x y a b : sim k x a -> sim l y b -> (-1074 <= k + l < 1024)%Z -> sim (k + l) (@mul (DA pf) x y) (@mul (FA o) a b).
Proof.
  intros (F & V & B) (F' & V' & B') K. subst a b.
  assert (S : Rabs (value x * value y) <= bpow radix2 (k + l)).
  { rewrite Rabs_mult, bpow_plus. apply Rmult_le_compat; try apply Rabs_pos; assumption. }
  pose proof (round_bound _ _ (proj1 K) S) as R1. pose proof (Bmult_correct double_prec double_emax _ _ mode_NE x y) as H.
  change (round radix2 (SpecFloat.fexp double_prec double_emax) (round_mode mode_NE)) with double_round in H.
  fold (value x) (value y) in H. rewrite (below _ _ (proj2 K) R1) in H. destruct H as (H1 & H2 & _). unfold finite in F, F'. rewrite F, F' in H2. split; [exact H2|]. split; [exact H1|exact R1].
Qed.
(** a quotient that is known to be small *)
Lemma sim_div k x y a b j l : sim j x a -> sim l y b -> b <> 0 -> (k < 1024)%Z -> Rabs (@div (FA o) a b) <= bpow radix2 k -> sim k (@div (DA pf) x y) (@div (FA o) a b).
Proof.
  intros (F & V & B) (F' & V' & B') N K R1. subst a b. pose proof (Bdiv_correct double_prec double_emax _ _ mode_NE x y N) as H.
  change (round radix2 (SpecFloat.fexp double_prec double_emax) (round_mode mode_NE)) with double_round in H.
  fold (value x) (value y) in H. cbn [div FA ieee o_div] in R1. rewrite (below _ _ K R1) in H. destruct H as (H1 & H2 & _). unfold finite in F. rewrite F in H2.
  split; [exact H2|]. split; [exact H1|exact R1].
Qed.
Lemma sim_half k x a : sim k x a -> (-1074 <= k < 1024)%Z -> forall l y b, sim l y b -> 1 <= b -> sim k (@div (DA pf) x y) (@div (FA o) a b).
Proof.
  intros S K l y b S' B. apply (sim_div k x y a b k l S S'); [lra|lia|]. destruct S as (_ & _ & S). cbn [div FA ieee o_div]. apply round_bound; [lia|].
  unfold Rdiv. rewrite Rabs_mult. rewrite <- (Rmult_1_r (bpow radix2 k)). apply Rmult_le_compat; try apply Rabs_pos; [exact S|].
  rewrite Rabs_inv. rewrite (Rabs_pos_eq b) by lra. rewrite <- Rinv_1. apply Rinv_le_contravar; lra.
Qed.
Lemma sim_opp k x a : sim k x a -> sim k (@opp (DA pf) x) (@opp (FA o) a).
Proof.
  intros (F & V & B). subst a. split; [unfold finite; cbn; now rewrite is_finite_Bopp|]. split; [apply B2R_Bopp|]. cbn [opp FA]. now rewrite Rabs_Ropp.
Qed.
Lemma sim_sqrt k x a : sim k x a -> 0 <= a -> (0 <= k < 1024)%Z -> sim k (@nsqrt (DA pf) x) (@nsqrt (FA o) a).
Proof.
  intros (F & V & B) P K. subst a. destruct (Bsqrt_correct double_prec double_emax _ _ mode_NE x) as (H1 & H2 & _).
  change (round radix2 (SpecFloat.fexp double_prec double_emax) (round_mode mode_NE)) with double_round in H1.
  split. { unfold finite. change (@nsqrt (DA pf) x) with (Bsqrt mode_NE x). rewrite H2. unfold finite in F. destruct x as [s| | |s m e Bd]; try discriminate F; [reflexivity|].
    destruct s; [|reflexivity]. exfalso. cbn in P. assert (F2R (Float radix2 (Z.neg m) e) < 0) by (now apply F2R_lt_0). lra. }
  split; [exact H1|]. cbn [nsqrt FA ieee o_sqrt]. apply round_bound; [lia|]. rewrite Rabs_pos_eq by apply sqrt_pos.
  assert (1 <= bpow radix2 k) by (apply (bpow_le radix2 0); lia). rewrite Rabs_pos_eq in B by exact P.
  eapply Rle_trans; [apply sqrt_le_1_alt; exact B|]. rewrite <- (sqrt_Rsqr (bpow radix2 k)) at 2 by lra. apply sqrt_le_1_alt. unfold Rsqr. nra.
Qed.

Lemma on_reals_sim f g x : (forall x, finite x -> finite (f x) /\ rounds u (g (value x)) (value (f x))) ->
  value (f (B754_zero true)) = value (f (B754_zero false)) -> finite x -> value (f x) = on_reals f g (value x).
Proof.
  intros H Z F. destruct (of_real_value x F) as [V F']. unfold on_reals. destruct (Req_EM_T (value (of_real (value x))) (value x)) as [_|N]; [|contradiction].
  unfold finite in F'. rewrite F'. destruct (same_value _ _ F' F V) as [E|(a & b & E1 & E2)]; [now rewrite E|]. rewrite E1, E2. destruct a, b; auto.
Qed.
Lemma sim_sin k x a : sim k x a -> u <= / 1000 -> sim 1 (@nsin (DA pf) x) (@nsin (FA o) a).
Proof.
  intros (F & V & B) U. subst a. destruct (pk_sin _ _ Hpf x F) as [F1 X]. pose proof (on_reals_sim _ sin x (pk_sin _ _ Hpf) (proj1 (pk_zeros _ _ Hpf)) F) as E.
  split; [exact F1|]. split; [exact E|]. change (@nsin (FA o) (value x)) with (on_reals (p_sin pf) sin (value x)). rewrite <- E. change (bpow radix2 1) with 2.
  unfold rounds in X. pose proof (SIN_bound (value x)) as Sb. assert (Ab : Rabs (sin (value x)) <= 1) by (apply Rabs_le; lra). pose proof u_pos.
  assert (Y : u * (1 + Rabs (sin (value x))) <= u * 2) by (apply Rmult_le_compat_l; lra).
  replace (value (p_sin pf x)) with ((value (p_sin pf x) - sin (value x)) + sin (value x)) by ring. eapply Rle_trans; [apply Rabs_triang|]. lra.
Qed.
Lemma sim_cos k x a : sim k x a -> u <= / 1000 -> sim 1 (@ncos (DA pf) x) (@ncos (FA o) a).
Proof.
  intros (F & V & B) U. subst a. destruct (pk_cos _ _ Hpf x F) as [F1 X]. pose proof (on_reals_sim _ cos x (pk_cos _ _ Hpf) (proj2 (pk_zeros _ _ Hpf)) F) as E.
  split; [exact F1|]. split; [exact E|]. change (@ncos (FA o) (value x)) with (on_reals (p_cos pf) cos (value x)). rewrite <- E. change (bpow radix2 1) with 2.
  unfold rounds in X. pose proof (COS_bound (value x)) as Sb. assert (Ab : Rabs (cos (value x)) <= 1) by (apply Rabs_le; lra). pose proof u_pos.
  assert (Y : u * (1 + Rabs (cos (value x))) <= u * 2) by (apply Rmult_le_compat_l; lra).
  replace (value (p_cos pf x)) with ((value (p_cos pf x) - cos (value x)) + cos (value x)) by ring. eapply Rle_trans; [apply Rabs_triang|]. lra.
Qed.

Lemma sim_lit q : Rabs (Q2R q) <= 4 -> sim 2 (@lit (DA pf) q) (@lit (FA o) q).
Proof.
  intros B. destruct (pk_lit _ _ Hpf q B) as [F V]. split; [exact F|]. split; [exact V|]. cbn [lit FA ieee o_lit]. apply round_bound; [lia|exact B].
Qed.
Lemma lit0 : sim 0 (@n0 (DA pf)) (@n0 (FA o)) /\ @n0 (FA o) = 0.
Proof.
  assert (E : @n0 (FA o) = 0) by (apply (acc_zero _ _ ieee_accurate)). rewrite E. split; [|reflexivity].
  destruct (sim_lit 0) as (F & V & _); [unfold Q2R; cbn; rewrite Rmult_0_l, Rabs_R0; lra|]. split; [exact F|]. split; [exact (eq_trans V E)|]. rewrite Rabs_R0. apply bpow_ge_0.
Qed.
Lemma round_int n k : (0 <= k)%Z -> IZR n = bpow radix2 k -> double_round (IZR n) = IZR n.
Proof. intros K E. rewrite E. unfold double_round. apply round_generic; [apply valid_rnd_N|]. apply generic_format_bpow. unfold FLT_exp. lia. Qed.
Lemma lit1 : sim 0 (@n1 (DA pf)) (@n1 (FA o)) /\ @n1 (FA o) = 1.
Proof.
  assert (E : @n1 (FA o) = 1). { change (@n1 (FA o)) with (double_round (Q2R 1)). replace (Q2R 1) with (IZR 1) by (unfold Q2R; cbn; lra). apply (round_int 1 0); [lia|reflexivity]. }
  rewrite E. split; [|reflexivity]. destruct (sim_lit 1) as (F & V & _); [unfold Q2R; cbn; rewrite Rabs_pos_eq; lra|]. split; [exact F|]. split; [exact (eq_trans V E)|]. rewrite Rabs_R1. right. reflexivity.
Qed.
Lemma lit2 : sim 1 (@n2 (DA pf)) (@n2 (FA o)) /\ @n2 (FA o) = 2.
Proof.
  assert (E : @n2 (FA o) = 2). { change (@n2 (FA o)) with (double_round (Q2R 2)). replace (Q2R 2) with (IZR 2) by (unfold Q2R; cbn; lra). apply (round_int 2 1); [lia|reflexivity]. }
  rewrite E. split; [|reflexivity]. destruct (sim_lit 2) as (F & V & _); [unfold Q2R; cbn; rewrite Rabs_pos_eq; lra|]. split; [exact F|]. split; [exact (eq_trans V E)|]. rewrite Rabs_pos_eq by lra. right. reflexivity.
Qed.
Lemma lit_half : sim 2 (@nhalf (DA pf)) (@nhalf (FA o)).
Proof. apply sim_lit. unfold Q2R. cbn. rewrite Rabs_pos_eq; lra. Qed.

(** comparisons of finite doubles are those of their values *)
Lemma sim_eq k l x y a b : sim k x a -> sim l y b -> @neq (DA pf) x y = @neq (FA o) a b.
Proof.
  intros (F & V & _) (F' & V' & _). subst. cbn [neq DA FA]. rewrite (Beqb_correct double_prec double_emax _ _ F F'). unfold Reqb, value.
  destruct (Req_EM_T (B2R x) (B2R y)); [now apply Req_bool_true | now apply Req_bool_false].
Qed.
Lemma sim_lt k l x y a b : sim k x a -> sim l y b -> @nlt (DA pf) x y = @nlt (FA o) a b.
Proof.
  intros (F & V & _) (F' & V' & _). subst. cbn [nlt DA FA]. rewrite (Bltb_correct double_prec double_emax _ _ F F'). unfold Rltb, value.
  destruct (Rlt_dec (B2R x) (B2R y)); [now apply Rlt_bool_true | apply Rlt_bool_false; lra].
Qed.
Lemma sim_le_test k l x y a b : sim k x a -> sim l y b -> @nle (DA pf) x y = @nle (FA o) a b.
Proof.
  intros (F & V & _) (F' & V' & _). subst. cbn [nle DA FA]. rewrite (Bleb_correct double_prec double_emax _ _ F F'). unfold Rleb, value.
  destruct (Rle_dec (B2R x) (B2R y)); [now apply Rle_bool_true | apply Rle_bool_false; lra].
Qed.
End Sim.
