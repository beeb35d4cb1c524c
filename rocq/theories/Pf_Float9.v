(** Squared distances between links and their gradients in rounded arithmetic; for C98. *)
From Coq Require Import QArith Qreals String List Arith Lia Bool Permutation Reals Lra Classical.
From Verif Require Import Base Num Pose DataStructure Urdf Kin Wrapper Decimal RealArith FloatArith
  Spec_Robot Spec_Hist Spec_Load Spec_Jac Spec_Mass Spec_Rot Spec_Body Spec_Deriv Spec_Float
  Pf_Data Inv Pf_FK Rep Pf_Ops Pf_Jac Pf_Pose Pf_Reach Pf_Wrap Pf_Wrap2 Pf_Mass Pf_Real Pf_Body Pf_JacD Pf_ComD Pf_BaseD
  Pf_Float1 Pf_Float2 Pf_Float3 Pf_Float4 Pf_Float5 Pf_Float6 Pf_Float7 Pf_Float8.
Import ListNotations.
Local Open Scope R_scope.

Section Dist.
Variable o : Ops.
Variable u : R.
Hypothesis Hacc : accurate o u.
Hypothesis U0 : 0 <= u.
(** [t] is the error of an angle below the link, [K] the size of the robot *)
Variables t K : R.
Hypothesis Hut : u <= t.
Hypothesis Ht : 4000000 * t <= 1.
Hypothesis HK : 1 <= K.

Lemma tK : 0 <= t * K /\ u <= t * K /\ u * K <= t * K.
Proof.
  assert (0 <= t) by lra. assert (t * 1 <= t * K) by (apply Rmult_le_compat_l; lra).
  assert (u * K <= t * K) by (apply Rmult_le_compat_r; lra). lra.
Qed.
Lemma tKK : 0 <= t * K * K /\ t * K <= t * K * K /\ u <= t * K * K /\ u * K * K <= t * K * K /\ u * K <= t * K * K /\ t * K <= K / 4000000.
Proof.
  destruct tK as (P1 & P2 & P3).
  assert (t * K * 1 <= t * K * K) by (apply Rmult_le_compat_l; lra).
  assert (u * K * K <= t * K * K) by (apply Rmult_le_compat_r; lra).
  assert (4000000 * t * K <= 1 * K) by (apply Rmult_le_compat_r; lra). lra.
Qed.

Lemma abs_of a b c d : Rabs (a - b) <= c -> Rabs b <= d -> Rabs a <= c + d.
Proof. intros H1 H2. replace a with ((a - b) + b) by ring. eapply Rle_trans; [apply Rabs_triang|]. lra. Qed.
Lemma abs_chain a b c e f : Rabs (a - b) <= e -> Rabs (b - c) <= f -> Rabs (a - c) <= e + f.
Proof. intros H1 H2. replace (a - c) with ((a - b) + (b - c)) by ring. eapply Rle_trans; [apply Rabs_triang|]. lra. Qed.

(** [x] is [x'] up to [e * t * K], of size at most [S * K] *)
Definition sized (e S x x' : R) : Prop := Rabs (x - x') <= e * (t * K) /\ Rabs x' <= S * K.

Lemma sized_abs e S x x' : 0 <= e -> sized e S x x' -> Rabs x <= (S + e / 4000000) * K.
Proof.
  intros E0 [H1 H2]. destruct tKK as (_ & _ & _ & _ & _ & H). eapply Rle_trans; [exact (abs_of _ _ _ _ H1 H2)|].
  assert (e * (t * K) <= e * (K / 4000000)) by (apply Rmult_le_compat_l; lra). lra.
Qed.

Lemma sized_sub e S x x' y y' : 0 <= e -> 0 <= S -> sized e S x x' -> sized e S y y' ->
  sized (2 * e + 1 + 2 * (S + e / 4000000)) (2 * S) (o_sub o x y) (x' - y').
Proof.
  intros E0 S0 X Y. pose proof (sized_abs _ _ _ _ E0 X) as AX. pose proof (sized_abs _ _ _ _ E0 Y) as AY.
  destruct X as [X1 X2], Y as [Y1 Y2]. destruct tK as (P1 & P2 & P3). split.
  - pose proof (acc_sub o u Hacc x y) as R1. unfold rounds in R1.
    assert (S1 : Rabs (x - y) <= 2 * (S + e / 4000000) * K).
    { eapply Rle_trans; [unfold Rminus; apply Rabs_triang|]. rewrite Rabs_Ropp. lra. }
    assert (R2 : Rabs (o_sub o x y - (x - y)) <= t * K + 2 * (S + e / 4000000) * (t * K)).
    { eapply Rle_trans; [exact R1|]. assert (u * Rabs (x - y) <= u * (2 * (S + e / 4000000) * K)) by (apply Rmult_le_compat_l; lra).
      assert (2 * (S + e / 4000000) * (u * K) <= 2 * (S + e / 4000000) * (t * K)) by (apply Rmult_le_compat_l; lra). lra. }
    assert (R3 : Rabs ((x - y) - (x' - y')) <= e * (t * K) + e * (t * K)).
    { replace ((x - y) - (x' - y')) with ((x - x') + - (y - y')) by ring. eapply Rle_trans; [apply Rabs_triang|]. rewrite Rabs_Ropp. lra. }
    pose proof (abs_chain _ _ _ _ _ R2 R3). lra.
  - eapply Rle_trans; [unfold Rminus; apply Rabs_triang|]. rewrite Rabs_Ropp. lra.
Qed.

(** twice a number *)
Lemma sized_twice e S x x' : 0 <= e -> 0 <= S -> sized e S x x' ->
  sized (2 * e + 1 + 6 * (S + e / 4000000)) (2 * S) (o_mul o (@n2 (FA o)) x) (2 * x').
Proof.
  intros E0 S0 X. pose proof (sized_abs _ _ _ _ E0 X) as AX. destruct X as [X1 X2]. destruct tK as (P1 & P2 & P3). split.
  - pose proof (acc_mul o u Hacc (@n2 (FA o)) x) as R1. unfold rounds in R1.
    assert (N2 : Rabs (@n2 (FA o) - 2) <= 3 * u).
    { change (@n2 (FA o)) with (o_lit o 2%Q). pose proof (acc_lit o u Hacc 2%Q) as Q. unfold rounds in Q.
      replace (Q2R 2) with 2 in Q by (unfold Q2R; cbn; lra). rewrite (Rabs_pos_eq 2) in Q by lra. lra. }
    set (z := @n2 (FA o)) in *. set (B := (S + e / 4000000) * K) in *.
    assert (B0 : 0 <= B) by (unfold B; apply Rmult_le_pos; [assert (0 <= e / 4000000) by lra; lra|lra]).
    assert (M1 : Rabs (z * x - 2 * x) <= 3 * u * B).
    { replace (z * x - 2 * x) with ((z - 2) * x) by ring. rewrite Rabs_mult. apply Rmult_le_compat; auto using Rabs_pos. }
    assert (M2 : Rabs (2 * x - 2 * x') <= 2 * (e * (t * K))).
    { replace (2 * x - 2 * x') with (2 * (x - x')) by ring. rewrite Rabs_mult, (Rabs_pos_eq 2) by lra. lra. }
    assert (M3 : Rabs (z * x) <= 3 * B).
    { rewrite Rabs_mult. apply Rmult_le_compat; auto using Rabs_pos. replace z with ((z - 2) + 2) by ring.
      eapply Rle_trans; [apply Rabs_triang|]. rewrite (Rabs_pos_eq 2) by lra. lra. }
    assert (M4 : Rabs (o_mul o z x - z * x) <= u + u * (3 * B)).
    { eapply Rle_trans; [exact R1|]. assert (u * Rabs (z * x) <= u * (3 * B)) by (apply Rmult_le_compat_l; lra). lra. }
    assert (UB' : u * B <= (S + e / 4000000) * (t * K)).
    { unfold B. replace (u * ((S + e / 4000000) * K)) with ((S + e / 4000000) * (u * K)) by ring. apply Rmult_le_compat_l; [|lra]. assert (0 <= e / 4000000) by lra. lra. }
    pose proof (abs_chain _ _ _ _ _ M4 M1) as M5. pose proof (abs_chain _ _ _ _ _ M5 M2). lra.
  - rewrite Rabs_mult, (Rabs_pos_eq 2) by lra. lra.
Qed.

(** products *)
Definition squared (e S x x' : R) : Prop := Rabs (x - x') <= e * (t * K * K) /\ Rabs x' <= S * (K * K).
Lemma sized_mul e S x x' f V y y' : 0 <= e -> 0 <= S -> 0 <= f -> 0 <= V -> sized e S x x' -> sized f V y y' ->
  squared (1 + (S + e / 4000000) * (V + f / 4000000) + e * (V + f / 4000000) + S * f) (S * V) (o_mul o x y) (x' * y').
Proof.
  intros E0 S0 F0 V0 X Y. pose proof (sized_abs _ _ _ _ E0 X) as AX. pose proof (sized_abs _ _ _ _ F0 Y) as AY.
  destruct X as [X1 X2], Y as [Y1 Y2]. destruct tKK as (P0 & P1 & P2 & P3 & P4 & _). destruct tK as (Q0 & _ & _).
  set (S' := S + e / 4000000) in *. set (V' := V + f / 4000000) in *.
  assert (S0' : 0 <= S') by (unfold S'; lra). assert (V0' : 0 <= V') by (unfold V'; lra). split.
  - pose proof (acc_mul o u Hacc x y) as R1. unfold rounds in R1.
    assert (M1 : Rabs (x * y) <= S' * V' * (K * K)).
    { rewrite Rabs_mult. replace (S' * V' * (K * K)) with ((S' * K) * (V' * K)) by ring. apply Rmult_le_compat; auto using Rabs_pos. }
    assert (M2 : Rabs (o_mul o x y - x * y) <= t * K * K + S' * V' * (t * K * K)).
    { eapply Rle_trans; [exact R1|]. assert (u * Rabs (x * y) <= u * (S' * V' * (K * K))) by (apply Rmult_le_compat_l; lra).
      assert (S' * V' * (u * K * K) <= S' * V' * (t * K * K)) by (apply Rmult_le_compat_l; [apply Rmult_le_pos; lra|lra]). lra. }
    assert (M3 : Rabs ((x - x') * y) <= e * V' * (t * K * K)).
    { rewrite Rabs_mult. replace (e * V' * (t * K * K)) with ((e * (t * K)) * (V' * K)) by ring. apply Rmult_le_compat; auto using Rabs_pos. }
    assert (M4 : Rabs (x' * (y - y')) <= S * f * (t * K * K)).
    { rewrite Rabs_mult. replace (S * f * (t * K * K)) with ((S * K) * (f * (t * K))) by ring. apply Rmult_le_compat; auto using Rabs_pos. }
    assert (M5 : Rabs (x * y - x' * y') <= e * V' * (t * K * K) + S * f * (t * K * K)).
    { replace (x * y - x' * y') with ((x - x') * y + x' * (y - y')) by ring. eapply Rle_trans; [apply Rabs_triang|]. lra. }
    pose proof (abs_chain _ _ _ _ _ M2 M5). lra.
  - rewrite Rabs_mult. replace (S * V * (K * K)) with ((S * K) * (V * K)) by ring. apply Rmult_le_compat; auto using Rabs_pos.
Qed.
Lemma squared_add e S x x' f V y y' : 0 <= e -> 0 <= S -> 0 <= f -> 0 <= V -> squared e S x x' -> squared f V y y' ->
  squared (1 + e + f + (S + V + (e + f) / 4000000)) (S + V) (o_add o x y) (x' + y').
Proof.
  intros E0 S0 F0 V0 [X1 X2] [Y1 Y2]. destruct tKK as (P0 & P1 & P2 & P3 & P4 & P5).
  assert (KK : t * K * K <= K * K / 4000000). { replace (K * K / 4000000) with (K / 4000000 * K) by field. apply Rmult_le_compat_r; lra. }
  assert (A1 : Rabs (x' + y') <= (S + V) * (K * K)) by (eapply Rle_trans; [apply Rabs_triang|]; lra).
  assert (A2 : Rabs ((x + y) - (x' + y')) <= (e + f) * (t * K * K)).
  { replace ((x + y) - (x' + y')) with ((x - x') + (y - y')) by ring. eapply Rle_trans; [apply Rabs_triang|]. lra. }
  split; [|exact A1]. set (B := (S + V + (e + f) / 4000000)).
  assert (B0 : 0 <= B) by (unfold B; assert (0 <= (e + f) / 4000000) by lra; lra).
  assert (A3 : Rabs (x + y) <= B * (K * K)).
  { eapply Rle_trans; [exact (abs_of _ _ _ _ A2 A1)|]. assert ((e + f) * (t * K * K) <= (e + f) * (K * K / 4000000)) by (apply Rmult_le_compat_l; lra). unfold B. lra. }
  pose proof (acc_add o u Hacc x y) as R1. unfold rounds in R1.
  assert (A4 : Rabs (o_add o x y - (x + y)) <= t * K * K + B * (t * K * K)).
  { eapply Rle_trans; [exact R1|]. assert (u * Rabs (x + y) <= u * (B * (K * K))) by (apply Rmult_le_compat_l; lra).
    assert (B * (u * K * K) <= B * (t * K * K)) by (apply Rmult_le_compat_l; lra). lra. }
  pose proof (abs_chain _ _ _ _ _ A4 A2). lra.
Qed.
Lemma squared_mono e S x x' e' S' : e <= e' -> S <= S' -> squared e S x x' -> squared e' S' x x'.
Proof.
  intros H1 H2 [H3 H4]. destruct tKK as (P0 & _). assert (0 <= K * K) by (apply Rmult_le_pos; lra). split.
  - eapply Rle_trans; [exact H3|]. apply Rmult_le_compat_r; lra.
  - eapply Rle_trans; [exact H4|]. apply Rmult_le_compat_r; lra.
Qed.
Lemma sized_mono e S x x' e' S' : e <= e' -> S <= S' -> sized e S x x' -> sized e' S' x x'.
Proof.
  intros H1 H2 [H3 H4]. destruct tK as (P0 & _). split.
  - eapply Rle_trans; [exact H3|]. apply Rmult_le_compat_r; lra.
  - eapply Rle_trans; [exact H4|]. apply Rmult_le_compat_r; lra.
Qed.

(** the three coordinates of a near vector *)
Definition sized_v (e S : R) (v : @Vector3 (FA o)) (v' : @Vector3 RA) : Prop :=
  sized e S (vx v) (vx v') /\ sized e S (vy v) (vy v') /\ sized e S (vz v) (vz v').

Lemma diff_both v w v' w' : sized_v 4000000 2 v v' -> sized_v 4000000 2 w w' ->
  sized_v 8000010 4 (@v_sub (FA o) v w) (@v_sub RA v' w').
Proof.
  intros (A1 & A2 & A3) (B1 & B2 & B3).
  assert (H : forall x x' y y', sized 4000000 2 x x' -> sized 4000000 2 y y' -> sized 8000010 4 (o_sub o x y) (x' - y')).
  { intros x x' y y' X Y. eapply sized_mono; [| |apply (sized_sub 4000000 2 _ _ _ _ ltac:(lra) ltac:(lra) X Y)]; lra. }
  split; [|split]; apply H; assumption.
Qed.

Lemma sqnorm_both v v' : sized_v 8000010 4 v v' -> Rabs (@sq_norm (FA o) v - @sq_norm RA v') <= 300000000 * (t * K * K).
Proof.
  intros (A1 & A2 & A3). unfold sq_norm.
  assert (H : forall x x', sized 8000010 4 x x' -> squared 90000000 16 (o_mul o x x) (x' * x')).
  { intros x x' X. eapply squared_mono; [| |apply (sized_mul 8000010 4 _ _ 8000010 4 _ _ ltac:(lra) ltac:(lra) ltac:(lra) ltac:(lra) X X)]; lra. }
  pose proof (squared_add 90000000 16 _ _ 90000000 16 _ _ ltac:(lra) ltac:(lra) ltac:(lra) ltac:(lra) (H _ _ A1) (H _ _ A2)) as S1.
  eapply (squared_mono _ _ _ _ 190000000 32) in S1; [|lra|lra].
  pose proof (squared_add 190000000 32 _ _ 90000000 16 _ _ ltac:(lra) ltac:(lra) ltac:(lra) ltac:(lra) S1 (H _ _ A3)) as S2.
  eapply (squared_mono _ _ _ _ 300000000 100) in S2; [|lra|lra]. destruct S2 as [S2 _]. exact S2.
Qed.

(** one entry of a gradient: three of each Jacobian *)
Lemma grad_both (a b d : nat -> R) (a' b' d' : nat -> R) :
  (forall r, (r < 3)%nat -> sized 40000000 4 (a r) (a' r)) -> (forall r, (r < 3)%nat -> sized 40000000 4 (b r) (b' r)) ->
  (forall r, (r < 3)%nat -> sized 8000010 4 (d r) (d' r)) ->
  Rabs (o_add o (o_add o (o_mul o (o_mul o (@n2 (FA o)) (o_sub o (a 0%nat) (b 0%nat))) (d 0%nat))
                         (o_mul o (o_mul o (@n2 (FA o)) (o_sub o (a 1%nat) (b 1%nat))) (d 1%nat)))
                (o_mul o (o_mul o (@n2 (FA o)) (o_sub o (a 2%nat) (b 2%nat))) (d 2%nat)) -
        (2 * (a' 0%nat - b' 0%nat) * d' 0%nat + 2 * (a' 1%nat - b' 1%nat) * d' 1%nat + 2 * (a' 2%nat - b' 2%nat) * d' 2%nat))
  <= 4000000000 * (t * K * K).
Proof.
  intros Ha Hb Hd.
  assert (H : forall r, (r < 3)%nat -> squared 1200000000 64 (o_mul o (o_mul o (@n2 (FA o)) (o_sub o (a r) (b r))) (d r)) (2 * (a' r - b' r) * d' r)).
  { intros r Lr. pose proof (sized_sub 40000000 4 _ _ _ _ ltac:(lra) ltac:(lra) (Ha r Lr) (Hb r Lr)) as S1.
    eapply (sized_mono _ _ _ _ 80000100 8) in S1; [|lra|lra].
    pose proof (sized_twice 80000100 8 _ _ ltac:(lra) ltac:(lra) S1) as S2. eapply (sized_mono _ _ _ _ 160001000 16) in S2; [|lra|lra].
    eapply squared_mono; [| |apply (sized_mul 160001000 16 _ _ 8000010 4 _ _ ltac:(lra) ltac:(lra) ltac:(lra) ltac:(lra) S2 (Hd r Lr))]; lra. }
  pose proof (squared_add 1200000000 64 _ _ 1200000000 64 _ _ ltac:(lra) ltac:(lra) ltac:(lra) ltac:(lra) (H 0%nat ltac:(lia)) (H 1%nat ltac:(lia))) as S1.
  eapply (squared_mono _ _ _ _ 2400001000 128) in S1; [|lra|lra].
  pose proof (squared_add 2400001000 128 _ _ 1200000000 64 _ _ ltac:(lra) ltac:(lra) ltac:(lra) ltac:(lra) S1 (H 2%nat ltac:(lia))) as S2.
  eapply (squared_mono _ _ _ _ 4000000000 1000) in S2; [|lra|lra]. destruct S2 as [S2 _]. exact S2.
Qed.
End Dist.
