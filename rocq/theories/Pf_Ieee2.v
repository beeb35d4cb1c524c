(** Poses in doubles and in rounded real numbers. *)
From Coq Require Import ZArith QArith Qreals Reals Lra Lia String List Bool.
From Flocq Require Import Core BinarySingleNaN.
From Verif Require Import Base Num Pose Urdf Decimal RealArith FloatArith Ieee Spec_Robot Spec_Float Spec_Ieee Ex_Float Pf_Ieee1.
Import ListNotations.
Local Open Scope R_scope.

Section Poses.
Variable pf : Platform.
Variable u : R.
Hypothesis Hpf : platform_ok pf u.
Hypothesis Hu : double_unit <= u <= / 1000.
Notation o := (ieee pf).
Let Hu1 : double_unit <= u := proj1 Hu.

Definition simv (k : Z) (a : @Vector3 (DA pf)) (b : @Vector3 (FA o)) : Prop :=
  sim k (vx a) (vx b) /\ sim k (vy a) (vy b) /\ sim k (vz a) (vz b).
Definition simq (k : Z) (a : @Rotation (DA pf)) (b : @Rotation (FA o)) : Prop :=
  sim k (qx a) (qx b) /\ sim k (qy a) (qy b) /\ sim k (qz a) (qz b) /\ sim k (qw a) (qw b).
Record simp (k : Z) (a : @Pose (DA pf)) (b : @Pose (FA o)) : Prop := { sp_v : simv k (position a) (position b); sp_q : simq 1 (rotation a) (rotation b) }.

Lemma simv_le k l a b : (k <= l)%Z -> simv k a b -> simv l a b.
Proof. intros H (X & Y & Z). split; [|split]; eapply sim_le; eauto. Qed.
Lemma simq_le k l a b : (k <= l)%Z -> simq k a b -> simq l a b.
Proof. intros H (X & Y & Z & W). split; [|split; [|split]]; eapply sim_le; eauto. Qed.

Lemma sim_q_mul k l a b a' b' : simq k a a' -> simq l b b' -> (-1000 <= k + l <= 1000)%Z -> simq (k + l + 3) (q_mul a b) (q_mul a' b').
Proof.
  intros (A1 & A2 & A3 & A4) (B1 & B2 & B3 & B4) K. unfold q_mul.
  split; [|split; [|split]]; cbn [qx qy qz qw];
    (eapply sim_le; [|first
      [ eapply (sim_sub pf); [eapply (sim_add pf); [eapply (sim_add pf); [eapply (sim_mul pf) | eapply (sim_mul pf) |] | eapply (sim_mul pf) |] | eapply (sim_mul pf) |]; try eassumption; lia
      | eapply (sim_add pf); [eapply (sim_add pf); [eapply (sim_sub pf); [eapply (sim_mul pf) | eapply (sim_mul pf) |] | eapply (sim_mul pf) |] | eapply (sim_mul pf) |]; try eassumption; lia
      | eapply (sim_add pf); [eapply (sim_sub pf); [eapply (sim_add pf); [eapply (sim_mul pf) | eapply (sim_mul pf) |] | eapply (sim_mul pf) |] | eapply (sim_mul pf) |]; try eassumption; lia
      | eapply (sim_sub pf); [eapply (sim_sub pf); [eapply (sim_sub pf); [eapply (sim_mul pf) | eapply (sim_mul pf) |] | eapply (sim_mul pf) |] | eapply (sim_mul pf) |]; try eassumption; lia ]]; lia).
Qed.
Lemma sim_norm2 q q' : simq 1 q q' -> sim 5 (q_norm2 q) (q_norm2 q').
Proof.
  intros (A1 & A2 & A3 & A4). unfold q_norm2.
  apply (sim_le (Z.max (Z.max (Z.max (1 + 1) (1 + 1) + 1) (1 + 1) + 1) (1 + 1) + 1)); [lia|].
  apply (sim_add pf); [apply (sim_add pf); [apply (sim_add pf); [apply (sim_mul pf) | apply (sim_mul pf) |] | apply (sim_mul pf) |] | apply (sim_mul pf) |]; try assumption; lia.
Qed.
(** the inverse, provided the computed result has components of at most 2 *)
Definition small_q (q : @Rotation (FA o)) : Prop := Rabs (qx q) <= 2 /\ Rabs (qy q) <= 2 /\ Rabs (qz q) <= 2 /\ Rabs (qw q) <= 2.
Lemma clear_q : simq 0 (@q_clear (DA pf)) (@q_clear (FA o)).
Proof. pose proof (proj1 (lit0 pf u Hpf Hu1)) as Z. pose proof (proj1 (lit1 pf u Hpf)) as O. split; [|split; [|split]]; assumption. Qed.
Lemma clear_v : simv 0 (@v_clear (DA pf)) (@v_clear (FA o)).
Proof. pose proof (proj1 (lit0 pf u Hpf Hu1)) as Z. split; [|split]; assumption. Qed.
Lemma sim_GetInverse q q' : simq 1 q q' -> small_q (q_GetInverse q') -> simq 1 (q_GetInverse q) (q_GetInverse q').
Proof.
  intros Sq. pose proof (sim_norm2 q q' Sq) as N. destruct Sq as (A1 & A2 & A3 & A4). unfold q_GetInverse.
  destruct (lit0 pf u Hpf Hu1) as [Z Z0]. rewrite (sim_lt pf _ _ _ _ _ _ Z N).
  destruct (@nlt (FA o) n0 (q_norm2 q')) eqn:E; [|intros _; eapply simq_le; [|exact clear_q]; lia].
  assert (Np : q_norm2 q' <> 0).
  { rewrite Z0 in E. cbn [nlt FA] in E. unfold Rltb in E. destruct (Rlt_dec 0 (q_norm2 q')); [lra|discriminate]. }
  intros (B1 & B2 & B3 & B4). cbn [qx qy qz qw] in *.
  split; [|split; [|split]]; cbn [qx qy qz qw]; (eapply (sim_div pf); [try apply (sim_opp pf); eassumption | exact N | exact Np | lia | assumption]).
Qed.
Lemma sim_rot k q q' v v' : simq 1 q q' -> simv k v v' -> small_q (q_GetInverse q') -> (1 <= k <= 990)%Z -> simv (k + 8) (q_rot q v) (q_rot q' v').
Proof.
  intros Sq (V1 & V2 & V3) Sm K. pose proof (sim_GetInverse q q' Sq Sm) as Si. unfold q_rot.
  assert (Sv : simq k (@Q4 (DA pf) (vx v) (vy v) (vz v) n0) (@Q4 (FA o) (vx v') (vy v') (vz v') n0)).
  { split; [|split; [|split]]; cbn [qx qy qz qw]; try assumption. eapply sim_le; [|exact (proj1 (lit0 pf u Hpf Hu1))]. lia. }
  pose proof (sim_q_mul _ _ _ _ _ _ Sv Si ltac:(lia)) as S1. pose proof (sim_q_mul _ _ _ _ _ _ Sq S1 ltac:(lia)) as (S2 & S3 & S4 & _).
  split; [|split]; cbn [vx vy vz]; (eapply sim_le; [|eassumption]; lia).
Qed.
(** products of poses: the rotation of the result has to be small too *)
Lemma sim_transform k l p t p' t' : simp k p p' -> simp l t t' -> small_q (q_GetInverse (rotation p')) -> small_q (rotation (pose_transform p' t')) ->
  (1 <= l <= 990)%Z -> (0 <= k <= 1000)%Z -> simp (Z.max (l + 8) k + 1) (pose_transform p t) (pose_transform p' t').
Proof.
  intros [Pv Pq] [Tv Tq] Si (B1 & B2 & B3 & B4) K1 K2. split.
  - destruct (sim_rot l _ _ _ _ Pq Tv Si K1) as (R1 & R2 & R3). destruct Pv as (P1 & P2 & P3). unfold pose_transform. cbn [position]. unfold v_add.
    split; [|split]; cbn [vx vy vz]; (apply (sim_add pf); [assumption|assumption|lia]).
  - destruct (sim_q_mul _ _ _ _ _ _ Pq Tq ltac:(lia)) as (M1 & M2 & M3 & M4). unfold pose_transform in *. cbn [rotation] in *.
    split; [|split; [|split]]; (split; [apply M1 || apply M2 || apply M3 || apply M4|split; [apply M1 || apply M2 || apply M3 || apply M4|]]); change (bpow radix2 1) with 2; assumption.
Qed.

Lemma sq_nonneg_round x : 0 <= double_round (x * x).
Proof.
  unfold double_round. rewrite <- (round_0 radix2 (FLT_exp (-1074) 53) ZnearestE). apply round_le; [apply FLT_exp_valid; reflexivity | apply valid_rnd_N | nra].
Qed.
Lemma add_nonneg_round x y : 0 <= x -> 0 <= y -> 0 <= double_round (x + y).
Proof.
  intros. unfold double_round. rewrite <- (round_0 radix2 (FLT_exp (-1074) 53) ZnearestE). apply round_le; [apply FLT_exp_valid; reflexivity | apply valid_rnd_N | lra].
Qed.
Lemma sim_normalize k q q' : simq k q q' -> (0 <= k <= 400)%Z -> small_q (q_normalize q') -> simq 1 (q_normalize q) (q_normalize q').
Proof.
  intros (A1 & A2 & A3 & A4) K. unfold q_normalize.
  set (n := @add (DA pf) _ (@mul (DA pf) (qw q) (qw q))). set (n' := @add (FA o) _ (@mul (FA o) (qw q') (qw q'))).
  assert (N : sim (k + k + 3) n n').
  { unfold n, n'. eapply sim_le; [|apply (sim_add pf); [apply (sim_add pf); [apply (sim_add pf); [apply (sim_mul pf) | apply (sim_mul pf) |] | apply (sim_mul pf) |] | apply (sim_mul pf) |]; try eassumption; lia]. lia. }
  assert (P : 0 <= n').
  { unfold n'. cbn [add mul FA o_add o_mul ieee]. repeat apply add_nonneg_round; apply sq_nonneg_round. }
  pose proof (sim_sqrt pf _ _ _ N P ltac:(lia)) as S. destruct (lit0 pf u Hpf Hu1) as [Z Z0]. rewrite (sim_eq pf _ _ _ _ _ _ S Z).
  destruct (@neq (FA o) (nsqrt n') n0) eqn:E; [intros _; eapply simq_le; [|exact clear_q]; lia|].
  assert (Np : @nsqrt (FA o) n' <> 0).
  { rewrite Z0 in E. cbn [neq FA] in E. unfold Reqb in E. destruct (Req_EM_T (@nsqrt (FA o) n') 0); [discriminate|assumption]. }
  intros (B1 & B2 & B3 & B4). cbn [qx qy qz qw] in *.
  split; [|split; [|split]]; cbn [qx qy qz qw]; (eapply (sim_div pf); [eassumption | exact S | exact Np | lia | assumption]).
Qed.
Lemma sim_rpy r p y r' p' y' : sim 1001 r r' -> sim 1001 p p' -> sim 1001 y y' -> small_q (@setFromRPY (FA o) r' p' y') ->
  simq 1 (@setFromRPY (DA pf) r p y) (@setFromRPY (FA o) r' p' y').
Proof.
  intros R P Y. unfold setFromRPY. cbv zeta. destruct (lit2 pf u Hpf) as [T T2].
  pose proof (sim_half pf _ _ _ R ltac:(lia) _ _ _ T ltac:(rewrite T2; lra)) as R1.
  pose proof (sim_half pf _ _ _ P ltac:(lia) _ _ _ T ltac:(rewrite T2; lra)) as P1.
  pose proof (sim_half pf _ _ _ Y ltac:(lia) _ _ _ T ltac:(rewrite T2; lra)) as Y1.
  pose proof (sim_sin pf u Hpf Hu1 _ _ _ R1 (proj2 Hu)) as SR. pose proof (sim_cos pf u Hpf Hu1 _ _ _ R1 (proj2 Hu)) as CR.
  pose proof (sim_sin pf u Hpf Hu1 _ _ _ P1 (proj2 Hu)) as SP. pose proof (sim_cos pf u Hpf Hu1 _ _ _ P1 (proj2 Hu)) as CP.
  pose proof (sim_sin pf u Hpf Hu1 _ _ _ Y1 (proj2 Hu)) as SY. pose proof (sim_cos pf u Hpf Hu1 _ _ _ Y1 (proj2 Hu)) as CY.
  apply (sim_normalize 4); [|lia].
  split; [|split; [|split]]; cbn [qx qy qz qw];
    (apply (sim_le (Z.max (1 + 1 + 1) (1 + 1 + 1) + 1)); [lia|]; first [apply (sim_add pf) | apply (sim_sub pf)]; try lia; apply (sim_mul pf); try lia; try assumption; apply (sim_mul pf); try lia; assumption).
Qed.
End Poses.
