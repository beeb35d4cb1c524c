(** Rounded sums and weighted means; for C84. *)
From Coq Require Import QArith Qreals String List Arith Lia Bool Permutation Reals Lra.
From Verif Require Import Base Num Pose DataStructure Urdf Kin Wrapper Decimal RealArith FloatArith
  Spec_Robot Spec_Hist Spec_Load Spec_Jac Spec_Mass Spec_Rot Spec_Body Spec_Deriv Spec_Float
  Pf_Data Inv Pf_FK Rep Pf_Ops Pf_Jac Pf_Pose Pf_Reach Pf_Wrap Pf_Mass Pf_Real Pf_Body Pf_Float1 Pf_Float2 Pf_Float3 Pf_Float4 Pf_Float5 Pf_Float6.
Import ListNotations.
Local Open Scope R_scope.

Section Sums.
Variable o : Ops.
Variable u : R.
Hypothesis Hacc : accurate o u.
Hypothesis Hu : 0 <= u <= / 1000.

Definition sum_l (l : list R) : R := fold_right Rplus 0 l.
Definition abs_l (l : list R) : R := fold_right (fun x a => Rabs x + a) 0 l.
Definition gap_l (l l' : list R) : R := fold_right (fun p a => Rabs (fst p - snd p) + a) 0 (combine l l').

Lemma abs_l_nonneg l : 0 <= abs_l l.
Proof. induction l as [|x l IH]; cbn; [lra|]. pose proof (Rabs_pos x). unfold abs_l in IH. lra. Qed.
Lemma gap_l_nonneg l l' : 0 <= gap_l l l'.
Proof. unfold gap_l. induction (combine l l') as [|x t IH]; cbn; [lra|]. pose proof (Rabs_pos (fst x - snd x)). lra. Qed.

(** adding up [l] from the left, with errors *)
Lemma round_sum B E : 0 <= E -> forall l l' a a', length l = length l' ->
  Rabs a' + abs_l l' <= B -> Rabs (a - a') + gap_l l l' + INR (length l) * (u * (1 + B + E)) <= E ->
  Rabs (fold_left (o_add o) l a - (a' + sum_l l')) <= Rabs (a - a') + gap_l l l' + INR (length l) * (u * (1 + B + E)).
Proof.
  intros E0. induction l as [|c l IH]; intros [|x l'] a a' Len HB HE; try discriminate Len.
  - unfold gap_l, sum_l. cbn [fold_left combine fold_right length INR]. replace (a - (a' + 0)) with (a - a') by ring. lra.
  - injection Len as Len. cbn [fold_left]. specialize (IH l' (o_add o a c) (a' + x) Len).
    pose proof (gap_l_nonneg l l') as G. pose proof (abs_l_nonneg l') as AL.
    replace (abs_l (x :: l')) with (Rabs x + abs_l l') in HB by reflexivity.
    replace (gap_l (c :: l) (x :: l')) with (Rabs (c - x) + gap_l l l') in * by reflexivity.
    replace (sum_l (x :: l')) with (x + sum_l l') by reflexivity.
    cbn [length] in *. rewrite S_INR in *.
    pose proof (pos_INR (length l)) as P. pose proof (Rabs_pos (a - a')) as P1. pose proof (Rabs_pos (c - x)) as P2.
    pose proof (Rabs_triang a' x) as T1.
    set (v := u * (1 + B + E)) in *. assert (B0 : 0 <= B) by (pose proof (Rabs_pos a'); pose proof (Rabs_pos x); lra).
    assert (V0 : 0 <= v) by (unfold v; apply Rmult_le_pos; lra).
    assert (V1 : 0 <= INR (length l) * v) by (apply Rmult_le_pos; lra).
    assert (D : Rabs ((a + c) - (a' + x)) <= Rabs (a - a') + Rabs (c - x)).
    { replace ((a + c) - (a' + x)) with ((a - a') + (c - x)) by ring. apply Rabs_triang. }
    assert (M : Rabs (a + c) <= B + E).
    { replace (a + c) with ((a' + x) + ((a + c) - (a' + x))) by ring. eapply Rle_trans; [apply Rabs_triang|]. lra. }
    pose proof (acc_add _ _ Hacc a c) as HR. unfold rounds in HR.
    assert (R1 : Rabs (o_add o a c - (a + c)) <= v).
    { eapply Rle_trans; [exact HR|]. unfold v. apply Rmult_le_compat_l; lra. }
    assert (R2 : Rabs (o_add o a c - (a' + x)) <= Rabs (a - a') + Rabs (c - x) + v).
    { replace (o_add o a c - (a' + x)) with ((o_add o a c - (a + c)) + ((a + c) - (a' + x))) by ring. eapply Rle_trans; [apply Rabs_triang|]. lra. }
    replace (a' + (x + sum_l l')) with (a' + x + sum_l l') by ring.
    eapply Rle_trans; [apply IH|]; lra.
Qed.
(** from zero *)
Lemma round_sum0 l l' : length l = length l' -> INR (length l) * u <= / 2 ->
  Rabs (fold_left (o_add o) l 0 - sum_l l') <= 2 * (gap_l l l' + INR (length l) * (u * (1 + abs_l l'))).
Proof.
  intros Len H. set (B := abs_l l'). set (E := 2 * (gap_l l l' + INR (length l) * (u * (1 + B)))).
  pose proof (gap_l_nonneg l l') as G. pose proof (abs_l_nonneg l') as AL. fold B in AL. pose proof (pos_INR (length l)) as P.
  assert (V : 0 <= INR (length l) * (u * (1 + B))) by (apply Rmult_le_pos; [lra|]; apply Rmult_le_pos; lra).
  assert (E0 : 0 <= E) by (unfold E; lra).
  assert (K : INR (length l) * (u * (1 + B + E)) <= INR (length l) * (u * (1 + B)) + E / 2).
  { replace (INR (length l) * (u * (1 + B + E))) with (INR (length l) * (u * (1 + B)) + (INR (length l) * u) * E) by ring.
    assert ((INR (length l) * u) * E <= / 2 * E) by (apply Rmult_le_compat_r; lra). lra. }
  pose proof (round_sum B E E0 l l' 0 0 Len) as S. rewrite Rminus_0_r, Rabs_R0, !Rplus_0_l in S.
  assert (X : gap_l l l' + INR (length l) * (u * (1 + B + E)) <= E) by (unfold E in *; lra).
  eapply Rle_trans; [apply S; [apply Rle_refl | exact X]|exact X].
Qed.

(** ** Weighted means *)
Definition moments (l : list (R * R)) : list R := map (fun p => fst p * snd p) l.
Definition fmoments (l : list (R * R)) : list R := map (fun p => o_mul o (fst p) (snd p)) l.
(** a computed weight and value stand for exact ones *)
Definition term_near (X d : R) (p p' : R * R) : Prop :=
  rounds u (fst p') (fst p) /\ 0 <= fst p' /\ Rabs (snd p') <= X /\ Rabs (snd p - snd p') <= d.

Lemma masses_near X d l l' : Forall2 (term_near X d) l l' ->
  gap_l (map fst l) (map fst l') <= u * (INR (length l) + sum_l (map fst l')) /\ abs_l (map fst l') = sum_l (map fst l') /\ 0 <= sum_l (map fst l').
Proof.
  induction 1 as [|[m x] [m' x'] l l' (H1 & H2 & _) F (I1 & I2 & I3)].
  - unfold gap_l, abs_l, sum_l. cbn. repeat split; lra.
  - cbn [map length fst snd] in *. rewrite S_INR.
    replace (gap_l (m :: map fst l) (m' :: map fst l')) with (Rabs (m - m') + gap_l (map fst l) (map fst l')) by reflexivity.
    replace (abs_l (m' :: map fst l')) with (Rabs m' + abs_l (map fst l')) by reflexivity.
    replace (sum_l (m' :: map fst l')) with (m' + sum_l (map fst l')) by reflexivity.
    unfold rounds in H1. rewrite (Rabs_right m') in * by lra. repeat split; try lra.
Qed.
Lemma moments_near X d l l' : 1 <= X -> 0 <= d <= X -> Forall2 (term_near X d) l l' ->
  gap_l (fmoments l) (moments l') <= sum_l (map fst l') * d + 7 * u * X * (INR (length l) + sum_l (map fst l')) /\
  abs_l (moments l') <= X * sum_l (map fst l').
Proof.
  intros X1 D F. induction F as [|[m x] [m' x'] l l' (H1 & H2 & H3 & H4) F (I1 & I2)].
  - unfold gap_l, abs_l, moments, fmoments, sum_l. cbn. split; lra.
  - unfold moments, fmoments in *. cbn [map length fst snd] in *. rewrite S_INR.
    set (G := gap_l _ _) in I1. set (AA := abs_l _) in I2. set (Ml := sum_l (map fst l')) in *.
    replace (sum_l (m' :: map fst l')) with (m' + Ml) by reflexivity.
    change (gap_l (?a :: ?b) (?c :: ?d)) with (Rabs (a - c) + gap_l b d). fold G.
    change (abs_l (?a :: ?b)) with (Rabs a + abs_l b). fold AA.
    unfold rounds in H1. rewrite (Rabs_right m') in H1 by lra.
    assert (Hx : Rabs x <= 2 * X).
    { replace x with (x' + (x - x')) by ring. eapply Rle_trans; [apply Rabs_triang|]. lra. }
    assert (Um : 0 <= u * m') by (apply Rmult_le_pos; lra).
    assert (Hm : Rabs m <= 2 * (1 + m')).
    { replace m with (m' + (m - m')) by ring. eapply Rle_trans; [apply Rabs_triang|]. rewrite (Rabs_right m') by lra.
      assert (u * (1 + m') <= 1 * (1 + m')) by (apply Rmult_le_compat_r; lra). lra. }
    assert (D1 : Rabs (m * x - m' * x') <= u * (1 + m') * (2 * X) + m' * d).
    { replace (m * x - m' * x') with ((m - m') * x + m' * (x - x')) by ring. eapply Rle_trans; [apply Rabs_triang|]. rewrite !Rabs_mult, (Rabs_right m') by lra.
      apply Rplus_le_compat; apply Rmult_le_compat; try apply Rabs_pos; try lra. }
    assert (P1 : Rabs (m * x) <= 4 * X * (1 + m')).
    { rewrite Rabs_mult. replace (4 * X * (1 + m')) with (2 * (1 + m') * (2 * X)) by ring. apply Rmult_le_compat; try apply Rabs_pos; lra. }
    pose proof (acc_mul _ _ Hacc m x) as R1. unfold rounds in R1.
    assert (R2 : Rabs (o_mul o m x - m * x) <= u * (1 + 4 * X * (1 + m'))).
    { eapply Rle_trans; [exact R1|]. apply Rmult_le_compat_l; lra. }
    assert (R3 : Rabs (o_mul o m x - m' * x') <= u * (1 + 4 * X * (1 + m')) + (u * (1 + m') * (2 * X) + m' * d)).
    { replace (o_mul o m x - m' * x') with ((o_mul o m x - m * x) + (m * x - m' * x')) by ring. eapply Rle_trans; [apply Rabs_triang|]. lra. }
    assert (UX : u <= u * X) by (rewrite <- (Rmult_1_r u) at 1; apply Rmult_le_compat_l; lra).
    assert (UXm : 0 <= u * X * m') by (apply Rmult_le_pos; [lra|exact H2]).
    assert (Ax : Rabs (m' * x') <= X * m'). { rewrite Rabs_mult, (Rabs_right m'), Rmult_comm by lra. apply Rmult_le_compat_r; lra. }
    split; [|lra]. lra.
Qed.

Lemma sum_moments_le X d l l' : Forall2 (term_near X d) l l' -> Rabs (sum_l (moments l')) <= X * sum_l (map fst l').
Proof.
  induction 1 as [|[m x] [m' x'] l l' (H1 & H2 & H3 & H4) F I1].
  - cbn. rewrite Rabs_R0. lra.
  - cbn [map moments fst snd] in *. unfold moments in *. cbn [map fst snd]. unfold sum_l in *. cbn [fold_right].
    eapply Rle_trans; [apply Rabs_triang|]. rewrite Rabs_mult, (Rabs_right m') by lra.
    assert (m' * Rabs x' <= m' * X) by (apply Rmult_le_compat_l; lra). lra.
Qed.

(** the mean of values at most [X], each off by at most [d] *)
Lemma round_mean X d l l' : 1 <= X -> 0 <= d <= X -> Forall2 (term_near X d) l l' -> 0 < sum_l (map fst l') ->
  1000 * u * INR (length l) * (1 + / sum_l (map fst l')) <= 1 ->
  Rabs (o_div o (fold_left (o_add o) (fmoments l) 0) (fold_left (o_add o) (map fst l) 0) - sum_l (moments l') / sum_l (map fst l')) <=
    5 * d + 100 * u * X * INR (length l) * (1 + / sum_l (map fst l')).
Proof.
  intros X1 D F M0 HN. pose proof (Forall2_len _ _ _ F) as Len.
  destruct (masses_near X d l l' F) as (G1 & A1 & _). destruct (moments_near X d l l' X1 D F) as (G2 & A2). pose proof (sum_moments_le X d l l' F) as A3.
  set (Mt := sum_l (map fst l')) in *. set (N := INR (length l)) in *.
  assert (N1 : 1 <= N).
  { destruct F as [|p p' l l' _ F]; [cbn in M0; unfold Mt in M0; cbn in M0; lra|]. unfold N. cbn [length]. rewrite S_INR. pose proof (pos_INR (length l)). lra. }
  assert (iM : 0 < / Mt) by now apply Rinv_0_lt_compat. set (iv := / Mt) in *. assert (Miv : Mt * iv = 1) by (unfold iv; apply Rinv_r; lra).
  assert (uN : 0 <= u * N) by (apply Rmult_le_pos; lra). assert (uNi : 0 <= u * N * iv) by (apply Rmult_le_pos; lra).
  set (z := u * N * (1 + iv)). assert (Z : z <= / 1000) by (unfold z; lra). assert (Z0 : u <= z).
  { unfold z. assert (u <= u * N) by (rewrite <- (Rmult_1_r u) at 1; apply Rmult_le_compat_l; lra). lra. }
  assert (zM : u * N * (1 + Mt) = z * Mt). { unfold z. transitivity (u * N * Mt + u * N * (Mt * iv)); [rewrite Miv; ring|ring]. }
  assert (NM : N + Mt <= N * (1 + Mt)). { assert (1 * Mt <= N * Mt) by (apply Rmult_le_compat_r; lra). lra. }
  assert (uNM : u * (N + Mt) <= z * Mt). { rewrite <- zM, Rmult_assoc. apply Rmult_le_compat_l; lra. }
  assert (HNu : N * u <= / 2) by lra.
  pose proof (round_sum0 (map fst l) (map fst l')) as S1. rewrite !map_length in S1. specialize (S1 Len HNu). rewrite A1 in S1.
  pose proof (round_sum0 (fmoments l) (moments l')) as S2. unfold fmoments, moments in S2. rewrite !map_length in S2. specialize (S2 Len HNu).
  fold (fmoments l) (moments l') in S2. fold Mt N in S1, S2.
  set (m := fold_left (o_add o) (map fst l) 0) in *. set (s := fold_left (o_add o) (fmoments l) 0) in *. set (s' := sum_l (moments l')) in *.
  assert (E1 : Rabs (m - Mt) <= 4 * (z * Mt)).
  { eapply Rle_trans; [exact S1|]. replace (N * (u * (1 + Mt))) with (u * N * (1 + Mt)) by ring. rewrite zM. lra. }
  assert (zX : 0 <= z * X) by (apply Rmult_le_pos; lra).
  assert (E2 : Rabs (s - s') <= 2 * (Mt * d) + 16 * (z * X * Mt)).
  { eapply Rle_trans; [exact S2|].
    assert (K1 : N * (u * (1 + abs_l (moments l'))) <= z * X * Mt).
    { replace (z * X * Mt) with (X * (z * Mt)) by ring. rewrite <- zM. replace (X * (u * N * (1 + Mt))) with (N * (u * (X * (1 + Mt)))) by ring.
      apply Rmult_le_compat_l; [lra|]. apply Rmult_le_compat_l; [lra|]. lra. }
    assert (K2 : 7 * u * X * (N + Mt) <= 7 * (z * X * Mt)).
    { replace (7 * u * X * (N + Mt)) with (7 * (X * (u * (N + Mt)))) by ring. replace (z * X * Mt) with (X * (z * Mt)) by ring.
      apply Rmult_le_compat_l; [lra|]. apply Rmult_le_compat_l; lra. }
    lra. }
  assert (zMt : z * Mt <= / 1000 * Mt) by (apply Rmult_le_compat_r; lra).
  assert (m0 : 9 / 10 * Mt <= m). { apply Rabs_le_inv in E1. lra. }
  assert (mp : 0 < m) by lra.
  assert (Q : Rabs (s / m - s' / Mt) <= 3 * d + 24 * (z * X)).
  { replace (s / m - s' / Mt) with (((s - s') * Mt + s' * (Mt - m)) * (/ m * iv)) by (unfold iv; field; lra).
    assert (im : / m <= 10 / 9 * iv). { replace (10 / 9 * iv) with (/ (9 / 10 * Mt)) by (unfold iv; field; lra). apply Rinv_le_contravar; lra. }
    assert (im0 : 0 < / m) by now apply Rinv_0_lt_compat.
    rewrite Rabs_mult, (Rabs_right (/ m * iv)) by (apply Rle_ge, Rmult_le_pos; lra).
    assert (Y : Rabs ((s - s') * Mt + s' * (Mt - m)) <= (2 * (Mt * d) + 16 * (z * X * Mt)) * Mt + X * Mt * (4 * (z * Mt))).
    { eapply Rle_trans; [apply Rabs_triang|]. rewrite !Rabs_mult, (Rabs_right Mt), (Rabs_minus_sym Mt) by lra.
      apply Rplus_le_compat; [apply Rmult_le_compat_r; lra|]. apply Rmult_le_compat; try apply Rabs_pos; lra. }
    replace ((2 * (Mt * d) + 16 * (z * X * Mt)) * Mt + X * Mt * (4 * (z * Mt))) with ((2 * d + 20 * (z * X)) * (Mt * Mt)) in Y by ring.
    eapply Rle_trans; [apply Rmult_le_compat_r; [apply Rmult_le_pos; lra | exact Y]|].
    assert (W : Mt * Mt * (/ m * iv) <= 10 / 9).
    { replace (Mt * Mt * (/ m * iv)) with (Mt * / m * (Mt * iv)) by ring. rewrite Miv, Rmult_1_r. replace (10 / 9) with (Mt * (10 / 9 * iv)) by (replace (Mt * (10 / 9 * iv)) with (10 / 9 * (Mt * iv)) by ring; rewrite Miv; ring).
      apply Rmult_le_compat_l; lra. }
    rewrite Rmult_assoc. eapply Rle_trans; [apply Rmult_le_compat_l; [lra | exact W]|]. lra. }
  assert (Cs : Rabs (s' / Mt) <= X).
  { unfold Rdiv. rewrite Rabs_mult, (Rabs_right (/ Mt)) by (fold iv; lra). fold iv. replace X with (X * Mt * iv) by (rewrite Rmult_assoc, Miv; ring). apply Rmult_le_compat_r; lra. }
  pose proof (acc_div _ _ Hacc s m) as R1. unfold rounds in R1. specialize (R1 ltac:(lra)).
  assert (zXl : z * X <= / 1000 * X) by (apply Rmult_le_compat_r; lra).
  assert (Sm : Rabs (s / m) <= 5 * X).
  { replace (s / m) with (s' / Mt + (s / m - s' / Mt)) by ring. eapply Rle_trans; [apply Rabs_triang|]. lra. }
  assert (R2 : Rabs (o_div o s m - s / m) <= 6 * (z * X)).
  { eapply Rle_trans; [exact R1|]. replace (6 * (z * X)) with (z * (6 * X)) by ring. apply Rmult_le_compat; try lra. pose proof (Rabs_pos (s / m)). lra. }
  replace (100 * u * X * N * (1 + iv)) with (100 * (z * X)) by (unfold z; ring).
  replace (o_div o s m - s' / Mt) with ((o_div o s m - s / m) + (s / m - s' / Mt)) by ring. eapply Rle_trans; [apply Rabs_triang|]. lra.
Qed.
End Sums.
