(** Error bounds for the pose operations in rounded arithmetic. *)
From Coq Require Import QArith Qreals Reals Lra Lia List Psatz.
From Verif Require Import Base Num Pose Urdf Decimal RealArith FloatArith Pf_Real.
Import ListNotations.
Local Open Scope R_scope.

Lemma Rabs_le_inv a b : Rabs a <= b -> - b <= a <= b.
Proof. intros H. pose proof (Rle_abs a). pose proof (Rle_abs (- a)) as X. rewrite Rabs_Ropp in X. lra. Qed.

(** ** Norms *)
Definition N (q : quat) : R := sqrt (qn q).
Definition q_minus (a b : quat) : quat := @Q4 RA (qx a - qx b) (qy a - qy b) (qz a - qz b) (qw a - qw b).
Definition q_plus (a b : quat) : quat := @Q4 RA (qx a + qx b) (qy a + qy b) (qz a + qz b) (qw a + qw b).

Lemma N_nonneg q : 0 <= N q. Proof. apply sqrt_pos. Qed.
Lemma N_sq q : N q * N q = qn q. Proof. apply sqrt_sqrt, qn_nonneg. Qed.
Lemma N_le q b : 0 <= b -> qn q <= b * b -> N q <= b.
Proof. intros Hb H. unfold N. rewrite <- (sqrt_square b Hb). apply sqrt_le_1_alt. exact H. Qed.
Lemma N_mul a b : N (q_mul a b) = N a * N b.
Proof. unfold N. rewrite qn_mul. apply sqrt_mult; apply qn_nonneg. Qed.
Lemma N_unit q : unit_q q -> N q = 1.
Proof. unfold unit_q, N. intros ->. apply sqrt_1. Qed.

Lemma dot_le (a1 a2 a3 a4 b1 b2 b3 b4 A B : R) : 0 <= A -> 0 <= B ->
  a1*a1+a2*a2+a3*a3+a4*a4 <= A*A -> b1*b1+b2*b2+b3*b3+b4*b4 <= B*B ->
  a1*b1+a2*b2+a3*b3+a4*b4 <= A*B.
Proof.
  intros HA HB Ha Hb.
  assert (L : (a1*b1+a2*b2+a3*b3+a4*b4)*(a1*b1+a2*b2+a3*b3+a4*b4) <= (A*B)*(A*B)).
  { apply Rle_trans with ((a1*a1+a2*a2+a3*a3+a4*a4)*(b1*b1+b2*b2+b3*b3+b4*b4)).
    - assert (E : (a1*a1+a2*a2+a3*a3+a4*a4)*(b1*b1+b2*b2+b3*b3+b4*b4) - (a1*b1+a2*b2+a3*b3+a4*b4)*(a1*b1+a2*b2+a3*b3+a4*b4)
         = (a1*b2-a2*b1)*(a1*b2-a2*b1)+(a1*b3-a3*b1)*(a1*b3-a3*b1)+(a1*b4-a4*b1)*(a1*b4-a4*b1)
         +(a2*b3-a3*b2)*(a2*b3-a3*b2)+(a2*b4-a4*b2)*(a2*b4-a4*b2)+(a3*b4-a4*b3)*(a3*b4-a4*b3)) by ring.
      pose proof (Rle_0_sqr (a1*b2-a2*b1)). pose proof (Rle_0_sqr (a1*b3-a3*b1)). pose proof (Rle_0_sqr (a1*b4-a4*b1)).
      pose proof (Rle_0_sqr (a2*b3-a3*b2)). pose proof (Rle_0_sqr (a2*b4-a4*b2)). pose proof (Rle_0_sqr (a3*b4-a4*b3)). unfold Rsqr in *. lra.
    - replace (A*B*(A*B)) with ((A*A)*(B*B)) by ring. apply Rmult_le_compat; try assumption.
      + pose proof (Rle_0_sqr a1). pose proof (Rle_0_sqr a2). pose proof (Rle_0_sqr a3). pose proof (Rle_0_sqr a4). unfold Rsqr in *. lra.
      + pose proof (Rle_0_sqr b1). pose proof (Rle_0_sqr b2). pose proof (Rle_0_sqr b3). pose proof (Rle_0_sqr b4). unfold Rsqr in *. lra. }
  apply Rsqr_incr_0_var; [exact L|]. now apply Rmult_le_pos.
Qed.

Lemma N_triangle a b : N (q_plus a b) <= N a + N b.
Proof.
  pose proof (N_nonneg a). pose proof (N_nonneg b). apply N_le; [lra|].
  assert (D : qw a * qw b + qx a * qx b + qy a * qy b + qz a * qz b <= N a * N b).
  { apply dot_le; auto; rewrite N_sq; apply Rle_refl. }
  replace ((N a + N b) * (N a + N b)) with (N a * N a + N b * N b + 2 * (N a * N b)) by ring. rewrite !N_sq.
  replace (qn (q_plus a b)) with (qn a + qn b + 2 * (qw a * qw b + qx a * qx b + qy a * qy b + qz a * qz b)) by (unfold qn, q_plus; cbn [qx qy qz qw]; rnum; ring).
  lra.
Qed.

(** the distance *)
Definition dist (a b : quat) : R := N (q_minus a b).
Lemma dist_nonneg a b : 0 <= dist a b. Proof. apply N_nonneg. Qed.
Lemma dist_sym a b : dist a b = dist b a.
Proof. unfold dist, N. f_equal. unfold qn, q_minus. cbn [qx qy qz qw]. rnum. ring. Qed.
Lemma dist_triangle b a c : dist a c <= dist a b + dist b c.
Proof.
  unfold dist. replace (q_minus a c) with (q_plus (q_minus a b) (q_minus b c)); [apply N_triangle|].
  unfold q_plus, q_minus. apply q_eq; cbn [qx qy qz qw]; rnum; ring.
Qed.
Lemma N_dist a b : N a <= N b + dist a b.
Proof.
  unfold dist. replace a with (q_plus b (q_minus a b)) at 1; [apply N_triangle|].
  unfold q_plus, q_minus. apply q_eq; cbn [qx qy qz qw]; rnum; ring.
Qed.
Lemma dist_mul a b a' b' : dist (q_mul a b) (q_mul a' b') <= dist a a' * N b + N a' * dist b b'.
Proof.
  unfold dist. rewrite <- !N_mul.
  replace (q_minus (q_mul a b) (q_mul a' b')) with (q_plus (q_mul (q_minus a a') b) (q_mul a' (q_minus b b'))); [apply N_triangle|].
  unfold q_plus, q_minus, q_mul. apply q_eq; cbn [qx qy qz qw]; rnum; ring.
Qed.
Lemma comp_N q : Rabs (qx q) <= N q /\ Rabs (qy q) <= N q /\ Rabs (qz q) <= N q /\ Rabs (qw q) <= N q.
Proof.
  assert (H : forall x, x * x <= qn q -> Rabs x <= N q).
  { intros x Hx. unfold N. rewrite <- sqrt_Rsqr_abs. apply sqrt_le_1_alt. exact Hx. }
  repeat split; apply H; unfold qn;
  pose proof (Rle_0_sqr (qx q)); pose proof (Rle_0_sqr (qy q)); pose proof (Rle_0_sqr (qz q)); pose proof (Rle_0_sqr (qw q)); unfold Rsqr in *; lra.
Qed.
Lemma abs_sq x k : Rabs x <= k -> x * x <= k * k.
Proof. intros H. rewrite <- (Rabs_pos_eq (x * x)), Rabs_mult by apply Rle_0_sqr. apply Rmult_le_compat; auto using Rabs_pos. Qed.
Lemma N_comp q k : Rabs (qx q) <= k -> Rabs (qy q) <= k -> Rabs (qz q) <= k -> Rabs (qw q) <= k -> N q <= 2 * k.
Proof.
  intros X Y Z W. pose proof (Rabs_pos (qx q)). apply N_le; [lra|].
  pose proof (abs_sq _ _ X). pose proof (abs_sq _ _ Y). pose proof (abs_sq _ _ Z). pose proof (abs_sq _ _ W). unfold qn. lra.
Qed.
Lemma N_mono a b : Rabs (qx a) <= qx b -> Rabs (qy a) <= qy b -> Rabs (qz a) <= qz b -> Rabs (qw a) <= qw b -> N a <= N b.
Proof.
  intros X Y Z W. unfold N. apply sqrt_le_1_alt. apply abs_sq in X. apply abs_sq in Y. apply abs_sq in Z. apply abs_sq in W. unfold qn. lra.
Qed.
Lemma N_comp2 d x a b : 0 <= a -> 0 <= b -> Rabs (qx d) <= a * Rabs (qx x) + b -> Rabs (qy d) <= a * Rabs (qy x) + b ->
  Rabs (qz d) <= a * Rabs (qz x) + b -> Rabs (qw d) <= a * Rabs (qw x) + b -> N d <= a * N x + 2 * b.
Proof.
  intros Ha Hb X Y Z W.
  set (s := @Q4 RA (a * Rabs (qx x))%R (a * Rabs (qy x))%R (a * Rabs (qz x))%R (a * Rabs (qw x))%R).
  apply Rle_trans with (N (q_plus s (@Q4 RA b b b b))); [apply N_mono; assumption|].
  eapply Rle_trans; [apply N_triangle|]. apply Rplus_le_compat.
  - apply N_le; [apply Rmult_le_pos; auto using N_nonneg|]. replace (a * N x * (a * N x)) with (a * a * (N x * N x)) by ring. rewrite N_sq.
    unfold qn, s. cbn [qx qy qz qw]. rnum. apply Req_le.
    assert (S : forall y, Rabs y * Rabs y = y * y) by (intros y; rewrite <- Rabs_mult; apply Rabs_pos_eq, Rle_0_sqr).
    replace (a * Rabs (qw x) * (a * Rabs (qw x)) + a * Rabs (qx x) * (a * Rabs (qx x)) + a * Rabs (qy x) * (a * Rabs (qy x)) + a * Rabs (qz x) * (a * Rabs (qz x)))
      with (a * a * (Rabs (qw x) * Rabs (qw x) + Rabs (qx x) * Rabs (qx x) + Rabs (qy x) * Rabs (qy x) + Rabs (qz x) * Rabs (qz x))) by ring.
    rewrite !S. ring.
  - apply N_comp; cbn [qx qy qz qw]; rewrite Rabs_pos_eq; lra.
Qed.
Lemma sum_abs_le q p : Rabs (qw q * qx p) + Rabs (qx q * qw p) + Rabs (qy q * qz p) + Rabs (qz q * qy p) <= N q * N p.
Proof.
  rewrite !Rabs_mult. apply dot_le; auto using N_nonneg; rewrite N_sq; unfold qn;
  rewrite <- !Rabs_mult, !Rabs_pos_eq by apply Rle_0_sqr; lra.
Qed.

(** ** Rounding *)
Section Rounded.
Variable o : Ops.
Variable u : R.
Hypothesis Hacc : accurate o u.
Hypothesis Hu : 0 <= u <= / 1000.

(** [x'] is [x] up to k units, where magnitudes are at most B *)
Definition near (k B x' x : R) : Prop := Rabs (x' - x) <= k * u * (1 + B).

Lemma near_abs k B x' x : near k B x' x -> Rabs x' <= Rabs x + k * u * (1 + B).
Proof. unfold near. intros H. replace x' with (x + (x' - x)) at 1 by ring. eapply Rle_trans; [apply Rabs_triang|]. lra. Qed.

Lemma near_round B x y : 0 <= B -> Rabs x <= B -> rounds u x y -> near 1 B y x.
Proof. unfold near, rounds. intros HB H D. eapply Rle_trans; [exact D|]. rewrite Rmult_1_l. apply Rmult_le_compat_l; lra. Qed.

Lemma near_then (z k B x' x : R) : 0 <= B -> 0 <= k <= 100 -> Rabs x <= B -> near k B x' x -> rounds u x' z -> near (k + 2) B z x.
Proof.
  unfold near, rounds. intros HB Hk Hx Hn Hr.
  assert (A : Rabs x' <= B + k * u * (1 + B)) by (pose proof (near_abs k B x' x Hn); lra).
  assert (K : k * u <= 1 / 10) by (apply Rle_trans with (100 * / 1000); [apply Rmult_le_compat; lra|lra]).
  assert (K2 : k * u * (1 + B) <= 1 / 10 * (1 + B)) by (apply Rmult_le_compat_r; lra).
  replace (z - x) with ((z - x') + (x' - x)) by ring. eapply Rle_trans; [apply Rabs_triang|].
  assert (Rabs (z - x') <= u * (2 * (1 + B))).
  { eapply Rle_trans; [exact Hr|]. apply Rmult_le_compat_l; lra. }
  lra.
Qed.

Lemma near_add k l B x' x y' y : 0 <= B -> 0 <= k -> 0 <= l -> k + l <= 100 -> Rabs (x + y) <= B ->
  near k B x' x -> near l B y' y -> near (k + l + 2) B (o_add o x' y') (x + y).
Proof.
  intros HB Hk Hl Hkl Hs Hx Hy. apply near_then with (x' + y'); try assumption; [lra| |apply (acc_add _ _ Hacc)].
  unfold near in *. replace (x' + y' - (x + y)) with ((x' - x) + (y' - y)) by ring. eapply Rle_trans; [apply Rabs_triang|]. lra.
Qed.
Lemma near_sub k l B x' x y' y : 0 <= B -> 0 <= k -> 0 <= l -> k + l <= 100 -> Rabs (x - y) <= B ->
  near k B x' x -> near l B y' y -> near (k + l + 2) B (o_sub o x' y') (x - y).
Proof.
  intros HB Hk Hl Hkl Hs Hx Hy. apply near_then with (x' - y'); try assumption; [lra| |apply (acc_sub _ _ Hacc)].
  unfold near in *. replace (x' - y' - (x - y)) with ((x' - x) + - (y' - y)) by ring. eapply Rle_trans; [apply Rabs_triang|]. rewrite Rabs_Ropp. lra.
Qed.
Lemma near_prod B a b : Rabs (a * b) <= B -> near 1 B (o_mul o a b) (a * b).
Proof. intros H. apply near_round; [|exact H|apply (acc_mul _ _ Hacc)]. pose proof (Rabs_pos (a * b)). lra. Qed.

(** the same quaternion with exact components *)
Definition qR (q : @Rotation (FA o)) : quat := @Q4 RA (qx q) (qy q) (qz q) (qw q).
Definition vR (v : @Vector3 (FA o)) : vec := @V3 RA (vx v) (vy v) (vz v).
Definition pR (p : @Pose (FA o)) : pose := @mkPose RA (vR (position p)) (qR (rotation p)).

(** ((a + b) + c) - d and its variants *)
Lemma four_terms B p1 p2 p3 p4 p1' p2' p3' p4' (s1 s2 s3 : bool) :
  Rabs p1 + Rabs p2 + Rabs p3 + Rabs p4 <= B ->
  near 1 B p1' p1 -> near 1 B p2' p2 -> near 1 B p3' p3 -> near 1 B p4' p4 ->
  near 10 B ((if s3 then o_add o else o_sub o) ((if s2 then o_add o else o_sub o) ((if s1 then o_add o else o_sub o) p1' p2') p3') p4')
       ((if s3 then Rplus else Rminus) ((if s2 then Rplus else Rminus) ((if s1 then Rplus else Rminus) p1 p2) p3) p4).
Proof.
  intros S H1 H2 H3 H4.
  pose proof (Rabs_pos p1). pose proof (Rabs_pos p2). pose proof (Rabs_pos p3). pose proof (Rabs_pos p4).
  assert (A : forall (s : bool) x y, Rabs ((if s then Rplus else Rminus) x y) <= Rabs x + Rabs y).
  { intros [] x y; [apply Rabs_triang|]. unfold Rminus. eapply Rle_trans; [apply Rabs_triang|]. rewrite Rabs_Ropp. lra. }
  assert (T : forall (s : bool) k l x' x y' y, 0 <= k -> 0 <= l -> k + l <= 100 -> Rabs x + Rabs y <= B -> near k B x' x -> near l B y' y ->
            near (k + l + 2) B ((if s then o_add o else o_sub o) x' y') ((if s then Rplus else Rminus) x y)).
  { intros s k l x' x y' y Hk Hl Hkl Hs Hx Hy. pose proof (A s x y). destruct s; [apply near_add|apply near_sub]; try assumption; lra. }
  pose proof (A s1 p1 p2) as A1. pose proof (A s2 ((if s1 then Rplus else Rminus) p1 p2) p3) as A2.
  replace 10 with ((1 + 1 + 2) + 1 + 2 + 1 + 2) by ring.
  apply T; try lra; [|exact H4]. apply T; try lra; [|exact H3]. apply T; try lra; [exact H1|exact H2].
Qed.

Lemma round_q_mul (a b : @Rotation (FA o)) : dist (qR (q_mul a b)) (q_mul (qR a) (qR b)) <= 20 * u * (1 + N (qR a) * N (qR b)).
Proof.
  set (B := N (qR a) * N (qR b)).
  assert (P : forall x y, Rabs (x * y) <= B -> near 1 B (o_mul o x y) (x * y)) by (intros; now apply near_prod).
  pose proof (sum_abs_le (qR a) (qR b)) as Sx. fold B in Sx.
  assert (Sy : Rabs (qw a * qy b) + Rabs (qx a * qz b) + Rabs (qy a * qw b) + Rabs (qz a * qx b) <= B).
  { rewrite !Rabs_mult. apply dot_le; auto using N_nonneg; rewrite N_sq; unfold qn, qR; cbn [qx qy qz qw];
    rewrite <- !Rabs_mult, !Rabs_pos_eq by apply Rle_0_sqr; lra. }
  assert (Sz : Rabs (qw a * qz b) + Rabs (qx a * qy b) + Rabs (qy a * qx b) + Rabs (qz a * qw b) <= B).
  { rewrite !Rabs_mult. apply dot_le; auto using N_nonneg; rewrite N_sq; unfold qn, qR; cbn [qx qy qz qw];
    rewrite <- !Rabs_mult, !Rabs_pos_eq by apply Rle_0_sqr; lra. }
  assert (Sw : Rabs (qw a * qw b) + Rabs (qx a * qx b) + Rabs (qy a * qy b) + Rabs (qz a * qz b) <= B).
  { rewrite !Rabs_mult. apply dot_le; auto using N_nonneg; rewrite N_sq; unfold qn, qR; cbn [qx qy qz qw];
    rewrite <- !Rabs_mult, !Rabs_pos_eq by apply Rle_0_sqr; lra. }
  unfold qR in Sx at 1 2 3 4 5 6 7 8. cbn [qx qy qz qw] in Sx.
  assert (F : forall p1 p2 p3 p4, Rabs (fst p1 * snd p1) + Rabs (fst p2 * snd p2) + Rabs (fst p3 * snd p3) + Rabs (fst p4 * snd p4) <= B ->
    forall s1 s2 s3 : bool,
    near 10 B ((if s3 then o_add o else o_sub o) ((if s2 then o_add o else o_sub o) ((if s1 then o_add o else o_sub o) (o_mul o (fst p1) (snd p1)) (o_mul o (fst p2) (snd p2))) (o_mul o (fst p3) (snd p3))) (o_mul o (fst p4) (snd p4)))
       ((if s3 then Rplus else Rminus) ((if s2 then Rplus else Rminus) ((if s1 then Rplus else Rminus) (fst p1 * snd p1) (fst p2 * snd p2)) (fst p3 * snd p3)) (fst p4 * snd p4))).
  { intros p1 p2 p3 p4 S s1 s2 s3.
    pose proof (Rabs_pos (fst p1 * snd p1)). pose proof (Rabs_pos (fst p2 * snd p2)). pose proof (Rabs_pos (fst p3 * snd p3)). pose proof (Rabs_pos (fst p4 * snd p4)).
    apply four_terms; [exact S|apply P; lra..]. }
  replace (20 * u * (1 + B)) with (2 * (10 * u * (1 + B))) by ring. unfold dist.
  apply N_comp; unfold q_minus, q_mul, qR; cbn [qx qy qz qw].
  - exact (F (qw a, qx b) (qx a, qw b) (qy a, qz b) (qz a, qy b) Sx true true false).
  - exact (F (qw a, qy b) (qx a, qz b) (qy a, qw b) (qz a, qx b) Sy false true true).
  - exact (F (qw a, qz b) (qx a, qy b) (qy a, qx b) (qz a, qw b) Sz true false true).
  - exact (F (qw a, qw b) (qx a, qx b) (qy a, qy b) (qz a, qz b) Sw false false false).
Qed.


(** ** The norm and the inverse *)
Lemma round_norm2 (q : @Rotation (FA o)) : Rabs (q_norm2 q - qn (qR q)) <= 10 * u * (1 + qn (qR q)).
Proof.
  set (B := qn (qR q)).
  assert (S : Rabs (qw q * qw q) + Rabs (qx q * qx q) + Rabs (qy q * qy q) + Rabs (qz q * qz q) <= B).
  { rewrite !Rabs_pos_eq by apply Rle_0_sqr. unfold B, qn, qR. cbn [qx qy qz qw]. lra. }
  pose proof (Rabs_pos (qw q * qw q)). pose proof (Rabs_pos (qx q * qx q)). pose proof (Rabs_pos (qy q * qy q)). pose proof (Rabs_pos (qz q * qz q)).
  pose proof (four_terms B (qw q * qw q) (qx q * qx q) (qy q * qy q) (qz q * qz q)
    (o_mul o (qw q) (qw q)) (o_mul o (qx q) (qx q)) (o_mul o (qy q) (qy q)) (o_mul o (qz q) (qz q)) true true true S) as F.
  apply F; apply near_prod; lra.
Qed.

Lemma qn_near q E : 0 <= E <= / 8 -> Rabs (N q - 1) <= E -> Rabs (qn q - 1) <= 3 * E.
Proof.
  intros HE H. rewrite <- N_sq. replace (N q * N q - 1) with ((N q - 1) * (N q + 1)) by ring. rewrite Rabs_mult.
  rewrite (Rmult_comm 3). apply Rmult_le_compat; auto using Rabs_pos. apply Rabs_le. apply Rabs_le_inv in H. lra.
Qed.
Lemma N_dist_abs a b : Rabs (N a - N b) <= dist a b.
Proof. apply Rabs_le. pose proof (N_dist a b). pose proof (N_dist b a). rewrite (dist_sym b a) in *. lra. Qed.

Definition qneg (q : quat) : quat := @Q4 RA (- qx q) (- qy q) (- qz q) (- qw q).
Lemma N_conj q : N (qconj q) = N q.
Proof. unfold N. f_equal. unfold qn, qconj. cbn [qx qy qz qw]. rnum. ring. Qed.
Lemma dist_conj a b : dist (qconj a) (qconj b) = dist a b.
Proof. unfold dist, N. f_equal. unfold qn, qconj, q_minus. cbn [qx qy qz qw]. rnum. ring. Qed.

(** a quaternion of length almost 1, its rounded inverse against the exact conjugate *)
Lemma round_inverse (q' : @Rotation (FA o)) (q : quat) E : 0 <= E <= / 8 -> unit_q q -> dist (qR q') q <= E ->
  dist (qR (q_GetInverse q')) (qconj q) <= 8 * E + 76 * u.
Proof.
  intros HE Q D.
  assert (N1 : Rabs (N (qR q') - 1) <= E). { rewrite <- (N_unit q Q). eapply Rle_trans; [apply N_dist_abs|exact D]. }
  pose proof (qn_near _ _ HE N1) as Q1. pose proof (round_norm2 q') as R1.
  apply Rabs_le_inv in N1. apply Rabs_le_inv in Q1.
  assert (U : 10 * u * (1 + qn (qR q')) <= 30 * u) by nra.
  set (n := q_norm2 q') in *. set (h := 3 * E + 30 * u).
  assert (Hn : Rabs (n - 1) <= h). { apply Rabs_le. apply Rabs_le_inv in R1. unfold h. lra. }
  assert (Hh : h <= / 2) by (unfold h; lra).
  assert (n2 : / 2 <= n) by (apply Rabs_le_inv in Hn; lra).
  assert (LT : @nlt (FA o) n0 n = true).
  { cbn [nlt FA]. unfold Rltb. destruct (Rlt_dec _ _) as [|G]; [reflexivity|]. exfalso. apply G.
    change (@n0 (FA o)) with (o_lit o 0). pose proof (acc_lit _ _ Hacc 0) as L0. unfold rounds in L0. rewrite Q2R_0, Rabs_R0 in L0.
    apply Rabs_le_inv in L0. lra. }
  unfold q_GetInverse. fold n. rewrite LT.
  assert (C : forall x, Rabs (o_div o x n - x) <= 2 * h * Rabs x + 4 * u \/ N (qR q') < Rabs x).
  { intros x. destruct (Rle_dec (Rabs x) (N (qR q'))) as [Hx|]; [left|right; lra].
    assert (X : Rabs x <= 9 / 8) by lra.
    replace (o_div o x n - x) with ((o_div o x n - x / n) + x * (1 - n) / n) by (field; lra).
    assert (I : 0 < / n <= 2). { split; [apply Rinv_0_lt_compat; lra|]. rewrite <- (Rinv_involutive 2) by lra. apply Rinv_le_contravar; lra. }
    assert (A1 : Rabs (x * (1 - n) / n) <= 2 * h * Rabs x).
    { unfold Rdiv. rewrite !Rabs_mult, (Rabs_pos_eq (/ n)), (Rabs_minus_sym 1 n) by lra.
      pose proof (Rabs_pos x). pose proof (Rabs_pos (n - 1)).
      apply Rle_trans with (Rabs x * h * 2); [|lra]. apply Rmult_le_compat; try lra; [apply Rmult_le_pos; lra|]. apply Rmult_le_compat; lra. }
    assert (A2 : Rabs (o_div o x n - x / n) <= 4 * u).
    { eapply Rle_trans; [apply (acc_div _ _ Hacc); lra|]. assert (Rabs (x / n) <= 9 / 4).
      { unfold Rdiv. rewrite Rabs_mult, (Rabs_pos_eq (/ n)) by lra. pose proof (Rabs_pos x). nra. } nra. }
    eapply Rle_trans; [apply Rabs_triang|]. lra. }
  assert (C' : forall x, Rabs x <= N (qR q') -> Rabs (o_div o x n - x) <= 2 * h * Rabs x + 4 * u).
  { intros x Hx. destruct (C x) as [|G]; [assumption|lra]. }
  destruct (comp_N (qR q')) as (cx & cy & cz & cw). unfold qR in cx, cy, cz, cw. cbn [qx qy qz qw] in cx, cy, cz, cw. fold (qR q') in cx, cy, cz, cw.
  eapply Rle_trans; [apply (dist_triangle (qconj (qR q')))|]. rewrite dist_conj.
  enough (dist (qR (@Q4 (FA o) (div (opp (qx q')) n) (div (opp (qy q')) n) (div (opp (qz q')) n) (div (qw q') n))) (qconj (qR q')) <= 2 * h * N (qR q') + 2 * (4 * u)).
  { assert (2 * h * N (qR q') <= 2 * h * (9 / 8)) by (apply Rmult_le_compat_l; unfold h; lra). unfold h in *. lra. }
  apply N_comp2; [unfold h; lra|lra|..]; unfold q_minus, qconj, qR; cbn [qx qy qz qw]; cbn [div opp FA].
  - rewrite <- (Rabs_Ropp (qx q')). apply C'. rewrite Rabs_Ropp. exact cx.
  - rewrite <- (Rabs_Ropp (qy q')). apply C'. rewrite Rabs_Ropp. exact cy.
  - rewrite <- (Rabs_Ropp (qz q')). apply C'. rewrite Rabs_Ropp. exact cz.
  - apply C'. exact cw.
Qed.

(** ** Rotating a vector *)
Definition dv (a b : vec) : R := dist (qv a) (qv b).
Definition nv (a : vec) : R := N (qv a).

Lemma N_qconj_unit q : unit_q q -> N (qconj q) = 1.
Proof. intros Q. rewrite N_conj. now apply N_unit. Qed.

Lemma vec_part (t : @Rotation (FA o)) (w : quat) : qw w = 0 ->
  dist (qv (@V3 RA (qx t) (qy t) (qz t))) w <= dist (qR t) w.
Proof.
  intros W. unfold dist, N. apply sqrt_le_1_alt. unfold qn, q_minus, qv, qR. cbn [qx qy qz qw vx vy vz]. rewrite W. rnum.
  pose proof (Rle_0_sqr (qw t)). unfold Rsqr in *. lra.
Qed.

Lemma round_rot (q' : @Rotation (FA o)) (q : quat) (v' : @Vector3 (FA o)) (v : vec) E F X :
  0 <= E <= / 8 -> unit_q q -> dist (qR q') q <= E -> dv (vR v') v <= F -> nv v + 1 <= X -> F <= X ->
  dv (vR (q_rot q' v')) (q_rot q v) <= 400 * u * X + 14 * E * X + 3 * F.
Proof.
  intros HE Q D DV HX HF.
  assert (F0 : 0 <= F) by (eapply Rle_trans; [apply dist_nonneg|exact DV]).
  pose proof (N_nonneg (qv v)) as V0. fold (nv v) in V0.
  pose proof (round_inverse q' q E HE Q D) as I.
  set (i' := q_GetInverse q') in *.
  assert (NI : N (qR i') <= 3). { pose proof (N_dist (qR i') (qconj q)). rewrite (N_qconj_unit q Q) in *. lra. }
  assert (NQ : N (qR q') <= 9 / 8). { pose proof (N_dist (qR q') q). rewrite (N_unit q Q) in *. lra. }
  pose proof (N_nonneg (qR i')) as NI0. pose proof (N_nonneg (qR q')) as NQ0.
  set (V' := @Q4 (FA o) (vx v') (vy v') (vz v') n0).
  assert (DV' : dist (qR V') (qv v) <= F + u).
  { eapply Rle_trans; [apply (dist_triangle (qv (vR v')))|]. fold (dv (vR v') v).
    enough (dist (qR V') (qv (vR v')) <= u) by lra.
    unfold dist. apply N_le; [lra|]. unfold qn, q_minus, qR, qv, vR, V'. cbn [qx qy qz qw vx vy vz].
    pose proof (acc_lit _ _ Hacc 0) as L0. unfold rounds in L0. rewrite Q2R_0, Rabs_R0 in L0.
    change (@n0 (FA o)) with (o_lit o 0). rnum.
    pose proof (abs_sq _ _ L0) as S0. replace (u * (1 + 0)) with u in S0 by ring. lra. }
  assert (NV : N (qR V') <= 2 * X). { pose proof (N_dist (qR V') (qv v)). fold (nv v) in *. lra. }
  pose proof (N_nonneg (qR V')) as NV0.
  set (w' := q_mul V' i').
  assert (W : dist (qR w') (q_mul (qv v) (qconj q)) <= 219 * u * X + 8 * E * X + 3 * F).
  { eapply Rle_trans; [apply (dist_triangle (q_mul (qR V') (qR i')))|].
    pose proof (round_q_mul V' i') as R1. fold w' in R1.
    pose proof (dist_mul (qR V') (qR i') (qv v) (qconj q)) as R2. fold (nv v) in R2.
    pose proof (dist_nonneg (qR V') (qv v)) as d1. pose proof (dist_nonneg (qR i') (qconj q)) as d2.
    assert (P1 : N (qR V') * N (qR i') <= 2 * X * 3) by (apply Rmult_le_compat; lra).
    assert (P2 : 20 * u * (1 + N (qR V') * N (qR i')) <= 20 * u * (7 * X)) by (apply Rmult_le_compat_l; lra).
    assert (P3 : dist (qR V') (qv v) * N (qR i') <= (F + u) * 3) by (apply Rmult_le_compat; lra).
    assert (P4 : nv v * dist (qR i') (qconj q) <= X * (8 * E + 76 * u)) by (apply Rmult_le_compat; lra).
    assert (P5 : 3 * u <= 3 * u * X) by nra.
    lra. }
  assert (NW : N (qR w') <= 6 * X).
  { pose proof (N_dist (qR w') (q_mul (qv v) (qconj q))) as T. rewrite N_mul, (N_qconj_unit q Q) in T. fold (nv v) in T.
    assert (u * X <= / 1000 * X) by (apply Rmult_le_compat_r; lra). assert (E * X <= / 8 * X) by (apply Rmult_le_compat_r; lra). lra. }
  pose proof (N_nonneg (qR w')) as NW0.
  unfold dv. eapply Rle_trans.
  { assert (Z : qv (vR (q_rot q' v')) = qv (@V3 RA (qx (q_mul q' w')) (qy (q_mul q' w')) (qz (q_mul q' w')))) by reflexivity.
    rewrite Z. rewrite (q_rot_unit q v Q). unfold rotu.
    assert (Z2 : forall t : quat, qw t = 0 -> qv (@V3 RA (qx t) (qy t) (qz t)) = t).
    { intros [x y z w] Hw. cbn [qw] in Hw. unfold qv. cbn [vx vy vz qx qy qz]. rewrite Hw. rnum. reflexivity. }
    cbv zeta. rewrite Z2; [|apply sandwich_pure]. apply vec_part. apply sandwich_pure. }
  eapply Rle_trans; [apply (dist_triangle (q_mul (qR q') (qR w')))|].
  pose proof (round_q_mul q' w') as R1.
  pose proof (dist_mul (qR q') (qR w') q (q_mul (qv v) (qconj q))) as R2. rewrite (N_unit q Q) in R2.
  pose proof (dist_nonneg (qR q') q) as d1.
  assert (P1 : N (qR q') * N (qR w') <= 9 / 8 * (6 * X)) by (apply Rmult_le_compat; lra).
  assert (P2 : 20 * u * (1 + N (qR q') * N (qR w')) <= 20 * u * (8 * X)) by (apply Rmult_le_compat_l; lra).
  assert (P3 : dist (qR q') q * N (qR w') <= E * (6 * X)) by (apply Rmult_le_compat; lra).
  assert (P4 : 0 <= u * X) by (apply Rmult_le_pos; lra).
  change (@Q4 RA (vx v) (vy v) (vz v) 0) with (qv v). lra.
Qed.

(** ** Composing poses *)
Definition close (E F : R) (p' : @Pose (FA o)) (p : pose) : Prop :=
  dist (qR (rotation p')) (rotation p) <= E /\ dv (vR (position p')) (position p) <= F.

Lemma nv_dv a b : nv a <= nv b + dv a b.
Proof. apply N_dist. Qed.
Lemma comp_nv (a : vec) : Rabs (vx a) <= nv a /\ Rabs (vy a) <= nv a /\ Rabs (vz a) <= nv a.
Proof. destruct (comp_N (qv a)) as (X & Y & Z & _). auto. Qed.
Lemma nv_rot q v : unit_q q -> nv (q_rot q v) = nv v.
Proof.
  intros Q. rewrite (q_rot_rotn q v (unit_pos q Q)). unfold nv. rewrite (qv_rotn q v (unit_pos q Q)).
  unfold unit_q in Q. rewrite Q, Rinv_1.
  replace (qscale 1 (q_mul q (q_mul (qv v) (qconj q)))) with (q_mul q (q_mul (qv v) (qconj q))).
  - rewrite !N_mul, N_conj, (N_unit q Q). ring.
  - unfold qscale, q_mul. apply q_eq; cbn [qx qy qz qw]; rnum; ring.
Qed.
Lemma nv_add a b : nv (v_add a b) <= nv a + nv b.
Proof.
  unfold nv. replace (qv (v_add a b)) with (q_plus (qv a) (qv b)); [apply N_triangle|].
  unfold qv, q_plus, v_add. apply q_eq; cbn [qx qy qz qw vx vy vz]; rnum; ring.
Qed.

Lemma round_v_add (a b : @Vector3 (FA o)) M : nv (v_add (vR a) (vR b)) <= M ->
  dv (vR (v_add a b)) (v_add (vR a) (vR b)) <= 2 * u * (1 + M).
Proof.
  intros HM. assert (M0 : 0 <= M) by (eapply Rle_trans; [apply N_nonneg|exact HM]).
  unfold dv, dist. replace (2 * u * (1 + M)) with (2 * (u * (1 + M))) by ring.
  destruct (comp_nv (v_add (vR a) (vR b))) as (X & Y & Z). unfold v_add, vR in X, Y, Z. cbn [vx vy vz] in X, Y, Z. rnumin X. rnumin Y. rnumin Z.
  assert (T : forall x y, Rabs (x + y) <= M -> Rabs (o_add o x y - (x + y)) <= u * (1 + M)).
  { intros x y H. eapply Rle_trans; [apply (acc_add _ _ Hacc)|]. apply Rmult_le_compat_l; lra. }
  unfold v_add, vR in HM. cbn [vx vy vz] in HM.
  apply N_comp; unfold q_minus, qv, vR, v_add; cbn [qx qy qz qw vx vy vz]; rnum.
  - apply T. eapply Rle_trans; [exact X|exact HM].
  - apply T. eapply Rle_trans; [exact Y|exact HM].
  - apply T. eapply Rle_trans; [exact Z|exact HM].
  - rewrite Rminus_0_r, Rabs_R0. apply Rmult_le_pos; lra.
Qed.
Lemma dv_add a b a' b' : dv (v_add a b) (v_add a' b') <= dv a a' + dv b b'.
Proof.
  unfold dv, dist. replace (q_minus (qv (v_add a b)) (qv (v_add a' b'))) with (q_plus (q_minus (qv a) (qv a')) (q_minus (qv b) (qv b'))); [apply N_triangle|].
  unfold qv, q_plus, q_minus, v_add. apply q_eq; cbn [qx qy qz qw vx vy vz]; rnum; ring.
Qed.

Lemma round_transform (p' t' : @Pose (FA o)) (p t : pose) E1 F1 E2 F2 X Y :
  unit_q (rotation p) -> unit_q (rotation t) -> close E1 F1 p' p -> close E2 F2 t' t ->
  E1 <= / 8 -> E2 <= / 8 -> nv (position t) + 1 <= X -> F2 <= X -> nv (position p) <= Y -> F1 <= Y ->
  close (E1 + 9 / 8 * E2 + 50 * u) (F1 + 3 * F2 + 14 * E1 * X + 430 * u * X + 4 * u * Y) (pose_transform p' t') (pose_transform p t).
Proof.
  intros Qp Qt [Dp Vp] [Dt Vt] H1 H2 HX HF HY HF1.
  assert (E10 : 0 <= E1) by (eapply Rle_trans; [apply dist_nonneg|exact Dp]).
  assert (E20 : 0 <= E2) by (eapply Rle_trans; [apply dist_nonneg|exact Dt]).
  assert (F10 : 0 <= F1) by (eapply Rle_trans; [apply dist_nonneg|exact Vp]).
  assert (F20 : 0 <= F2) by (eapply Rle_trans; [apply dist_nonneg|exact Vt]).
  pose proof (N_nonneg (qv (position t))) as T0. fold (nv (position t)) in T0.
  split; unfold pose_transform; cbn [rotation position].
  - eapply Rle_trans; [apply (dist_triangle (q_mul (qR (rotation p')) (qR (rotation t'))))|].
    pose proof (round_q_mul (rotation p') (rotation t')) as R1.
    pose proof (dist_mul (qR (rotation p')) (qR (rotation t')) (rotation p) (rotation t)) as R2. rewrite (N_unit _ Qp) in R2.
    pose proof (N_dist (qR (rotation p')) (rotation p)) as B1. rewrite (N_unit _ Qp) in B1.
    pose proof (N_dist (qR (rotation t')) (rotation t)) as B2. rewrite (N_unit _ Qt) in B2.
    pose proof (N_nonneg (qR (rotation p'))) as Z1. pose proof (N_nonneg (qR (rotation t'))) as Z2. pose proof (dist_nonneg (qR (rotation p')) (rotation p)) as Z3.
    assert (P1 : N (qR (rotation p')) * N (qR (rotation t')) <= 9 / 8 * (9 / 8)) by (apply Rmult_le_compat; lra).
    assert (P2 : 20 * u * (1 + N (qR (rotation p')) * N (qR (rotation t'))) <= 20 * u * (5 / 2)) by (apply Rmult_le_compat_l; lra).
    assert (P3 : dist (qR (rotation p')) (rotation p) * N (qR (rotation t')) <= E1 * (1 + E2)) by (apply Rmult_le_compat; lra).
    assert (P4 : E1 * E2 <= / 8 * E2) by (apply Rmult_le_compat_r; lra). lra.
  - pose proof (round_rot (rotation p') (rotation p) (position t') (position t) E1 F2 X (conj E10 H1) Qp Dp Vt HX HF) as R.
    set (r' := q_rot (rotation p') (position t')) in *. set (r := q_rot (rotation p) (position t)) in *.
    eapply Rle_trans; [apply (dist_triangle (qv (v_add (vR r') (vR (position p')))))|]. fold (dv (vR (v_add r' (position p'))) (v_add (vR r') (vR (position p')))).
    fold (dv (v_add (vR r') (vR (position p'))) (v_add r (position p))).
    pose proof (dv_add (vR r') (vR (position p')) r (position p)) as A.
    assert (uX : u * X <= / 1000 * X) by (apply Rmult_le_compat_r; lra). assert (EX : E1 * X <= / 8 * X) by (apply Rmult_le_compat_r; lra).
    assert (BR : nv (vR r') <= 7 * X).
    { pose proof (nv_dv (vR r') r) as B. assert (NR : nv r = nv (position t)) by (apply nv_rot, Qp). lra. }
    assert (BP : nv (vR (position p')) <= 2 * Y). { pose proof (nv_dv (vR (position p')) (position p)). lra. }
    pose proof (nv_add (vR r') (vR (position p'))) as S.
    pose proof (round_v_add r' (position p') (7 * X + 2 * Y) ltac:(lra)) as V.
    assert (u <= u * X) by nra. lra.
Qed.
End Rounded.
