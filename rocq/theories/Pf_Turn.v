(** Whole turns of joints change nothing but the signs of quaternions; for C105. *)
From Coq Require Import QArith String List Arith Lia Bool Permutation ZArith Reals Lra.
From Verif Require Import Base Num Pose DataStructure Urdf Kin Wrapper Spec_Robot Spec_Hist Spec_Load Spec_Jac Spec_Mass Spec_Rot Spec_Body Spec_Turn
  RealArith Pf_Base Pf_Data Inv Pf_FK Rep Pf_Name Pf_Reach Pf_Jac Pf_Pose Pf_Wrap Pf_Wrap2 Pf_Mass Pf_Real Pf_Rot Pf_Unit Pf_Rpy Pf_Chain Pf_Deriv Pf_Body.
Import ListNotations.
Local Open Scope R_scope.

(** half of a whole number of turns *)
Lemma half_turns x k : exists s, (s = 1 \/ s = -1) /\ sin (x + PI * IZR k) = s * sin x /\ cos (x + PI * IZR k) = s * cos x.
Proof.
  revert k. apply Z.peano_ind.
  - exists 1. replace (x + PI * 0) with x by ring. repeat split; auto; ring.
  - intros k (s & Hs & E1 & E2). exists (- s). rewrite succ_IZR. replace (x + PI * (IZR k + 1)) with (x + PI * IZR k + PI) by ring.
    rewrite neg_sin, neg_cos, E1, E2. split; [destruct Hs; subst; [right | left]; ring | split; ring].
  - intros k (s & Hs & E1 & E2). exists (- s). replace (IZR (Z.pred k)) with (IZR k - 1) by (unfold Z.pred; rewrite plus_IZR; simpl; ring).
    assert (A : x + PI * IZR k = (x + PI * (IZR k - 1)) + PI) by ring. rewrite A, neg_sin in E1. rewrite A, neg_cos in E2.
    split; [destruct Hs; subst; [right | left]; ring | split; lra].
Qed.

Lemma opposite_qn q : qn (opposite q) = qn q.
Proof. unfold qn, opposite. proj. rnum. ring. Qed.
Lemma opposite_rot q v : q_rot (opposite q) v = q_rot q v.
Proof.
  destruct (Req_dec (qn q) 0) as [Z|Z].
  { assert (O : opposite q = q); [|now rewrite O]. destruct q as [x y z w]. change (@num RA) with R in *. unfold qn, opposite in *. cbn [qx qy qz qw] in *. rnumin Z.
    assert (x = 0 /\ y = 0 /\ z = 0 /\ w = 0) as (-> & -> & -> & ->) by (repeat split; nra). rnum. now rewrite Ropp_0. }
  assert (L : 0 < qn q) by (pose proof (qn_nonneg q); lra).
  rewrite !q_rot_rotn by (rewrite ?opposite_qn; exact L). unfold rotn. rewrite opposite_qn.
  assert (E : q_mul (opposite q) (q_mul (@Q4 RA (vx v) (vy v) (vz v) 0) (qconj (opposite q))) = q_mul q (q_mul (@Q4 RA (vx v) (vy v) (vz v) 0) (qconj q))).
  { unfold opposite, q_mul, qconj. apply q_eq; proj; rnum; ring. }
  now rewrite E.
Qed.
Lemma opposite_mul_l a b : q_mul (opposite a) b = opposite (q_mul a b).
Proof. unfold q_mul, opposite. apply q_eq; cbn [qx qy qz qw]; rnum; ring. Qed.
Lemma opposite_mul_r a b : q_mul a (opposite b) = opposite (q_mul a b).
Proof. unfold q_mul, opposite. apply q_eq; cbn [qx qy qz qw]; rnum; ring. Qed.
Lemma opposite_twice a : opposite (opposite a) = a.
Proof. unfold opposite. apply q_eq; cbn [qx qy qz qw]; rnum; ring. Qed.
Lemma opposite_mat q : quat_mat (opposite q) = quat_mat q.
Proof. unfold quat_mat, opposite. cbn [qx qy qz qw]. rnum. f_equal; ring. Qed.

Lemma same_refl P : same_placement P P. Proof. split; auto. Qed.
Lemma same_rot P P' v : same_placement P P' -> q_rot (rotation P') v = q_rot (rotation P) v.
Proof. intros (_ & [-> | ->]); [reflexivity | apply opposite_rot]. Qed.
Lemma same_mat P P' : same_placement P P' -> quat_mat (rotation P') = quat_mat (rotation P).
Proof. intros (_ & [-> | ->]); [reflexivity | apply opposite_mat]. Qed.
Lemma same_transform P P' T T' : same_placement P P' -> same_placement T T' -> same_placement (pose_transform P T) (pose_transform P' T').
Proof.
  intros HP (ET & HT). pose proof (same_rot P P') as HR. destruct HP as (EP & HQ). unfold pose_transform. split; cbn [position rotation].
  - rewrite ET, EP, HR by (split; auto). reflexivity.
  - destruct HQ as [-> | ->], HT as [-> | ->]; rewrite ?opposite_mul_l, ?opposite_mul_r, ?opposite_twice; auto.
Qed.

(** ** roll, pitch, yaw *)
Lemma atan2_opposite y x : sin (2 * ratan2 (- y) (- x)) = sin (2 * ratan2 y x) /\ cos (2 * ratan2 (- y) (- x)) = cos (2 * ratan2 y x).
Proof.
  destruct (Req_dec x 0) as [X|X]; [destruct (Req_dec y 0) as [Y|Y]|].
  - subst. rewrite Ropp_0. auto.
  - rewrite !sin_2a, !cos_2a, !sin_atan2, !cos_atan2 by (auto; right; lra). replace (- x * - x + - y * - y) with (x * x + y * y) by ring.
    unfold Rdiv. split; ring.
  - rewrite !sin_2a, !cos_2a, !sin_atan2, !cos_atan2 by (auto; left; lra). replace (- x * - x + - y * - y) with (x * x + y * y) by ring.
    unfold Rdiv. split; ring.
Qed.
Lemma opposite_away q : away q -> away (opposite q).
Proof.
  unfold away. assert (E : 2 * (qw (opposite q) * qy (opposite q) - qx (opposite q) * qz (opposite q)) = 2 * (qw q * qy q - qx q * qz q)) by (unfold opposite; proj; rnum; ring).
  rewrite E. auto.
Qed.
Lemma opposite_rpy_away q : away q -> getRPY (opposite q) = getRPY q.
Proof.
  intros H. rewrite !getRPY_away by (auto using opposite_away). unfold opposite. cbn [qx qy qz qw].
  apply v_eq; cbn [vx vy vz]; [apply (f_equal2 ratan2) | apply (f_equal asin) | apply (f_equal2 ratan2)]; rnum; ring.
Qed.
Lemma opposite_rpy q : same_rpy (getRPY q) (getRPY (opposite q)).
Proof.
  destruct (Rlt_dec (Rabs (2 * (qw q * qy q - qx q * qz q))) (99999 / 100000)) as [L|L].
  { rewrite opposite_rpy_away by exact L. unfold same_rpy. auto. }
  unfold getRPY, opposite. cbn [qx qy qz qw]. rnum. rewrite Q2R_99, Q2R_m99.
  replace (-2 * (- qx q * - qz q - - qw q * - qy q)) with (2 * (qw q * qy q - qx q * qz q)) by ring.
  replace (-2 * (qx q * qz q - qw q * qy q)) with (2 * (qw q * qy q - qx q * qz q)) by ring.
  destruct (atan2_opposite (qx q) (- qy q)) as [A1 A2]. destruct (atan2_opposite (- qx q) (qy q)) as [A3 A4].
  unfold Rleb. destruct (Rle_dec (2 * (qw q * qy q - qx q * qz q)) (- (99999 / 100000))) as [L1|L1];
    [|destruct (Rle_dec (99999 / 100000) (2 * (qw q * qy q - qx q * qz q))) as [L2|L2]; [|exfalso; apply L; apply Rabs_def1; lra]];
    unfold same_rpy; cbn [vx vy vz]; auto.
Qed.
Lemma same_rpy_of P P' : same_placement P P' -> same_rpy (getRPY (rotation P)) (getRPY (rotation P')).
Proof. intros (_ & [-> | ->]); [unfold same_rpy; auto | apply opposite_rpy]. Qed.
Lemma same_rpy_away P P' : same_placement P P' -> away (rotation P) -> getRPY (rotation P') = getRPY (rotation P).
Proof. intros (_ & [-> | ->]) H; [reflexivity | now apply opposite_rpy_away]. Qed.

(** ** joints and links *)
Lemma motion_turns j a b : whole_turns j a b -> same_placement (motion j a) (motion j b).
Proof.
  unfold whole_turns, motion.
  assert (K : (exists k : Z, b = a + 2 * PI * IZR k) ->
    same_placement (pose_transform (uj_origin j) (mkPose v_clear (@Q4 RA (mul (vx (uj_axis j)) (nsin (mul a nhalf))) (mul (vy (uj_axis j)) (nsin (mul a nhalf))) (mul (vz (uj_axis j)) (nsin (mul a nhalf))) (ncos (mul a nhalf)))))
      (pose_transform (uj_origin j) (mkPose v_clear (@Q4 RA (mul (vx (uj_axis j)) (nsin (mul b nhalf))) (mul (vy (uj_axis j)) (nsin (mul b nhalf))) (mul (vz (uj_axis j)) (nsin (mul b nhalf))) (ncos (mul b nhalf)))))).
  { intros (k & ->). apply same_transform; [apply same_refl|]. split; [reflexivity|]. cbn [rotation]. rnum.
    destruct (half_turns (a * (1 / 2)) k) as (s & Hs & E1 & E2). unfold opposite. cbn [qx qy qz qw]. rnum.
    replace ((a + 2 * PI * IZR k) * (1 / 2)) with (a * (1 / 2) + PI * IZR k) by field. rewrite E1, E2.
    destruct Hs; subst s; [left | right]; apply q_eq; proj; rnum; ring. }
  destruct (uj_type j); cbv zeta; intros H; try apply same_refl; try (subst b; apply same_refl); apply K, H.
Qed.
Lemma fk_turns js root added q q' base n P : (forall j, In j js -> whole_turns j (q (uj_name j)) (q' (uj_name j)) \/ ~ is_movable (uj_type j)) ->
  fk js root added q base n P -> exists P', fk js root added q' base n P' /\ same_placement P P'.
Proof.
  intros Hq H. induction H as [|j P I H (P' & H' & S)|n p T P I H (P' & H' & S)].
  - exists base. split; [constructor | apply same_refl].
  - exists (pose_transform P' (motion j (q' (uj_name j)))). split; [now constructor|]. apply same_transform; [exact S|].
    destruct (Hq j I) as [W|N]; [now apply motion_turns|]. unfold is_movable in N. unfold motion. destruct (uj_type j); try apply same_refl; exfalso; apply N; auto.
  - exists (pose_transform P' T). split; [eapply fk_added; eauto|]. apply same_transform; [exact S | apply same_refl].
Qed.

(** ** angles *)
Lemma assign_turns (T : nat -> R -> R -> Prop) : forall jids qs qs' v v', length qs' = length qs ->
  (forall c k a b, nth_error jids c = Some k -> nth_error qs c = Some a -> nth_error qs' c = Some b -> T k a b) ->
  length v' = length v -> (forall k a b, nth_error v k = Some a -> nth_error v' k = Some b -> T k a b) ->
  length (assign (A := RA) jids qs' v') = length (assign (A := RA) jids qs v) /\
  forall k a b, nth_error (assign (A := RA) jids qs v) k = Some a -> nth_error (assign (A := RA) jids qs' v') k = Some b -> T k a b.
Proof.
  unfold assign. induction jids as [|k0 jids IH]; intros qs qs' v v' L Hq Lv Hv; [split; auto|].
  destruct qs as [|a qs], qs' as [|b qs']; try discriminate L; [split; auto|]. cbn [combine fold_left fst snd].
  apply IH; [now injection L | intros c k x y E1 E2 E3; apply (Hq (S c) k x y E1 E2 E3) | now rewrite !list_set_length |].
  intros k x y E1 E2. rewrite nth_error_list_set in E1, E2. rewrite Lv in E2. destruct (Nat.eqb_spec k0 k) as [->|N]; [|eapply Hv; eauto].
  destruct (Nat.ltb k (length v)); [|discriminate E1]. injection E1 as <-. injection E2 as <-. apply (Hq 0%nat k a b); reflexivity.
Qed.
Lemma by_name_turns (T : nat -> R -> R -> Prop) (ns : list string) (v v' : list (@num RA)) n : length v' = length v ->
  (forall k a b, nth_error ns k = Some n -> nth_error v k = Some a -> nth_error v' k = Some b -> T k a b) ->
  forall k a, NoDup ns -> nth_error ns k = Some n -> nth_error v k = Some a ->
  T k (by_name (A := RA) ns v n) (by_name (A := RA) ns v' n).
Proof.
  intros L H k a Nd En Ev. destruct (nth_error v' k) as [b|] eqn:Ev'.
  - unfold by_name. rewrite (assoc_combine_nth ns v k n a Nd En Ev), (assoc_combine_nth ns v' k n b Nd En Ev'). now apply (H k).
  - apply nth_error_None in Ev'. assert (k < length v)%nat by (apply nth_error_Some; congruence). lia.
Qed.

(** ** states that differ by whole turns *)
Record turned (jsorted : list (@UJoint RA)) (s s' : @AState RA) : Prop := {
  tn_added : as_added s' = as_added s;
  tn_base : as_base s' = as_base s;
  tn_len : length (as_angles s') = length (as_angles s);
  tn_angles : forall k j a b, nth_error jsorted k = Some j -> nth_error (as_angles s) k = Some a -> nth_error (as_angles s') k = Some b -> whole_turns j a b }.

Section Turned.
Context (R : @Robot RA) (root : string) (sorted : list (string * option (@Inertial RA))) (jsorted : list (@UJoint RA)) (ms : list (string * @Inertial RA)) (mass : @num RA) (s s' : @AState RA) (m m' : @KM RA).
Context (HR : Rep R root sorted jsorted ms mass s m) (HR' : Rep R root sorted jsorted ms mass s' m') (HT : turned jsorted s s').

Lemma turned_pose_ex n P : pose_at R root jsorted s n P -> exists P', pose_at R root jsorted s' n P' /\ same_placement P P'.
Proof.
  unfold pose_at. rewrite (tn_added _ _ _ HT), (tn_base _ _ _ HT). apply fk_turns. intros j I.
  destruct (movable (uj_type j)) eqn:Mv.
  - left. assert (Ij : In j jsorted) by (apply (rep_jsorted _ _ _ _ _ _ _ _ HR); auto). apply In_nth_error in Ij. destruct Ij as (k & Ek).
    assert (En : nth_error (jnames jsorted) k = Some (uj_name j)) by (unfold jnames; now rewrite nth_error_map, Ek).
    assert (Lk : (k < length (as_angles s))%nat) by (rewrite (rep_angles_length _ _ _ _ _ _ _ _ HR); apply nth_error_Some; congruence).
    destruct (nth_error (as_angles s) k) as [a|] eqn:Ea; [|apply nth_error_None in Ea; lia].
    apply (by_name_turns (fun k a b => nth_error jsorted k = Some j -> whole_turns j a b) (jnames jsorted) (as_angles s) (as_angles s') (uj_name j) (tn_len _ _ _ HT)
      (fun k a b _ E1 E2 Ej => tn_angles _ _ _ HT k j a b Ej E1 E2) k a (jn_nodup _ _ _ _ _ _ _ _ HR) En Ea Ek).
  - right. unfold is_movable. intros [E|[E|E]]; rewrite E in Mv; discriminate.
Qed.
Lemma turned_pose n P P' : pose_at R root jsorted s n P -> pose_at R root jsorted s' n P' -> same_placement P P'.
Proof.
  intros H H'. destruct (turned_pose_ex n P H) as (P2 & H2 & S). now rewrite (rep_pose_det _ _ _ _ _ _ _ _ HR' n P' P2 H' H2).
Qed.

Lemma turned_bodies W W' : bodies R root jsorted s W -> bodies R root jsorted s' W' -> Forall2 (fun w w' => fst w' = fst w /\ same_placement (snd w) (snd w')) W W'.
Proof.
  unfold bodies. intros F. revert W'. induction F as [|ni w ms0 W [E1 E2] F IH]; intros W' F'; inversion F' as [|? w' ? W2 [E3 E4] F2]; subst; constructor; auto.
  split; [congruence|]. exact (turned_pose _ _ _ E2 E4).
Qed.
End Turned.

Lemma same_point w w' : fst w' = fst w /\ same_placement (snd w) (snd w') -> bmass w' = bmass w /\ bpoint w' = bpoint w.
Proof. intros (E & S). unfold bmass, bpoint, com_point. rewrite E. rewrite (same_rot _ _ _ S). destruct S as (-> & _). auto. Qed.
Lemma same_centre W W' : Forall2 (fun w w' => fst w' = fst w /\ same_placement (snd w) (snd w')) W W' -> centre_of W' = centre_of W.
Proof.
  intros F. assert (E : forall f : R -> @Vector3 RA -> R, rsum (fun w => f (bmass w) (bpoint w)) W' = rsum (fun w => f (bmass w) (bpoint w)) W).
  { intros f. unfold rsum. induction F as [|w w' W W' H F IH]; [reflexivity|]. cbn [fold_right]. destruct (same_point _ _ H) as [-> ->]. now rewrite IH. }
  unfold centre_of, first_moment, mass_of. pose proof (E (fun m _ => m)) as E0. pose proof (E (fun m p => m * vx p)) as E1. pose proof (E (fun m p => m * vy p)) as E2. pose proof (E (fun m p => m * vz p)) as E3.
  cbv beta in *. rewrite E1, E2, E3. f_equal. exact E0.
Qed.
Lemma same_total c W W' : Forall2 (fun w w' => fst w' = fst w /\ same_placement (snd w) (snd w')) W W' -> msum (inertia_of c) W' = msum (inertia_of c) W.
Proof.
  intros F. unfold msum. induction F as [|w w' W W' H F IH]; [reflexivity|]. cbn [fold_right]. rewrite IH. f_equal.
  destruct (same_point _ _ H) as [E1 E2]. destruct H as [E S]. unfold inertia_of. now rewrite E1, E2, (same_mat _ _ S), E.
Qed.

(** a matrix is determined by its columns *)
Lemma same_columns r c (J J' : @mat RA) : has_shape r c J -> has_shape r c J' -> (forall k, (k < c)%nat -> column k J' = column k J) -> J' = J.
Proof.
  intros (L & H) (L' & H') Hc. apply nth_ext with (d := []) (d' := []); [congruence|]. intros i Li.
  assert (I1 : In (nth i J []) J) by (apply nth_In; lia). assert (I2 : In (nth i J' []) J') by (apply nth_In; lia).
  apply nth_ext with (d := @n0 RA) (d' := @n0 RA); [rewrite (H _ I1), (H' _ I2); reflexivity|]. intros k Lk. rewrite (H' _ I2) in Lk.
  specialize (Hc k Lk). apply (f_equal (fun l => nth i l (nth k [] (@n0 RA)))) in Hc. unfold column in Hc. rewrite !(map_nth (fun row => nth k row n0)) in Hc. exact Hc.
Qed.

Section TurnedJ.
Context (R : @Robot RA) (root : string) (sorted : list (string * option (@Inertial RA))) (jsorted : list (@UJoint RA)) (ms : list (string * @Inertial RA)) (mass : @num RA) (s s' : @AState RA) (m m' : @KM RA).
Context (HR : Rep R root sorted jsorted ms mass s m) (HR' : Rep R root sorted jsorted ms mass s' m') (HT : turned jsorted s s').

Lemma turned_column rt j E E' C C' : rt <> XYZW -> same_placement E E' -> same_placement C C' -> geometric_column rt j E' C' = geometric_column rt j E C.
Proof.
  intros Nr SE SC. unfold geometric_column. rewrite (same_rot _ _ _ SC), (proj1 SE), (proj1 SC).
  assert (D : forall w, rpy_derivative (getRPY (rotation E')) w = rpy_derivative (getRPY (rotation E)) w).
  { intros w. destruct (same_rpy_of _ _ SE) as (E1 & E2 & E3 & E4). unfold rpy_derivative. rnum. rewrite E2, !sin_neg, !cos_neg, E3, E4. reflexivity. }
  destruct rt; [| |congruence]; rewrite ?D; reflexivity.
Qed.
Lemma turned_jacobian rt n jids wb J J' : rt = IGNORE \/ rt = RPY /\ wb = false -> (forall k, In k jids -> (k < length jsorted)%nat) ->
  is_jacobian R root jsorted s rt n jids wb J -> is_jacobian R root jsorted s' rt n jids wb J' -> J' = J.
Proof.
  intros Hrt Hk (Sh & E & HE & Hc & Hb) (Sh' & E' & HE' & Hc' & Hb'). pose proof (turned_pose _ _ _ _ _ _ _ _ _ _ HR HR' HT n E E' HE HE') as SE.
  assert (Nr : rt <> XYZW) by (destruct Hrt as [-> | [-> _]]; discriminate).
  apply (same_columns _ _ _ _ Sh Sh'). intros c Lc. destruct (Nat.lt_ge_cases c (length jids)) as [L|L].
  - destruct (nth_error jids c) as [k|] eqn:Ek; [|apply nth_error_None in Ek; lia]. pose proof (Hk k (nth_error_In _ _ Ek)) as Lk.
    destruct (nth_error jsorted k) as [j|] eqn:Ej; [|apply nth_error_None in Ej; lia].
    destruct (Hc c k j Ek Ej) as [N Y]. destruct (Hc' c k j Ek Ej) as [N' Y']. rewrite (tn_added _ _ _ HT) in N', Y'.
    destruct (Classical_Prop.classic (carries (r_joints R) (as_added s) j n)) as [C|C]; [|now rewrite N, N'].
    destruct (Y C) as (Cp & HC & ->). destruct (Y' C) as (Cp' & HC' & ->). apply turned_column; auto. exact (turned_pose _ _ _ _ _ _ _ _ _ _ HR HR' HT _ _ _ HC HC').
  - destruct wb; [|lia]. destruct Hrt as [-> | [_ Q]]; [|discriminate Q]. specialize (Hb eq_refl). specialize (Hb' eq_refl).
    destruct (Nat.lt_ge_cases c (length jids + 3)) as [L3|L3].
    + destruct (Hb (c - length jids)%nat ltac:(lia)) as [E1 _]. destruct (Hb' (c - length jids)%nat ltac:(lia)) as [E2 _].
      replace (length jids + (c - length jids))%nat with c in * by lia. congruence.
    + destruct (Hb (c - length jids - 3)%nat ltac:(lia)) as [_ E1]. destruct (Hb' (c - length jids - 3)%nat ltac:(lia)) as [_ E2].
      replace (length jids + 3 + (c - length jids - 3))%nat with c in * by lia. rewrite E1, E2, (tn_base _ _ _ HT).
      assert (ST : forall b, same_placement (base_turned b (as_base s) E) (base_turned b (as_base s) E')).
      { intros b. unfold base_turned. apply same_transform; [apply same_refl|]. apply same_transform; [apply same_refl | exact SE]. }
      unfold base_quotient, link_row. rewrite (proj1 SE), (proj1 (ST _)). reflexivity.
Qed.
End TurnedJ.
