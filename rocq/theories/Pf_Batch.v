(** Answers for a waypoint do not depend on the other waypoints of the call (lemmas for C119), in any arithmetic. *)
From Coq Require Import String List Arith Lia Bool Permutation Classical.
From Verif Require Import Base Num Pose DataStructure Urdf Kin Wrapper Spec_Robot Spec_Hist Spec_Load Spec_Jac Spec_Mass
  Pf_Base Pf_Data Inv Pf_FK Pf_Frame Pf_Rp Rep Pf_Ops Pf_Name Pf_Ctor Pf_Reach Pf_Jac Pf_Safe Pf_Pose Pf_Local Pf_Hist Pf_Wrap Pf_Mass Pf_Wrap2 Pf_Total.
Import ListNotations.
Local Open Scope m_scope.

Lemma nth_error_same {X} (l l' : list X) : (forall i, nth_error l i = nth_error l' i) -> l = l'.
Proof. revert l'. induction l as [|x l IH]; intros [|y l'] H; [reflexivity | discriminate (H 0) | discriminate (H 0)|]. pose proof (H 0) as E. injection E as ->. f_equal. apply IH. intros i. exact (H (S i)). Qed.
Lemma last_occurrence (k : nat) l : In k l -> exists pre post, l = pre ++ k :: post /\ ~ In k post.
Proof.
  induction l as [|x l IH]; intros I; [easy|]. destruct (in_dec Nat.eq_dec k l) as [J|J].
  - destruct (IH J) as (pre & post & -> & N). exists (x :: pre), post. auto.
  - destruct I as [->|I]; [|contradiction]. exists [], l. auto.
Qed.
Lemma Forall2_det {X Y} (Q : X -> Y -> Prop) (D : forall x y y', Q x y -> Q x y' -> y = y') : forall l ys ys', Forall2 Q l ys -> Forall2 Q l ys' -> ys = ys'.
Proof. induction l as [|x l IH]; intros ys ys' H H'; inversion H; inversion H'; subst; auto. f_equal; eauto. Qed.

Section Batch.
Context `{A : Arith}.

Lemma assign_again jids (q q1 v : list num) : length jids <= length q -> (forall k, In k jids -> k < length v) -> assign jids q (assign jids q1 v) = assign jids q v.
Proof.
  intros L Hk. apply nth_error_same. intros k. destruct (in_dec Nat.eq_dec k jids) as [I|N].
  - destruct (last_occurrence k jids I) as (pre & post & E & N). rewrite !(assign_last_le jids pre k post q _ E N L); auto. rewrite assign_length. auto.
  - now rewrite !assign_other.
Qed.
Lemma waypoint_again jids wb (q q1 : list num) s : length jids <= length q -> (forall k, In k jids -> k < length (as_angles s)) ->
  at_waypoint jids wb q (at_waypoint jids wb q1 s) = at_waypoint jids wb q s.
Proof. intros L Hk. unfold at_waypoint. cbn [as_added as_angles as_base]. rewrite assign_again by assumption. now destruct wb. Qed.
Lemma waypoint_after jids wb (q : list num) qs : forall s, length jids <= length q -> (forall k, In k jids -> k < length (as_angles s)) ->
  at_waypoint jids wb q (fold_left (fun s q => at_waypoint jids wb q s) qs s) = at_waypoint jids wb q s.
Proof.
  induction qs as [|q1 qs IH]; intros s L Hk; [reflexivity|]. cbn [fold_left]. rewrite IH; [now apply waypoint_again | exact L|]. cbn [at_waypoint as_angles]. rewrite assign_length. exact Hk.
Qed.

Lemma mat_columns rows cols (J J' : mat) : has_shape rows cols J -> has_shape rows cols J' -> (forall c, c < cols -> column c J = column c J') -> J = J'.
Proof.
  intros (L & W) (L' & W') H. apply (nth_ext _ _ [] []); [congruence|]. intros r Lr. apply (nth_ext _ _ n0 n0).
  - rewrite (W (nth r J [])), (W' (nth r J' [])) by (apply nth_In; congruence). reflexivity.
  - intros c Lc. rewrite (W (nth r J [])) in Lc by (apply nth_In; congruence). pose proof (f_equal (fun l => nth r l (nth c [] n0)) (H c Lc)) as E. cbv beta in E. unfold column in E.
    rewrite (map_nth (fun row => nth c row n0) J [] r), (map_nth (fun row => nth c row n0) J' [] r) in E. exact E.
Qed.

Section At.
Context (R : Robot) (root : string) (sorted : list (string * option Inertial)) (jsorted : list UJoint) (ms : list (string * Inertial)) (mass : num) (s : AState) (m : KM).
Context (HR : Rep R root sorted jsorted ms mass s m).

Lemma angles_count : length (as_angles s) = length jsorted.
Proof. rewrite <- (rep_angles _ _ _ _ _ _ _ _ HR), (wf_angles m (rep_wf _ _ _ _ _ _ _ _ HR)). symmetry. apply (Forall2_len _ _ _ (rep_joints _ _ _ _ _ _ _ _ HR)). Qed.

Lemma jacobian_det rt n jids wb J J' : (forall k, In k jids -> k < length jsorted) ->
  is_jacobian R root jsorted s rt n jids wb J -> is_jacobian R root jsorted s rt n jids wb J' -> J = J'.
Proof.
  intros Hk (S1 & E & HE & HJ & HB) (S2 & E' & HE' & HJ' & HB'). rewrite (rep_pose_det _ _ _ _ _ _ _ _ HR n _ _ HE' HE) in HJ', HB'.
  apply (mat_columns _ _ _ _ S1 S2). intros c Lc. destruct (Nat.lt_ge_cases c (length jids)) as [L|L].
  - destruct (lt_nth_error jids c L) as (k & Ek). destruct (lt_nth_error jsorted k (Hk k (nth_error_In _ _ Ek))) as (j & Ej).
    destruct (HJ c k j Ek Ej) as [Z G]. destruct (HJ' c k j Ek Ej) as [Z' G'].
    destruct (classic (carries (r_joints R) (as_added s) j n)) as [Y|N]; [|now rewrite Z, Z'].
    destruct (G Y) as (C & HC & ->). destruct (G' Y) as (C' & HC' & ->). now rewrite (rep_pose_det _ _ _ _ _ _ _ _ HR _ _ _ HC' HC).
  - destruct wb; [|lia]. specialize (HB eq_refl). specialize (HB' eq_refl).
    destruct (Nat.lt_ge_cases (c - length jids) 3) as [L3|L3].
    + replace c with (length jids + (c - length jids)) by lia. destruct (HB _ L3) as [-> _]. destruct (HB' _ L3) as [-> _]. reflexivity.
    + replace c with (length jids + 3 + (c - length jids - 3)) by lia. destruct (HB (c - length jids - 3) ltac:(lia)) as [_ ->]. destruct (HB' (c - length jids - 3) ltac:(lia)) as [_ ->]. reflexivity.
Qed.
Lemma named_pose_det e p p' : named_pose R root sorted jsorted s e p -> named_pose R root sorted jsorted s e p' -> p = p'.
Proof. intros (n & E & H) (n' & E' & H'). assert (n' = n) by congruence. subst. exact (rep_pose_det _ _ _ _ _ _ _ _ HR n _ _ H H'). Qed.
Lemma named_jac_det rt jids wb e J J' : (forall k, In k jids -> k < length jsorted) -> named_jac R root sorted jsorted s rt jids wb e J -> named_jac R root sorted jsorted s rt jids wb e J' -> J = J'.
Proof. intros Hk (n & E & H) (n' & E' & H'). assert (n' = n) by congruence. subst. exact (jacobian_det rt n jids wb J J' Hk H H'). Qed.
Lemma com_det c c' : is_com R root jsorted ms s c -> is_com R root jsorted ms s c' -> c = c'.
Proof. intros (Ps & F & ->) (Ps' & F' & ->). f_equal. refine (Forall2_det _ _ _ _ _ F F'). intros x y y'. apply (rep_pose_det _ _ _ _ _ _ _ _ HR). Qed.
Lemma com_jac_det jids wb J J' : (forall k, In k jids -> k < length jsorted) -> is_com_jacobian R root jsorted ms s jids wb J -> is_com_jacobian R root jsorted ms s jids wb J' -> J = J'.
Proof. intros Hk (Js & F & ->) (Js' & F' & ->). assert (E : Js = Js'); [|now rewrite E]. refine (Forall2_det _ _ _ _ _ F F'). intros x y y'. now apply jacobian_det. Qed.
Lemma forced_jac_det jids actions forces wb J J' : (forall k, In k jids -> k < length jsorted) ->
  forced_jac R root sorted jsorted ms mass s jids actions forces wb J -> forced_jac R root sorted jsorted ms mass s jids actions forces wb J' -> J = J'.
Proof.
  intros Hk (J0 & Js & H & F & ->) (J0' & Js' & H' & F' & ->). rewrite (com_jac_det _ _ _ _ Hk H H'). assert (E : Js = Js'); [|now rewrite E]. refine (Forall2_det _ _ _ _ _ F F').
  intros x y y'. now apply named_jac_det.
Qed.
Lemma sqdist_det e1 e2 d d' : sqdist_at R root sorted jsorted s e1 e2 d -> sqdist_at R root sorted jsorted s e1 e2 d' -> d = d'.
Proof. intros (p1 & p2 & H1 & H2 & ->) (q1 & q2 & H1' & H2' & ->). now rewrite (named_pose_det _ _ _ H1 H1'), (named_pose_det _ _ _ H2 H2'). Qed.
Lemma grad_det jids wb e1 e2 g g' : (forall k, In k jids -> k < length jsorted) -> grad_at R root sorted jsorted s jids wb e1 e2 g -> grad_at R root sorted jsorted s jids wb e1 e2 g' -> g = g'.
Proof.
  intros Hk (p1 & p2 & J1 & J2 & H1 & H2 & I1 & I2 & ->) (q1 & q2 & K1 & K2 & H1' & H2' & I1' & I2' & ->).
  now rewrite (named_pose_det _ _ _ H1 H1'), (named_pose_det _ _ _ H2 H2'), (named_jac_det _ _ _ _ _ _ Hk I1 I1'), (named_jac_det _ _ _ _ _ _ Hk I2 I2').
Qed.
End At.

Section Reached.
Context (tinyxml : string -> option (list xml)) (text : string) (R : Robot) (root : string) (sorted : list (string * option Inertial)) (jsorted : list UJoint) (ops : list op) (m : KM).
Context (Hr : reached tinyxml text R root sorted jsorted ops m).
Notation s := (after sorted jsorted ops).
Notation Rep' := (Rep R root sorted jsorted (massive sorted) (mass_sum (massive sorted))).

Lemma waypoint_Rep jids (wb : bool) (q : list num) : (forall k, In k jids -> k < length jsorted) -> length q = length jids + (if wb then 6 else 0) ->
  exists m1, Rep' (at_waypoint jids wb q s) m1.
Proof.
  intros Hk Lq. destruct (reached_Rep _ _ _ _ _ _ _ _ Hr) as [HR _].
  set (setters := Op_set_joint_angles jids q :: if wb then [Op_set_base_xyzrpy (skipn (length q - 6) q)] else []).
  assert (X : exists m1, run setters m = Some m1).
  { assert (Y : exists m1, set_joint_angles jids q m = (m1, Ok tt)).
    { assert (La : length (joint_angles m) = length jsorted) by (rewrite (rep_angles _ _ _ _ _ _ _ _ HR); exact (angles_count _ _ _ _ _ _ _ _ HR)).
      eexists. unfold set_joint_angles. erewrite bind_ok; [|apply set_nc_total; [intros j I; rewrite La; auto | lia]]. reflexivity. }
    destruct Y as (m1 & Y). unfold setters. cbn [run exec]. rewrite Y. destruct wb; [|exists m1; reflexivity]. cbn [run exec].
    unfold w_set_base_pose. rewrite skipn_length. replace (length q - (length q - 6)) with 6 by lia. cbn [Nat.eqb]. rewrite w6_total by (rewrite skipn_length; lia). eexists. reflexivity. }
  destruct X as (m1 & X). pose proof (reached_run _ _ _ _ _ _ _ _ _ _ Hr X) as Hr1. destruct (reached_Rep _ _ _ _ _ _ _ _ Hr1) as [HR1 _]. exists m1.
  replace (at_waypoint jids wb q s) with (after sorted jsorted (ops ++ setters)); [exact HR1|].
  rewrite after_app. unfold setters, at_waypoint. destruct wb; [|reflexivity]. cbn [abs_run fold_left abs_step].
  rewrite skipn_length. replace (length q - (length q - 6)) with 6 by lia. reflexivity.
Qed.

(** a model after a call on the waypoints [qs], or before it *)
Definition moved_on (jids : list nat) (wb : bool) (qs : list (list num)) (m1 : KM) : Prop :=
  exists s1, Rep' s1 m1 /\ (s1 = s \/ s1 = fold_left (fun s q => at_waypoint jids wb q s) qs s).

Lemma moved_by jids wb qs o m1 : exec o m = (m1, Ok tt) -> abs_step (map fst sorted) o s = fold_left (fun s q => at_waypoint jids wb q s) qs s -> moved_on jids wb qs m1.
Proof.
  intros X E. assert (Hr1 : reached tinyxml text R root sorted jsorted (ops ++ [o]) m1) by (apply (reached_run _ _ _ _ _ _ _ _ _ _ Hr); cbn [run]; rewrite X; reflexivity).
  destruct (reached_Rep _ _ _ _ _ _ _ _ Hr1) as [HR1 _]. rewrite after_app in HR1. unfold abs_run in HR1. cbn [fold_left] in HR1. rewrite E in HR1. eexists. split; [exact HR1|]. now right.
Qed.
Lemma not_moved jids wb qs : moved_on jids wb qs m.
Proof. destruct (reached_Rep _ _ _ _ _ _ _ _ Hr) as [HR _]. eexists. split; [exact HR|]. now left. Qed.

Lemma fk_moves qs el jids rt (wb : bool) wj uc m1 r : (forall q, In q qs -> length q = length jids + (if wb then 6 else 0)) ->
  solve_forward_kinematics qs el jids rt wb wj uc m = (m1, Ok r) -> moved_on jids wb qs m1.
Proof.
  intros Lq X. apply (moved_by jids wb qs (Op_solve_fk qs el jids rt wb wj uc)); [cbn [exec]; unfold drop; rewrite (bind_ok _ _ _ _ _ X); reflexivity|].
  cbn [abs_step]. destruct wb; [|reflexivity]. destruct qs as [|q0 qs]; [reflexivity|]. rewrite (Lq q0) by now left.
  replace (length jids + 6 - 6) with (length jids) by lia. rewrite Nat.eqb_refl. replace (Nat.ltb (length jids + 6) 6) with false by (symmetry; apply Nat.ltb_ge; lia). reflexivity.
Qed.
Lemma com_moves qs jids actions forces wb wj m1 r : solve_com_forward_kinematics qs jids actions forces wb wj m = (m1, Ok r) -> moved_on jids wb qs m1.
Proof. intros X. apply (moved_by jids wb qs (Op_solve_com_fk qs jids actions forces wb wj)); [cbn [exec]; unfold drop; rewrite (bind_ok _ _ _ _ _ X); reflexivity|]. reflexivity. Qed.
Lemma dists_move qs i1 i2 jids wb wg uc m1 r : compute_inter_link_squared_dists qs i1 i2 jids wb wg uc m = (m1, Ok r) -> moved_on jids wb qs m1.
Proof. intros X. apply (moved_by jids wb qs (Op_sqdists qs i1 i2 jids wb wg uc)); [cbn [exec]; unfold drop; rewrite (bind_ok _ _ _ _ _ X); reflexivity|]. reflexivity. Qed.

(** lists of rows, [w] per waypoint *)
Lemma split_rows {X} w n1 n2 (l l1 l2 : list X) : length l = (n1 + n2) * w -> length l1 = n1 * w -> length l2 = n2 * w ->
  (forall a b x y, a < n1 -> b < w -> nth_error l (a * w + b) = Some x -> nth_error l1 (a * w + b) = Some y -> x = y) ->
  (forall a b x y, a < n2 -> b < w -> nth_error l ((n1 + a) * w + b) = Some x -> nth_error l2 (a * w + b) = Some y -> x = y) -> l = l1 ++ l2.
Proof.
  intros L L1 L2 H1 H2. apply nth_error_same. intros i. destruct (Nat.lt_ge_cases i (length l)) as [Li|Li].
  2: { rewrite (proj2 (nth_error_None l i)), (proj2 (nth_error_None (l1 ++ l2) i)); [reflexivity | rewrite app_length; nia | exact Li]. }
  destruct (lt_nth_error l i Li) as (x & Ex). rewrite L in Li. assert (Hw : w <> 0) by (intros ->; rewrite Nat.mul_0_r in Li; lia).
  destruct (Nat.lt_ge_cases i (length l1)) as [L'|L'].
  - rewrite nth_error_app1 by exact L'. destruct (lt_nth_error l1 i L') as (y & Ey). rewrite Ex, Ey. f_equal. rewrite L1 in L'.
    apply (H1 (i / w) (i mod w)); try (rewrite Nat.mul_comm, <- Nat.div_mod by exact Hw; assumption); [apply Nat.div_lt_upper_bound; [exact Hw|lia] | now apply Nat.mod_upper_bound].
  - rewrite nth_error_app2 by exact L'. set (k := i - length l1). assert (Lk : k < n2 * w) by (unfold k; nia). destruct (lt_nth_error l2 k ltac:(rewrite L2; exact Lk)) as (y & Ey). rewrite Ex, Ey. f_equal.
    assert (Ek : k = k / w * w + k mod w) by (rewrite Nat.mul_comm; now apply Nat.div_mod).
    apply (H2 (k / w) (k mod w)); [apply Nat.div_lt_upper_bound; [exact Hw|lia] | now apply Nat.mod_upper_bound | | now rewrite <- Ek].
    replace ((n1 + k / w) * w + k mod w) with i; [exact Ex|]. rewrite Nat.mul_add_distr_r, <- Nat.add_assoc, <- Ek. unfold k. rewrite L1. rewrite L1 in L'. lia.
Qed.

Lemma same_place jids wb qs1 s1 q : (forall k, In k jids -> k < length jsorted) -> length jids <= length q ->
  (s1 = s \/ s1 = fold_left (fun s q => at_waypoint jids wb q s) qs1 s) -> at_waypoint jids wb q s1 = at_waypoint jids wb q s.
Proof.
  intros Hk L [->| ->]; [reflexivity|]. destruct (reached_Rep _ _ _ _ _ _ _ _ Hr) as [HR _]. apply waypoint_after; [exact L|]. intros k I. rewrite (angles_count _ _ _ _ _ _ _ _ HR). auto.
Qed.

Lemma fk_splits qs1 qs2 el jids rt (wb : bool) wj uc uc1 uc2 m' m1 m2 m3 P J P1 J1 P2 J2 :
  (wb || negb uc)%bool = true -> (wb || negb uc1)%bool = true -> (wb || negb uc2)%bool = true -> (forall k, In k jids -> k < length jsorted) ->
  (forall q, In q (qs1 ++ qs2) -> length q = length jids + (if wb then 6 else 0)) ->
  solve_forward_kinematics (qs1 ++ qs2) el jids rt wb wj uc m = (m', Ok (P, J)) ->
  solve_forward_kinematics qs1 el jids rt wb wj uc1 m = (m1, Ok (P1, J1)) ->
  moved_on jids wb qs1 m2 -> solve_forward_kinematics qs2 el jids rt wb wj uc2 m2 = (m3, Ok (P2, J2)) ->
  P = P1 ++ P2 /\ J = J1 ++ J2.
Proof.
  intros C C1 C2 Hk Lq X X1 (s1 & HR2 & Hs) X2. destruct (reached_Rep _ _ _ _ _ _ _ _ Hr) as [HR _].
  destruct (solve_fk_ok _ _ _ _ _ _ _ _ _ _ _ _ _ _ _ _ _ _ HR C Hk X) as ((ps & -> & Lp & Hp) & HJ & HZ).
  destruct (solve_fk_ok _ _ _ _ _ _ _ _ _ _ _ _ _ _ _ _ _ _ HR C1 Hk X1) as ((ps1 & -> & Lp1 & Hp1) & HJ1 & HZ1).
  destruct (solve_fk_ok _ _ _ _ _ _ _ _ _ _ _ _ _ _ _ _ _ _ HR2 C2 Hk X2) as ((ps2 & -> & Lp2 & Hp2) & HJ2 & HZ2).
  assert (SP : forall q, In q (qs1 ++ qs2) -> at_waypoint jids wb q s1 = at_waypoint jids wb q s) by (intros q I; apply (same_place jids wb qs1); auto; rewrite (Lq q I); lia).
  rewrite app_length in *. split.
  - rewrite <- map_app. f_equal. apply (split_rows (length el) (length qs1) (length qs2)); auto.
    + intros a b x y La Lb Ex Ey. destruct (Hp a b x ltac:(lia) Lb Ex) as (q & e & Eq & Ee & H). destruct (Hp1 a b y La Lb Ey) as (q' & e' & Eq' & Ee' & H').
      rewrite nth_error_app1 in Eq by exact La. assert (q' = q) by congruence. assert (e' = e) by congruence. subst.
      destruct (waypoint_Rep jids wb q Hk (Lq q ltac:(apply in_or_app; left; eapply nth_error_In; eauto))) as (mq & HRq). exact (named_pose_det _ _ _ _ _ _ _ _ HRq e x y H H').
    + intros a b x y La Lb Ex Ey. destruct (Hp (length qs1 + a) b x ltac:(lia) Lb Ex) as (q & e & Eq & Ee & H). destruct (Hp2 a b y La Lb Ey) as (q' & e' & Eq' & Ee' & H').
      rewrite nth_error_app2 in Eq by lia. replace (length qs1 + a - length qs1) with a in Eq by lia. assert (q' = q) by congruence. assert (e' = e) by congruence. subst.
      assert (I : In q (qs1 ++ qs2)) by (apply in_or_app; right; eapply nth_error_In; eauto). rewrite (SP q I) in H'.
      destruct (waypoint_Rep jids wb q Hk (Lq q I)) as (mq & HRq). exact (named_pose_det _ _ _ _ _ _ _ _ HRq e x y H H').
  - destruct wj.
    + destruct (HJ eq_refl) as (Bs & -> & LB & _ & HB). destruct (HJ1 eq_refl) as (Bs1 & -> & LB1 & _ & HB1). destruct (HJ2 eq_refl) as (Bs2 & -> & LB2 & _ & HB2).
      rewrite <- concat_app. f_equal. apply (split_rows (length el) (length qs1) (length qs2)); auto.
      * intros a b x y La Lb Ex Ey. destruct (HB a b x ltac:(lia) Lb Ex) as (q & e & Eq & Ee & H). destruct (HB1 a b y La Lb Ey) as (q' & e' & Eq' & Ee' & H').
        rewrite nth_error_app1 in Eq by exact La. assert (q' = q) by congruence. assert (e' = e) by congruence. subst.
        destruct (waypoint_Rep jids wb q Hk (Lq q ltac:(apply in_or_app; left; eapply nth_error_In; eauto))) as (mq & HRq). exact (named_jac_det _ _ _ _ _ _ _ _ HRq rt jids wb e x y Hk H H').
      * intros a b x y La Lb Ex Ey. destruct (HB (length qs1 + a) b x ltac:(lia) Lb Ex) as (q & e & Eq & Ee & H). destruct (HB2 a b y La Lb Ey) as (q' & e' & Eq' & Ee' & H').
        rewrite nth_error_app2 in Eq by lia. replace (length qs1 + a - length qs1) with a in Eq by lia. assert (q' = q) by congruence. assert (e' = e) by congruence. subst.
        assert (I : In q (qs1 ++ qs2)) by (apply in_or_app; right; eapply nth_error_In; eauto). rewrite (SP q I) in H'.
        destruct (waypoint_Rep jids wb q Hk (Lq q I)) as (mq & HRq). exact (named_jac_det _ _ _ _ _ _ _ _ HRq rt jids wb e x y Hk H H').
    + rewrite (HZ eq_refl), (HZ1 eq_refl), (HZ2 eq_refl). unfold mat_zero. rewrite <- repeat_app. f_equal. nia.
Qed.

Lemma dists_split qs1 qs2 ids1 ids2 jids (wb : bool) wg uc uc1 uc2 m' m1 m2 m3 D G D1 G1 D2 G2 :
  (wb || negb uc)%bool = true -> (wb || negb uc1)%bool = true -> (wb || negb uc2)%bool = true -> (forall k, In k jids -> k < length jsorted) ->
  (forall q, In q (qs1 ++ qs2) -> length q = length jids + (if wb then 6 else 0)) ->
  compute_inter_link_squared_dists (qs1 ++ qs2) ids1 ids2 jids wb wg uc m = (m', Ok (D, G)) ->
  compute_inter_link_squared_dists qs1 ids1 ids2 jids wb wg uc1 m = (m1, Ok (D1, G1)) ->
  moved_on jids wb qs1 m2 -> compute_inter_link_squared_dists qs2 ids1 ids2 jids wb wg uc2 m2 = (m3, Ok (D2, G2)) ->
  D = D1 ++ D2 /\ (wg = true -> G = G1 ++ G2).
Proof.
  intros C C1 C2 Hk Lq X X1 (s1 & HR2 & Hs) X2. destruct (reached_Rep _ _ _ _ _ _ _ _ Hr) as [HR _].
  destruct (sqdists_ok _ _ _ _ _ _ _ _ _ _ _ _ _ _ _ _ _ _ HR C Hk X) as (LD & HD & HG).
  destruct (sqdists_ok _ _ _ _ _ _ _ _ _ _ _ _ _ _ _ _ _ _ HR C1 Hk X1) as (LD1 & HD1 & HG1).
  destruct (sqdists_ok _ _ _ _ _ _ _ _ _ _ _ _ _ _ _ _ _ _ HR2 C2 Hk X2) as (LD2 & HD2 & HG2).
  assert (SP : forall q, In q (qs1 ++ qs2) -> at_waypoint jids wb q s1 = at_waypoint jids wb q s) by (intros q I; apply (same_place jids wb qs1); auto; rewrite (Lq q I); lia).
  assert (E1 : forall a q, nth_error qs1 a = Some q -> nth_error (qs1 ++ qs2) a = Some q) by (intros a q E; rewrite nth_error_app1 by (eapply nth_error_lt; eauto); exact E).
  assert (E2 : forall a q, nth_error qs2 a = Some q -> nth_error (qs1 ++ qs2) (length qs1 + a) = Some q) by (intros a q E; rewrite nth_error_app2 by lia; now replace (length qs1 + a - length qs1) with a by lia).
  rewrite app_length in *. split.
  - apply (split_rows (length ids1) (length qs1) (length qs2)); auto.
    + intros a b x y La Lb Ex Ey. destruct (lt_nth_error qs1 a La) as (q & Eq). destruct (lt_nth_error ids1 b Lb) as (e1 & Ee).
      destruct (HD a b q e1 (E1 _ _ Eq) Ee) as (e2 & d & F & Fd & H). destruct (HD1 a b q e1 Eq Ee) as (e2' & d' & F' & Fd' & H').
      assert (e2' = e2) by congruence. assert (d = x) by congruence. assert (d' = y) by congruence. subst.
      destruct (waypoint_Rep jids wb q Hk (Lq q (nth_error_In _ _ (E1 _ _ Eq)))) as (mq & HRq). exact (sqdist_det _ _ _ _ _ _ _ _ HRq e1 e2 x y H H').
    + intros a b x y La Lb Ex Ey. destruct (lt_nth_error qs2 a La) as (q & Eq). destruct (lt_nth_error ids1 b Lb) as (e1 & Ee).
      destruct (HD _ b q e1 (E2 _ _ Eq) Ee) as (e2 & d & F & Fd & H). destruct (HD2 a b q e1 Eq Ee) as (e2' & d' & F' & Fd' & H').
      assert (e2' = e2) by congruence. assert (d = x) by congruence. assert (d' = y) by congruence. subst. rewrite (SP q (nth_error_In _ _ (E2 _ _ Eq))) in H'.
      destruct (waypoint_Rep jids wb q Hk (Lq q (nth_error_In _ _ (E2 _ _ Eq)))) as (mq & HRq). exact (sqdist_det _ _ _ _ _ _ _ _ HRq e1 e2 x y H H').
  - intros W. destruct (HG W) as (LG & Hg). destruct (HG1 W) as (LG1 & Hg1). destruct (HG2 W) as (LG2 & Hg2).
    apply (split_rows (length ids1) (length qs1) (length qs2)); auto.
    + intros a b x y La Lb Ex Ey. destruct (lt_nth_error qs1 a La) as (q & Eq). destruct (lt_nth_error ids1 b Lb) as (e1 & Ee).
      destruct (Hg a b q e1 (E1 _ _ Eq) Ee) as (e2 & d & F & Fd & H). destruct (Hg1 a b q e1 Eq Ee) as (e2' & d' & F' & Fd' & H').
      assert (e2' = e2) by congruence. assert (d = x) by congruence. assert (d' = y) by congruence. subst.
      destruct (waypoint_Rep jids wb q Hk (Lq q (nth_error_In _ _ (E1 _ _ Eq)))) as (mq & HRq). exact (grad_det _ _ _ _ _ _ _ _ HRq jids wb e1 e2 x y Hk H H').
    + intros a b x y La Lb Ex Ey. destruct (lt_nth_error qs2 a La) as (q & Eq). destruct (lt_nth_error ids1 b Lb) as (e1 & Ee).
      destruct (Hg _ b q e1 (E2 _ _ Eq) Ee) as (e2 & d & F & Fd & H). destruct (Hg2 a b q e1 Eq Ee) as (e2' & d' & F' & Fd' & H').
      assert (e2' = e2) by congruence. assert (d = x) by congruence. assert (d' = y) by congruence. subst. rewrite (SP q (nth_error_In _ _ (E2 _ _ Eq))) in H'.
      destruct (waypoint_Rep jids wb q Hk (Lq q (nth_error_In _ _ (E2 _ _ Eq)))) as (mq & HRq). exact (grad_det _ _ _ _ _ _ _ _ HRq jids wb e1 e2 x y Hk H H').
Qed.

Lemma com_splits qs1 qs2 jids actions forces wj m' m1 m2 m3 P J P1 J1 P2 J2 :
  (forall k, In k jids -> k < length jsorted) -> (forall q, In q (qs1 ++ qs2) -> length q = length jids + 6) ->
  has_com (massive sorted) s ->
  solve_com_forward_kinematics (qs1 ++ qs2) jids actions forces true wj m = (m', Ok (P, J)) ->
  solve_com_forward_kinematics qs1 jids actions forces true wj m = (m1, Ok (P1, J1)) ->
  moved_on jids true qs1 m2 -> solve_com_forward_kinematics qs2 jids actions forces true wj m2 = (m3, Ok (P2, J2)) ->
  P = P1 ++ P2 /\ (wj = true -> J = J1 ++ J2).
Proof.
  intros Hk Lq HC X X1 (s1 & HR2 & Hs) X2. destruct (reached_Rep _ _ _ _ _ _ _ _ Hr) as [HR _].
  assert (HC1 : has_com (massive sorted) s1).
  { destruct Hs as [->| ->]; [exact HC|]. unfold has_com in *. clear - HC. revert HC. generalize s. induction qs1 as [|q qs IH]; intros t HC; [exact HC|]. cbn [fold_left]. apply IH. exact HC. }
  destruct (solve_com_ok _ _ _ _ _ _ _ _ _ _ _ _ _ _ _ _ HR HC Hk X) as ((ps & -> & Lp & Hp) & HJ).
  destruct (solve_com_ok _ _ _ _ _ _ _ _ _ _ _ _ _ _ _ _ HR HC Hk X1) as ((ps1 & -> & Lp1 & Hp1) & HJ1).
  destruct (solve_com_ok _ _ _ _ _ _ _ _ _ _ _ _ _ _ _ _ HR2 HC1 Hk X2) as ((ps2 & -> & Lp2 & Hp2) & HJ2).
  assert (SP : forall q, In q (qs1 ++ qs2) -> at_waypoint jids true q s1 = at_waypoint jids true q s) by (intros q I; apply (same_place jids true qs1); auto; rewrite (Lq q I); lia).
  assert (E1 : forall a q, nth_error qs1 a = Some q -> nth_error (qs1 ++ qs2) a = Some q) by (intros a q E; rewrite nth_error_app1 by (eapply nth_error_lt; eauto); exact E).
  assert (E2 : forall a q, nth_error qs2 a = Some q -> nth_error (qs1 ++ qs2) (length qs1 + a) = Some q) by (intros a q E; rewrite nth_error_app2 by lia; now replace (length qs1 + a - length qs1) with a by lia).
  assert (Det : forall q x y, In q (qs1 ++ qs2) ->
     (exists com ps, is_com R root jsorted (massive sorted) (at_waypoint jids true q s) com /\ Forall2 (named_pose R root sorted jsorted (at_waypoint jids true q s)) actions ps /\ x = forced_point (mass_sum (massive sorted)) com (combine forces (map position ps))) ->
     (exists com ps, is_com R root jsorted (massive sorted) (at_waypoint jids true q s) com /\ Forall2 (named_pose R root sorted jsorted (at_waypoint jids true q s)) actions ps /\ y = forced_point (mass_sum (massive sorted)) com (combine forces (map position ps))) -> x = y).
  { intros q x y I (c & l & Hc & Hl & ->) (c' & l' & Hc' & Hl' & ->). destruct (waypoint_Rep jids true q Hk (Lq q I)) as (mq & HRq).
    rewrite (com_det _ _ _ _ _ _ _ _ HRq _ _ Hc Hc'). assert (E : l = l'); [|now rewrite E]. refine (Forall2_det _ _ _ _ _ Hl Hl'). intros u v v'. apply (named_pose_det _ _ _ _ _ _ _ _ HRq). }
  rewrite app_length in *. split.
  - rewrite <- map_app. f_equal. apply (split_rows 1 (length qs1) (length qs2)); try lia.
    + intros a b x y La Lb Ex Ey. destruct (lt_nth_error qs1 a La) as (q & Eq). assert (b = 0) by lia. subst b. rewrite Nat.mul_1_r, Nat.add_0_r in Ex, Ey.
      exact (Det q x y (nth_error_In _ _ (E1 _ _ Eq)) (Hp a q x (E1 _ _ Eq) Ex) (Hp1 a q y Eq Ey)).
    + intros a b x y La Lb Ex Ey. destruct (lt_nth_error qs2 a La) as (q & Eq). assert (b = 0) by lia. subst b. rewrite Nat.mul_1_r, Nat.add_0_r in Ex, Ey.
      pose proof (Hp2 a q y Eq Ey) as H2. rewrite (SP q (nth_error_In _ _ (E2 _ _ Eq))) in H2.
      exact (Det q x y (nth_error_In _ _ (E2 _ _ Eq)) (Hp _ q x (E2 _ _ Eq) Ex) H2).
  - intros W. destruct (HJ W) as (Bs & -> & LB & _ & HB). destruct (HJ1 W) as (Bs1 & -> & LB1 & _ & HB1). destruct (HJ2 W) as (Bs2 & -> & LB2 & _ & HB2).
    rewrite <- concat_app. f_equal. apply (split_rows 1 (length qs1) (length qs2)); try lia.
    + intros a b x y La Lb Ex Ey. destruct (lt_nth_error qs1 a La) as (q & Eq). assert (b = 0) by lia. subst b. rewrite Nat.mul_1_r, Nat.add_0_r in Ex, Ey.
      destruct (waypoint_Rep jids true q Hk (Lq q (nth_error_In _ _ (E1 _ _ Eq)))) as (mq & HRq).
      exact (forced_jac_det _ _ _ _ _ _ _ _ HRq jids actions forces true x y Hk (HB a q x (E1 _ _ Eq) Ex) (HB1 a q y Eq Ey)).
    + intros a b x y La Lb Ex Ey. destruct (lt_nth_error qs2 a La) as (q & Eq). assert (b = 0) by lia. subst b. rewrite Nat.mul_1_r, Nat.add_0_r in Ex, Ey.
      pose proof (HB2 a q y Eq Ey) as H2. rewrite (SP q (nth_error_In _ _ (E2 _ _ Eq))) in H2.
      destruct (waypoint_Rep jids true q Hk (Lq q (nth_error_In _ _ (E2 _ _ Eq)))) as (mq & HRq).
      exact (forced_jac_det _ _ _ _ _ _ _ _ HRq jids actions forces true x y Hk (HB _ q x (E2 _ _ Eq) Ex) H2).
Qed.
End Reached.
End Batch.
