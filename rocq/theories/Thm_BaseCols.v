(** C79, C80: the base columns of the centre-of-mass Jacobian and of the gradient of
    inter-link squared distances, in exact arithmetic. *)
From Coq Require Import String List Arith Lia Bool Permutation Reals Lra.
From Verif Require Import Base Num Pose DataStructure Urdf Kin Wrapper Spec_Robot Spec_Hist Spec_Load Spec_Jac Spec_Mass Spec_Rot Spec_Body Spec_Deriv RealArith
  Pf_Base Pf_Data Inv Pf_FK Rep Pf_Ops Pf_Name Pf_Pose Pf_Reach Pf_Jac Pf_Real Pf_Rot Pf_Unit Pf_Body Pf_JacD Pf_BaseD Pf_ComD Pf_BaseC Ex_Robot Ex_Slider Ex_Wheel Thm_Real Thm_Deriv Thm_Grad.
Import ListNotations.
Local Open Scope m_scope.
Local Open Scope R_scope.

Lemma bodies_det tinyxml text R root sorted jsorted ops m : @reached RA tinyxml text R root sorted jsorted ops m ->
  forall W W', bodies R root jsorted (after sorted jsorted ops) W -> bodies R root jsorted (after sorted jsorted ops) W' -> W = W'.
Proof.
  intros Hr. destruct (reached_Rep _ _ _ _ _ _ _ _ Hr) as [HR _]. unfold bodies. generalize (massive (r_links R)). intros l W W' F. revert W'.
  induction F as [|ni [i P] l W (E & HP) F IH]; intros W' F'; inversion F' as [|? [i' P'] ? W1 (E' & HP') F1]; subst; [reflexivity|]. cbn [fst snd] in *.
  rewrite (IH W1 F1). f_equal. f_equal; [congruence|]. exact (rep_pose_det _ _ _ _ _ _ _ _ HR _ _ _ HP HP').
Qed.
Lemma bodies_total tinyxml text R root sorted jsorted ops m : @reached RA tinyxml text R root sorted jsorted ops m ->
  forall W, bodies R root jsorted (after sorted jsorted ops) W -> mass_of W = mass_sum (massive sorted).
Proof.
  intros Hr W HW. rewrite (bodies_mass _ _ _ _ _ HW), mass_sum_rsum. symmetry. apply rsum_perm. apply massive_perm, (ord_links _ _ _ (proj1 (proj2 Hr))).
Qed.

(** C79.  After any clean history, for the bodies [W] of the robot in its state: the three
    base translation columns are the identity and are derivatives of what get_com answers; and
    when the base was set from roll, pitch, yaw [v] with the sine of the pitch below 0.99999 in
    absolute value, the three base rotation columns differ from the derivatives by at most
    4e-7 times the mean distance of the bodies' centres from the base, weighted by the masses'
    absolute values. *)
Theorem C79_com_base_columns :
  forall tinyxml text R root sorted jsorted ops m,
    @reached RA tinyxml text R root sorted jsorted ops m -> clean ops = true -> unit_axes R -> unit_bases ops ->
    let B := as_base (after sorted jsorted ops) in
    forall jids m' J W, (forall k, In k jids -> (k < length (get_joint_names m))%nat) ->
      get_com_jacobian jids true m = (m', Ok J) -> bodies R root jsorted (after sorted jsorted ops) W -> mass_of W <> 0 ->
      forall b r, (b < 3)%nat -> (r < 3)%nat ->
        (forall C, (forall t, com_with_base m (mkPose (with_coord b t (position B)) (rotation B)) (C t)) ->
           entry J r (length jids + b) = (if Nat.eqb r b then 1 else 0) /\
           derivative_at (fun t => coord r (C t)) (coord b (position B)) (entry J r (length jids + b))) /\
        (forall pos v C, B = mkPose pos (from_rpy v) -> - (PI / 2) < vy v < PI / 2 -> Rabs (sin (vy v)) < 99999 / 100000 ->
           (forall t, com_with_base m (mkPose pos (from_rpy (with_coord b t v))) (C t)) ->
           exists d, derivative_at (fun t => coord r (C t)) (coord b v) d /\
             Rabs (entry J r (length jids + 3 + b) - d) <= 4 / 10000000 * (rsum (fun w => Rabs (bmass w) * dist3 (bpoint w) pos) W / Rabs (mass_of W))).
Proof.
  intros tinyxml text R root sorted jsorted ops m Hr Hc Hu Hb B jids m' J W Hk X HW HM b r Lb Lr. split.
  - intros C HC. destruct (com_shift _ _ _ _ _ _ _ _ Hr Hu Hb jids m' J C b r Hc Hk X Lb Lr HC) as (H1 & H2). split; [|exact H2].
    apply H1. now rewrite <- (bodies_total _ _ _ _ _ _ _ _ Hr W HW).
  - intros pos v C EB Hp Hs HC. destruct (com_turn _ _ _ _ _ _ _ _ Hr Hu Hb jids m' J C b r pos v Hc Hk X Lb Lr EB (conj Hp Hs) HC) as (d & W' & H1 & H2 & H3).
    rewrite (bodies_det _ _ _ _ _ _ _ _ Hr W' W H2 HW) in H3. exists d. split; [exact H1|].
    pose proof (Rabs_pos_lt _ HM) as PM. apply (Rmult_le_reg_l (Rabs (mass_of W))); [exact PM|]. eapply Rle_trans; [exact H3|].
    apply Req_le. field. lra.
Qed.
Print Assumptions C79_com_base_columns.

Lemma com_base_fun (m : @KM RA) (B : R -> Pose) : (forall t, exists m1 c, (set_base_pose (B t) ;;; get_com) m = (m1, Ok c)) ->
  exists C, forall t, com_with_base m (B t) (C t).
Proof.
  intros H. exists (fun t => match snd ((set_base_pose (B t) ;;; get_com) m) with Ok c => c | _ => v_clear end).
  intros t. destruct (H t) as (m1 & c & E). exists m1. rewrite E. reflexivity.
Qed.

Lemma bodies_ex tinyxml text R root sorted jsorted ops m : @reached RA tinyxml text R root sorted jsorted ops m ->
  exists W, bodies R root jsorted (after sorted jsorted ops) W.
Proof.
  intros Hr. destruct (reached_Rep _ _ _ _ _ _ _ _ Hr) as [HR _]. pose proof (massive_link _ _ _ _ _ _ _ _ Hr) as ML.
  pose proof (massive_perm _ _ (ord_links _ _ _ (proj1 (proj2 Hr)))) as MP. unfold bodies.
  assert (ML' : forall n i, In (n, i) (massive (r_links R)) -> In n (all_links sorted (after sorted jsorted ops))) by (intros n i I; apply (ML n i), (Permutation_in _ (Permutation_sym MP)), I).
  clear ML MP. revert ML'. generalize (massive (r_links R)). intros l ML.
  induction l as [|[n i] l IH]; [exists []; constructor|]. destruct IH as (W & F); [intros n' i' I; apply (ML n' i'); now right|].
  destruct (rep_pose_ex _ _ _ _ _ _ _ _ HR n (ML n i (or_introl eq_refl))) as (P & HP). exists ((i, P) :: W). constructor; auto.
Qed.

Lemma pitch_one : - (PI / 2) < 1 < PI / 2 /\ Rabs (sin 1) < 99999 / 100000.
Proof.
  pose proof PI2_3_2. split; [lra|]. rewrite Rabs_pos_eq by (apply sin_ge_0; lra). pose proof (sin2_cos2 1) as Q. unfold Rsqr in Q.
  assert (C : 1 / 4 < cos 1) by (destruct (cos_poly 1 ltac:(lra)) as [C _]; lra). assert (S : 0 <= sin 1) by (apply sin_ge_0; lra). nra.
Qed.

(** the slider, two bodies of mass 1, its base at roll, pitch, yaw 5, 1, 7 *)
Example C79_example : let v := @V3 RA 5 1 7 in exists m W, reached sl_tinyxml ex_text sl_R "base" sl_sorted sl_jsorted (sl_turned v) m /\ clean (sl_turned v) = true /\
  unit_axes sl_R /\ unit_bases (sl_turned v) /\ (exists m' J, get_com_jacobian [0]%nat true m = (m', Ok J)) /\
  bodies sl_R "base" sl_jsorted (after sl_sorted sl_jsorted (sl_turned v)) W /\ mass_of W = 2 /\
  (forall b, exists C, forall t, let B := as_base (after sl_sorted sl_jsorted (sl_turned v)) in com_with_base m (mkPose (with_coord b t (position B)) (rotation B)) (C t)) /\
  as_base (after sl_sorted sl_jsorted (sl_turned v)) = mkPose v_clear (from_rpy v) /\ - (PI / 2) < vy v < PI / 2 /\ Rabs (sin (vy v)) < 99999 / 100000 /\
  (forall b, exists C, forall t, com_with_base m (mkPose v_clear (from_rpy (with_coord b t v))) (C t)).
Proof.
  intros v. assert (X : exists m, run (sl_turned v) sl_m0 = Some m).
  { unfold sl_turned. generalize (mkPose v_clear (from_rpy v)). intros B0. apply is_some_ex. vm_compute. reflexivity. }
  destruct X as (m & E). pose proof (sl_reached _ _ E) as Hr. destruct (bodies_ex _ _ _ _ _ _ _ _ Hr) as (W & HW). exists m, W.
  assert (CB : forall B, exists m1 c, (set_base_pose B ;;; get_com) m = (m1, Ok c)).
  { intros B. apply (answer_at sl_m0 _ _ m E). unfold sl_turned. generalize (mkPose v_clear (from_rpy v)). intros B0. vm_compute. reflexivity. }
  split; [exact Hr|]. split; [reflexivity|]. split; [exact sl_unit|]. split; [apply sl_turned_bases|].
  split. { apply (answer_at sl_m0 _ _ m E). unfold sl_turned. generalize (mkPose v_clear (from_rpy v)). intros B0. vm_compute. reflexivity. }
  split; [exact HW|]. split.
  { rewrite (bodies_mass _ _ _ _ _ HW), sl_links_are. cbn [massive flat_map app rsum fold_right snd]. rewrite sl_i_mass. rnum. lra. }
  split; [intros b; apply com_base_fun; intros t; apply CB|]. split; [now rewrite sl_turned_after|].
  split; [exact (proj1 pitch_one)|]. split; [exact (proj2 pitch_one)|]. intros b. apply com_base_fun; intros t; apply CB.
Qed.

(** C80.  A waypoint is the joints' values followed by the base's x, y, z, roll, pitch, yaw.
    After any history: whatever the base coordinates of a waypoint, the squared distance
    reported for a pair of links is the same; the gradient's three translation columns are 0;
    and if the sine of the waypoint's pitch is below 0.99999 in absolute value its three
    rotation columns are at most 16e-7 times the distance of the two links times the sum of
    their distances from the base. *)
Theorem C80_distance_base_columns :
  forall tinyxml text R root sorted jsorted ops m,
    @reached RA tinyxml text R root sorted jsorted ops m -> unit_axes R -> unit_bases ops ->
    forall (qs : list (list (@num RA))) ids1 ids2 jids (uc : bool) m' D G,
      (forall k, In k jids -> (k < length (get_joint_names m))%nat) ->
      (forall q, In q qs -> length q = (length jids + 6)%nat) ->
      compute_inter_link_squared_dists qs ids1 ids2 jids true true uc m = (m', Ok (D, G)) ->
      forall a b q e1 e2 n1 n2 P1 P2, nth_error qs a = Some q -> nth_error ids1 b = Some e1 -> nth_error ids2 b = Some e2 ->
        nth_error (get_link_names m) e1 = Some n1 -> nth_error (get_link_names m) e2 = Some n2 ->
        let s := at_waypoint jids true q (after sorted jsorted ops) in
        pose_at R root jsorted s n1 P1 -> pose_at R root jsorted s n2 P2 ->
        (forall c x d, (length jids <= c < length jids + 6)%nat -> nth_error q c = Some x ->
           (forall t, sqdist_with m jids true uc e1 e2 (list_set q c t) (d t)) -> forall t, d t = d x) /\
        (forall k, (k < 3)%nat -> entry G (a * length ids1 + b) (length jids + k) = 0) /\
        (forall k, (k < 3)%nat -> let pitch := nth (length jids + 4) q 0 in
           - (PI / 2) < pitch < PI / 2 -> Rabs (sin pitch) < 99999 / 100000 ->
           Rabs (entry G (a * length ids1 + b) (length jids + 3 + k)) <=
             16 / 10000000 * dist3 (position P1) (position P2) * (dist3 (position P1) (position (as_base s)) + dist3 (position P2) (position (as_base s)))).
Proof.
  intros tinyxml text R root sorted jsorted ops m Hr Hu Hb qs ids1 ids2 jids uc m' D G Hk Hq X a b q e1 e2 n1 n2 P1 P2 Eq E1 E2 N1 N2 s H1 H2.
  destruct (reached_Rep _ _ _ _ _ _ _ _ Hr) as [HR _]. rewrite (rep_all_links _ _ _ _ _ _ _ _ HR) in N1, N2.
  destruct (base_gradient _ _ _ _ _ _ _ _ Hr Hu Hb qs ids1 ids2 jids uc m' D G a b q e1 e2 n1 n2 P1 P2 Hk Hq X Eq E1 E2 N1 N2 H1 H2) as (K1 & K2 & K3).
  split; [exact K1|]. split; [exact K2|]. intros k Lk pitch Hp Hs. specialize (K3 k Lk Hp Hs).
  assert (EB : as_base s = pose6 (skipn (length jids) q)).
  { unfold s, at_waypoint. cbn [as_base]. rewrite (Hq q (nth_error_In _ _ Eq)). now replace (length jids + 6 - 6)%nat with (length jids) by lia. }
  rewrite EB. exact K3.
Qed.
Print Assumptions C80_distance_base_columns.

(** tool and first link of the example, at a waypoint with base (1, 2, 3; 5, 1, 7) *)
Example C80_example : let q := [1; 2; 1; 2; 3; 5; 1; 7] in
  exists m, reached ex_tinyxml ex_text ex_R "base" ex_sorted ex_jsorted ex_ops m /\ unit_axes ex_R /\ unit_bases ex_ops /\
  (exists m' r, @compute_inter_link_squared_dists RA [[0; 1; 0; 0; 0; 0; 0; 0]; q] [2; 3]%nat [0; 1]%nat [1; 0]%nat true true true m = (m', Ok r)) /\
  nth_error (get_link_names m) 3 = Some "tool"%string /\ nth_error (get_link_names m) 1 = Some "l1"%string /\
  (exists P1 P2, pose_at ex_R "base" ex_jsorted (at_waypoint (A := RA) [1; 0]%nat true q (after ex_sorted ex_jsorted ex_ops)) "tool" P1 /\
                 pose_at ex_R "base" ex_jsorted (at_waypoint (A := RA) [1; 0]%nat true q (after ex_sorted ex_jsorted ex_ops)) "l1" P2) /\
  (forall c, (2 <= c < 8)%nat -> exists d, forall t, sqdist_with m [1; 0]%nat true true 3 1 (list_set q c t) (d t)) /\
  - (PI / 2) < nth (2 + 4) q 0 < PI / 2 /\ Rabs (sin (nth (2 + 4) q 0)) < 99999 / 100000.
Proof.
  intros q. destruct ex_run as (m & E). exists m. pose proof (ex_reached _ _ E) as Hr. split; [exact Hr|]. split; [exact ex_unit_axes|]. split; [exact ex_unit_bases|].
  split; [apply (observe_answer ex_ops (@compute_inter_link_squared_dists RA [[0; 1; 0; 0; 0; 0; 0; 0]; q] [2; 3]%nat [0; 1]%nat [1; 0]%nat true true true) m E); vm_compute; reflexivity|].
  destruct (reached_Rep _ _ _ _ _ _ _ _ Hr) as [HR _].
  split; [rewrite (rep_all_links _ _ _ _ _ _ _ _ HR); reflexivity|]. split; [rewrite (rep_all_links _ _ _ _ _ _ _ _ HR); reflexivity|].
  split.
  { destruct (waypoint_reached _ _ _ _ _ _ _ _ Hr [1; 0]%nat true q) as (m1 & Hr1 & Ea); [intros k [<-|[<-|[]]]; simpl; lia|reflexivity|].
    destruct (reached_Rep _ _ _ _ _ _ _ _ Hr1) as [HR1 _]. rewrite <- Ea.
    assert (AL : forall n, In n ["base"; "l1"; "l2"; "tool"]%string -> In n (all_links ex_sorted (after ex_sorted ex_jsorted (ex_ops ++ setters [1; 0]%nat true q)))).
    { intros n I. rewrite Ea. apply in_app_iff. left. exact I. }
    destruct (rep_pose_ex _ _ _ _ _ _ _ _ HR1 "tool"%string (AL _ ltac:(right; right; right; left; reflexivity))) as (P1 & H1).
    destruct (rep_pose_ex _ _ _ _ _ _ _ _ HR1 "l1"%string (AL _ ltac:(right; left; reflexivity))) as (P2 & H2). exists P1, P2. split; assumption. }
  split; [|exact pitch_one].
  intros c Lc. apply dist_fun. intros t.
  destruct (observe_answer ex_ops (r <- @compute_inter_link_squared_dists RA [list_set q c t] [3]%nat [1]%nat [1; 0]%nat true false true ;; (match fst r with [d] => ret d | _ => throw InvalidArgument end)) m E) as (m1 & d & X).
  { assert (C : c = 2%nat \/ c = 3%nat \/ c = 4%nat \/ c = 5%nat \/ c = 6%nat \/ c = 7%nat) by lia. destruct C as [->|[->|[->|[->|[->| ->]]]]]; vm_compute; reflexivity. }
  exists m1, d. apply bind_inv_ok in X. destruct X as (m2 & [D G] & X & X2). cbn [fst] in X2. destruct D as [|d' [|d2 D]]; try discriminate X2. inversion X2; subst.
  rewrite (bind_ok _ _ _ _ _ X). reflexivity.
Qed.
