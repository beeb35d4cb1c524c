(** C76, C77: the same program in rounded and in exact arithmetic. *)
From Coq Require Import QArith Qreals String List Arith Lia Bool Permutation Reals Lra.
From Verif Require Import Base Num Pose DataStructure Urdf Kin Wrapper Decimal RealArith FloatArith Ieee
  Spec_Robot Spec_Hist Spec_Load Spec_Jac Spec_Float
  Pf_Data Rep Pf_Ops Pf_Jac Pf_Pose Pf_Reach Pf_Real Pf_Float1 Pf_Float2 Pf_Float3 Pf_Float4 Pf_Float5 Thm_Pose Thm_Fk Ex_Robot Ex_Float.
Import ListNotations.
Local Open Scope R_scope.

Lemma small_unit u A (D : nat) : 0 <= u -> 0 <= A -> 4000000 * u * (1 + A) * (INR D + 1) <= 1 -> 0 <= u <= / 1000 /\ unit_err u A <= / 10000.
Proof.
  intros U0 A0 B. pose proof (pos_INR D) as D0. unfold unit_err. assert (P : 0 <= u * (1 + A)) by (apply Rmult_le_pos; lra).
  assert (X : u * (1 + A) * INR D >= 0) by (apply Rle_ge, Rmult_le_pos; lra). assert (Y : 0 <= u * A) by (apply Rmult_le_pos; lra). lra.
Qed.

(** what the two runs have in common *)
Lemma runs_both_full o u tinyxml text top E root sorted jsorted ops' m' A L (D : nat) m0 ops m :
  accurate o u -> 0 <= u -> 0 <= A -> 1 <= L -> 4000000 * u * (1 + A) * (INR D + 1) <= 1 ->
  @reached RA tinyxml text E root sorted jsorted ops' m' -> tinyxml text = Some top -> moderate A L top E ->
  @ctor (FA o) tinyxml text = Ok m0 -> Forall2 (same_call o (1000 * u * (1 + A)) A L) ops ops' -> run ops m0 = Some m ->
  exists R so jso, @reached (FA o) tinyxml text R root so jso ops m /\
    Forall2 (joint_near o (1000 * unit_err u A) L) (r_joints R) (r_joints E) /\ jnames jso = jnames jsorted /\
    map fst so = map fst sorted /\ Forall2 (link_near o u A L) so sorted /\
    state_near o u A L (after so jso ops) (after sorted jsorted ops').
Proof.
  intros Hacc U0 A0 L1 B Hr Et M C F Er. destruct (small_unit u A D U0 A0 B) as [Hu Hw]. destruct Hr as (Ld & O & _).
  destruct (load_both o u Hacc Hu A L A0 L1 Hw tinyxml text top E root Et Ld M) as (R & LdR & HJ & HK).
  destruct (load_Rep _ _ _ _ LdR) as (so & jso & m1 & OR & Em1 & _ & _). exists R, so, jso.
  split; [split; [exact LdR|]; split; [exact OR|]; exists m0; now split|]. split; [exact HJ|].
  pose proof (jnames_both o u A L R E HJ so sorted jso jsorted OR O) as EJ. split; [exact EJ|].
  pose proof (sorted_both o u A L R E HK so sorted (ord_links _ _ _ OR) (ord_links_lt _ _ _ OR) (ord_links _ _ _ O) (ord_links_lt _ _ _ O)) as HS.
  assert (Es : map fst so = map fst sorted) by (apply (Forall2_map_eq _ _ _ _ _ (fun a b H => proj1 H) HS)). split; [exact Es|]. split; [exact HS|].
  unfold after. rewrite Es. replace (1000 * u * (1 + A)) with (1000 * unit_err u A) in F by (unfold unit_err; ring).
  apply run_near; auto. apply initial_near; auto. intros n i I. apply (md_masses _ _ _ _ M n i). eapply Permutation_in; [apply O|exact I].
Qed.

Lemma runs_both o u tinyxml text top E root sorted jsorted ops' m' A L (D : nat) m0 ops m :
  accurate o u -> 0 <= u -> 0 <= A -> 1 <= L -> 4000000 * u * (1 + A) * (INR D + 1) <= 1 ->
  @reached RA tinyxml text E root sorted jsorted ops' m' -> tinyxml text = Some top -> moderate A L top E ->
  @ctor (FA o) tinyxml text = Ok m0 -> Forall2 (same_call o (1000 * u * (1 + A)) A L) ops ops' -> run ops m0 = Some m ->
  exists R so jso, @reached (FA o) tinyxml text R root so jso ops m /\
    Forall2 (joint_near o (1000 * unit_err u A) L) (r_joints R) (r_joints E) /\ jnames jso = jnames jsorted /\
    map fst so = map fst sorted /\
    state_near o u A L (after so jso ops) (after sorted jsorted ops').
Proof.
  intros Hacc U0 A0 L1 B Hr Et M C F Er.
  destruct (runs_both_full o u _ _ _ _ _ _ _ _ _ _ _ D _ _ _ Hacc U0 A0 L1 B Hr Et M C F Er) as (R & so & jso & H1 & H2 & H3 & H4 & _ & H5). eauto 8.
Qed.

(** C76.  A program that rounds every operation with relative and absolute error at most [u]
    loads a document that loads exactly; after the same calls it has the same links, and every
    pose it reports is near the exact one: the error of the rotation grows at most linearly in
    the number of joints above the link, the error of the position quadratically.  [A] bounds
    all angles, [L] all lengths, [D] the number of joints above a link. *)
Theorem C76_rounded_poses :
  forall (o : Ops) (u : R), accurate o u -> 0 <= u ->
  forall tinyxml text top E root sorted jsorted ops' m',
    @reached RA tinyxml text E root sorted jsorted ops' m' -> clean ops' = true -> tinyxml text = Some top ->
    let s' := after sorted jsorted ops' in
  forall A L D, 0 <= A -> 1 <= L -> moderate A L top E ->
    within_range A L (r_joints E) (by_name (jnames jsorted) (as_angles s')) ->
    (forall n d, levels (r_joints E) root (as_added s') n d -> (d <= D)%nat) ->
    4000000 * u * (1 + A) * (INR D + 1) <= 1 ->
    (exists m0, @ctor (FA o) tinyxml text = Ok m0) /\
    forall m0 ops m, @ctor (FA o) tinyxml text = Ok m0 ->
      Forall2 (same_call o (1000 * u * (1 + A)) A L) ops ops' -> run ops m0 = Some m ->
      get_link_names m = get_link_names m' /\
      forall i m1 P m2 P', (i < length (get_link_names m'))%nat ->
        get_link_pose i m = (m1, Ok P) -> get_link_pose i m' = (m2, Ok P') ->
        qdist o (rotation P) (rotation P') <= 150000 * u * (1 + A) * (INR D + 1) /\
        vdist o (position P) (position P') <= 4000000 * u * (1 + A) * L * (INR D + 1) ^ 2.
Proof.
  intros o u Hacc U0 tinyxml text top E root sorted jsorted ops' m' Hr Hc Et s' A L D A0 L1 M W HD B.
  destruct (small_unit u A D U0 A0 B) as [Hu Hw]. split.
  - destruct (load_both o u Hacc Hu A L A0 L1 Hw tinyxml text top E root Et (proj1 Hr) M) as (R & LdR & _ & _).
    destruct (load_Rep _ _ _ _ LdR) as (so & jso & m1 & OR & Em1 & _ & _). eauto.
  - intros m0 ops m C F Er.
    destruct (runs_both o u _ _ _ _ _ _ _ _ _ _ _ D _ _ _ Hacc U0 A0 L1 B Hr Et M C F Er) as (R & so & jso & Hx & HJ & EJ & Es & S).
    fold s' in S. assert (Hcx : clean ops = true) by (rewrite (clean_both _ _ _ _ _ _ F); exact Hc).
    destruct (C01_link_pose_is_chain_product (FA o) _ _ _ _ _ _ _ _ Hx Hcx) as (N1 & _ & P1).
    destruct (C01_link_pose_is_chain_product RA _ _ _ _ _ _ _ _ Hr Hc) as (N2 & Ex2 & P2).
    assert (EN : all_links so (after so jso ops) = all_links sorted s').
    { unfold all_links. rewrite Es. f_equal. apply (frames_names o u A L), S. }
    split; [rewrite N1, N2; exact EN|]. intros i m1 P m2 P' Hi X1 X2. rewrite N2 in Hi. fold s' in Hi.
    destruct (nth_error (all_links sorted s') i) as [n|] eqn:En; [|apply nth_error_None in En; lia].
    destruct (P2 i n En) as [Q2 _]. specialize (Q2 _ _ X2). rewrite EN in P1. destruct (P1 i n En) as [Q1 _]. specialize (Q1 _ _ X1).
    destruct (pose_both o u Hacc Hu A L A0 L1 Hw R E root jso jsorted _ s' D n P HJ EJ S W HD B Q1) as (P'' & H1 & H2 & H3).
    destruct (Ex2 n (nth_error_In _ _ En)) as (P0 & _ & Uq). rewrite <- (Uq _ Q2), (Uq _ H1). now split.
Qed.
Print Assumptions C76_rounded_poses.

Lemma way_det tinyxml text E root sorted jsorted ops m jids wb q n P1 P2 :
  @reached RA tinyxml text E root sorted jsorted ops m ->
  pose_at E root jsorted (at_waypoint (A := RA) jids wb q (after sorted jsorted ops)) n P1 ->
  pose_at E root jsorted (at_waypoint (A := RA) jids wb q (after sorted jsorted ops)) n P2 -> P1 = P2.
Proof.
  intros Hr. destruct (reached_Rep _ _ _ _ _ _ _ _ Hr) as [H _].
  pose proof (Rep_conf _ _ _ _ _ _ _ m (assign jids q (joint_angles m)) (if wb then pose6 (skipn (length q - 6) q) else base_pose m) H (assign_length _ _ _)) as H1.
  rewrite (rep_angles _ _ _ _ _ _ _ _ H), (rep_base _ _ _ _ _ _ _ _ H) in H1. intros A1 A2. exact (rep_pose_det _ _ _ _ _ _ _ _ H1 n P1 P2 A1 A2).
Qed.

Lemma sq_le x s : x ^ 2 <= s -> Rabs x <= sqrt s.
Proof. intros H. rewrite <- (sqrt_pow2 (Rabs x) (Rabs_pos x)). apply sqrt_le_1_alt. rewrite pow2_abs. exact H. Qed.

Lemma vdist_part o (a : @Vector3 (FA o)) (b : @Vector3 RA) : Rabs (vx a - vx b) <= vdist o a b /\ Rabs (vy a - vy b) <= vdist o a b /\ Rabs (vz a - vz b) <= vdist o a b.
Proof.
  unfold vdist. pose proof (pow2_ge_0 (vx a - vx b)). pose proof (pow2_ge_0 (vy a - vy b)). pose proof (pow2_ge_0 (vz a - vz b)).
  repeat split; apply sq_le; lra.
Qed.
Lemma qdist_part o (a : @Rotation (FA o)) (b : @Rotation RA) : Rabs (qx a - qx b) <= qdist o a b /\ Rabs (qy a - qy b) <= qdist o a b /\ Rabs (qz a - qz b) <= qdist o a b /\ Rabs (qw a - qw b) <= qdist o a b.
Proof.
  unfold qdist. pose proof (pow2_ge_0 (qx a - qx b)). pose proof (pow2_ge_0 (qy a - qy b)). pose proof (pow2_ge_0 (qz a - qz b)). pose proof (pow2_ge_0 (qw a - qw b)).
  repeat split; apply sq_le; lra.
Qed.

(** C76 for solve_fk: each reported position, and each reported quaternion, is near the exact
    one.  (Roll, pitch and yaw are not continuous functions of the pose.) *)
Theorem C76_rounded_waypoints :
  forall (o : Ops) (u : R), accurate o u -> 0 <= u ->
  forall tinyxml text top E root sorted jsorted ops' m',
    @reached RA tinyxml text E root sorted jsorted ops' m' -> tinyxml text = Some top ->
    let s' := after sorted jsorted ops' in
  forall A L D, 0 <= A -> 1 <= L -> moderate A L top E ->
    (forall n d, levels (r_joints E) root (as_added s') n d -> (d <= D)%nat) ->
    4000000 * u * (1 + A) * (INR D + 1) <= 1 ->
  forall m0 ops m, @ctor (FA o) tinyxml text = Ok m0 ->
    Forall2 (same_call o (1000 * u * (1 + A)) A L) ops ops' -> run ops m0 = Some m ->
  forall (qs : list (list R)) elinks jids rt wb wj m1 P J m2 P' J',
    (forall k, In k jids -> (k < length (get_joint_names m'))%nat) -> bases_within A L wb qs ->
    (forall q, In q qs -> within_range A L (r_joints E) (by_name (jnames jsorted) (as_angles (at_waypoint (A := RA) jids wb q s')))) ->
    @solve_forward_kinematics (FA o) qs elinks jids rt wb wj false m = (m1, Ok (P, J)) ->
    @solve_forward_kinematics RA qs elinks jids rt wb wj false m' = (m2, Ok (P', J')) ->
    forall a b i, (a < length qs)%nat -> nth_error elinks b = Some i -> (i < length (get_link_names m'))%nat ->
    exists row row', nth_error P (a * length elinks + b) = Some row /\ nth_error P' (a * length elinks + b) = Some row' /\
      forall k x x', nth_error row k = Some x -> nth_error row' k = Some x' ->
        ((k < 3)%nat -> Rabs (x - x') <= 4000000 * u * (1 + A) * L * (INR D + 1) ^ 2) /\
        ((3 <= k)%nat -> rt = XYZW -> Rabs (x - x') <= 150000 * u * (1 + A) * (INR D + 1)).
Proof.
  intros o u Hacc U0 tinyxml text top E root sorted jsorted ops' m' Hr Et s' A L D A0 L1 M HD B m0 ops m C F Er
    qs elinks jids rt wb wj m1 P J m2 P' J' Hk Hb W X1 X2 a b i Ha Eb Hi.
  destruct (small_unit u A D U0 A0 B) as [Hu Hw].
  destruct (runs_both o u _ _ _ _ _ _ _ _ _ _ _ D _ _ _ Hacc U0 A0 L1 B Hr Et M C F Er) as (R & so & jso & Hx & HJ & EJ & Es & S). fold s' in S.
  assert (EN : all_links so (after so jso ops) = all_links sorted s').
  { unfold all_links. rewrite Es. f_equal. apply (frames_names o u A L), S. }
  destruct (reached_Rep _ _ _ _ _ _ _ _ Hx) as [HR1 _]. destruct (reached_Rep _ _ _ _ _ _ _ _ Hr) as [HR2 _].
  assert (Hk1 : forall k, In k jids -> (k < length (get_joint_names m))%nat).
  { intros k I. specialize (Hk k I). rewrite (rep_joint_count _ _ _ _ _ _ _ _ HR1). rewrite (rep_joint_count _ _ _ _ _ _ _ _ HR2) in Hk.
    apply (f_equal (@length string)) in EJ. unfold jnames in EJ. rewrite !map_length in EJ. rewrite EJ. exact Hk. }
  destruct (@fk_values (FA o) _ _ _ _ _ _ _ _ qs elinks jids rt wb wj false _ _ _ Hx (orb_true_r wb) Hk1 X1) as [_ V1].
  destruct (@fk_values RA _ _ _ _ _ _ _ _ qs elinks jids rt wb wj false _ _ _ Hr (orb_true_r wb) Hk X2) as [_ V2].
  rewrite (rep_all_links _ _ _ _ _ _ _ _ HR1), EN in V1. rewrite (rep_all_links _ _ _ _ _ _ _ _ HR2) in V2, Hi. fold s' in V2, Hi.
  destruct (nth_error qs a) as [q|] eqn:Eq; [|apply nth_error_None in Eq; lia].
  destruct (nth_error (all_links sorted s') i) as [n|] eqn:En; [|apply nth_error_None in En; lia].
  destruct (V1 a b q i n Eq Eb En) as [(Q1 & HQ1 & R1) _]. destruct (V2 a b q i n Eq Eb En) as [(Q2 & HQ2 & R2) _].
  assert (Iq : In q qs) by (eapply nth_error_In; eauto).
  assert (Sw : state_near o u A L (@at_waypoint (FA o) jids wb q (after so jso ops)) (@at_waypoint RA jids wb q s')).
  { apply way_near; auto. }
  destruct (pose_both o u Hacc Hu A L A0 L1 Hw R E root jso jsorted _ _ D n Q1 HJ EJ Sw (W q Iq) HD B HQ1) as (Q & H1 & H2 & H3).
  rewrite (way_det _ _ _ _ _ _ _ _ _ _ _ _ _ _ Hr H1 HQ2) in H2, H3.
  exists (link_row rt Q1), (link_row rt Q2). split; [exact R1|]. split; [exact R2|].
  destruct (vdist_part o (position Q1) (position Q2)) as (D1 & D2 & D3). destruct (qdist_part o (rotation Q1) (rotation Q2)) as (D4 & D5 & D6 & D7).
  intros k x x' Kx Kx'. split.
  - intros K. assert (K' : k = 0%nat \/ k = 1%nat \/ k = 2%nat) by lia.
    destruct K' as [-> | [-> | ->]]; cbn in Kx, Kx'; injection Kx as <-; injection Kx' as <-; lra.
  - intros K ->. assert (K' : (k = 3 \/ k = 4 \/ k = 5 \/ k = 6 \/ 7 <= k)%nat) by lia.
    destruct K' as [-> | [-> | [-> | [-> | K7]]]].
    1-4: cbn in Kx, Kx'; injection Kx as <-; injection Kx' as <-; lra.
    exfalso. assert (X : (k < length (link_row XYZW Q1))%nat) by (apply nth_error_Some; rewrite Kx; discriminate). cbn in X. lia.
Qed.
Print Assumptions C76_rounded_waypoints.

(** both theorems apply to doubles and the example robot, turned, moved and with a camera *)
Example C76_example :
  accurate doubles double_unit /\ moderate 2 2 fl_top fl_R /\ clean fl_exact = true /\
  (forall n d, levels (r_joints fl_R) "base" (as_added fl_s) n d -> (d <= 3)%nat) /\
  within_range 2 2 (r_joints fl_R) (by_name (jnames fl_jsorted) (as_angles fl_s)) /\
  4000000 * double_unit * (1 + 2) * (INR 3 + 1) <= 1 /\
  (exists m', reached fl_tinyxml ex_text fl_R "base" fl_sorted fl_jsorted fl_exact m' /\
     (forall i, (i < 5)%nat -> exists m2 P', get_link_pose i m' = (m2, Ok P')) /\
     exists m2 P' J', solve_forward_kinematics fl_qs [4; 2]%nat [0; 1]%nat XYZW true true false m' = (m2, Ok (P', J'))) /\
  (exists m0 m, @ctor (FA doubles) fl_tinyxml ex_text = Ok m0 /\ run (fl_rounded doubles) m0 = Some m /\
     Forall2 (same_call doubles (1000 * double_unit * (1 + 2)) 2 2) (fl_rounded doubles) fl_exact /\
     (forall i, (i < 5)%nat -> exists m1 P, get_link_pose i m = (m1, Ok P)) /\
     exists m1 P J, @solve_forward_kinematics (FA doubles) fl_qs [4; 2]%nat [0; 1]%nat XYZW true true false m = (m1, Ok (P, J))) /\
  bases_within 2 2 true fl_qs /\
  (forall q, In q fl_qs -> within_range 2 2 (r_joints fl_R) (by_name (jnames fl_jsorted) (as_angles (at_waypoint (A := RA) [0; 1]%nat true q fl_s)))).
Proof.
  split; [exact doubles_accurate|]. split; [exact fl_moderate|]. split; [reflexivity|]. split; [exact fl_levels3|].
  split. { apply fl_within; rewrite fl_angles; [|reflexivity]. intros x [<-|[<-|[]]]; apply Rabs_le; lra. }
  split; [exact fl_small|]. split; [|split; [|split; [exact fl_bases | exact fl_ways]]].
  - exact fl_exact_runs.
  - destruct (@fl_check_ok (FA doubles) _ _ (fl_check_rounded double_round)) as (m0 & m & C & Er & H1 & H2). exists m0, m.
    split; [exact C|]. split; [exact Er|]. split; [apply fl_same|]. split; [exact H1|exact H2].
Qed.

(** C77.  Rounded reading: the same documents are accepted, and if the document's angles and
    lengths are moderate, joints and axes are near the exact ones. *)
Theorem C77_rounded_reading :
  forall (o : Ops) (u : R), accurate o u -> 0 <= u <= / 10000 ->
  forall top,
    ((exists R, @describes (FA o) top R) <-> (exists E, @describes RA top E)) /\
    forall R E A L, @describes (FA o) top R -> 0 <= A -> 1 <= L -> 10000 * u * (1 + A) <= 1 ->
      moderate A L top E ->
      map fst (r_links R) = map fst (r_links E) /\
      Forall2 (joint_near o (1000 * u * (1 + A)) L) (r_joints R) (r_joints E).
Proof.
  intros o u Hacc Hu0 top. assert (Hu : 0 <= u <= / 1000) by lra. split.
  - eapply (read_both o u Hacc Hu 0 1); unfold unit_err; try lra.
  - intros R E A L HR A0 L1 B M. assert (Hw : unit_err u A <= / 10000) by (unfold unit_err; lra).
    destruct (moderate_near o u Hacc Hu A L A0 L1 Hw top R E HR M) as [HJ HL]. split.
    + apply (Forall2_map_eq _ _ _ _ _ (fun a b H => proj1 H) HL).
    + replace (1000 * u * (1 + A)) with (1000 * unit_err u A) by (unfold unit_err; ring). exact HJ.
Qed.
Print Assumptions C77_rounded_reading.

Example C77_example : 0 <= double_unit <= / 10000 /\ 10000 * double_unit * (1 + 2) <= 1 /\ moderate 2 2 fl_top fl_R /\
  exists R, @describes (FA doubles) fl_top R.
Proof.
  assert (U : 0 <= double_unit <= / 10000) by (unfold double_unit; lra). split; [exact U|].
  split; [unfold double_unit; lra|]. split; [exact fl_moderate|].
  apply (proj1 (C77_rounded_reading doubles double_unit doubles_accurate U fl_top)). exists fl_R. exact fl_describes.
Qed.
