(** C83: Jacobians in rounded arithmetic. *)
From Coq Require Import QArith Qreals String List Arith Lia Bool Permutation Reals Lra.
From Verif Require Import Base Num Pose DataStructure Urdf Kin Wrapper Decimal RealArith FloatArith Ieee
  Spec_Robot Spec_Hist Spec_Load Spec_Jac Spec_Deriv Spec_Float
  Pf_Data Inv Pf_FK Rep Pf_Ops Pf_Jac Pf_Pose Pf_Reach Pf_Wrap Pf_Real Pf_Float1 Pf_Float2 Pf_Float3 Pf_Float4 Pf_Float5 Pf_Float6 Thm_Pose Thm_Fk Thm_Float Ex_Robot Ex_Float.
Import ListNotations.
Local Open Scope R_scope.

(** C83.  The Jacobian computed in rounded arithmetic against the one computed exactly, after
    the same calls: for every joint column, the error of the three position rows grows at most
    quadratically, and that of the four quaternion rows at most linearly, in the number of
    joints above a link.  [A] bounds all angles, [L] all lengths, [D] the number of joints
    above a link, as in C76.  (Roll-pitch-yaw rows are unbounded near the vertical, and the
    columns of the base divide by 1e-7; neither is included.) *)
Theorem C83_rounded_jacobians :
  forall (o : Ops) (u : R), accurate o u -> 0 <= u ->
  forall tinyxml text top E root sorted jsorted ops' m',
    @reached RA tinyxml text E root sorted jsorted ops' m' -> clean ops' = true -> tinyxml text = Some top ->
    let s' := after sorted jsorted ops' in
  forall A L D, 0 <= A -> 1 <= L -> moderate A L top E ->
    within_range A L (r_joints E) (by_name (jnames jsorted) (as_angles s')) ->
    (forall n d, levels (r_joints E) root (as_added s') n d -> (d <= D)%nat) ->
    4000000 * u * (1 + A) * (INR D + 1) <= 1 ->
  forall m0 ops m, @ctor (FA o) tinyxml text = Ok m0 ->
    Forall2 (same_call o (1000 * u * (1 + A)) A L) ops ops' -> run ops m0 = Some m ->
  forall i jids rt wb m1 J m2 J', (forall k, In k jids -> (k < length (get_joint_names m'))%nat) ->
    get_jacobian i jids rt wb m = (m1, Ok J) -> get_jacobian i jids rt wb m' = (m2, Ok J') ->
    forall r c, (r < jac_rows rt)%nat -> (c < length jids)%nat ->
      ((r < 3)%nat -> Rabs (entry J r c - entry J' r c) <= 40000000 * u * (1 + A) * L * (INR D + 1) ^ 2) /\
      ((3 <= r)%nat -> rt = XYZW -> Rabs (entry J r c - entry J' r c) <= 4000000 * u * (1 + A) * (INR D + 1)).
Proof.
  intros o u Hacc U0 tinyxml text top E root sorted jsorted ops' m' Hr Hc Et s' A L D A0 L1 M W HD B m0 ops m C F Er
    i jids rt wb m1 J m2 J' Hk X1 X2 r c Lr Lc.
  destruct (small_unit u A D U0 A0 B) as [Hu Hw].
  destruct (runs_both o u _ _ _ _ _ _ _ _ _ _ _ D _ _ _ Hacc U0 A0 L1 B Hr Et M C F Er) as (R & so & jso & Hx & HJ & EJ & Es & S). fold s' in S.
  assert (Hcx : clean ops = true) by (rewrite (clean_both _ _ _ _ _ _ F); exact Hc).
  destruct (reached_Rep _ _ _ _ _ _ _ _ Hx) as [HR1 HC1]. destruct (reached_Rep _ _ _ _ _ _ _ _ Hr) as [HR2 HC2].
  specialize (HC1 Hcx). specialize (HC2 Hc). fold s' in HR2.
  assert (G1 : Good m) by (split; auto; apply HR1). assert (G2 : Good m') by (split; auto; apply HR2).
  rewrite (rep_joint_count _ _ _ _ _ _ _ _ HR2) in Hk.
  assert (Ll : length jso = length jsorted) by (apply (f_equal (@length string)) in EJ; unfold jnames in EJ; now rewrite !map_length in EJ).
  assert (Hk1 : forall k, In k jids -> (k < length jso)%nat) by (intros k I; rewrite Ll; now apply Hk).
  destruct (jacobian_is _ _ _ _ _ _ _ _ _ _ _ _ _ _ HR1 G1 Hk1 X1) as (n & En & J1).
  destruct (jacobian_is _ _ _ _ _ _ _ _ _ _ _ _ _ _ HR2 G2 Hk X2) as (n' & En' & J2).
  assert (EN : all_links so (after so jso ops) = all_links sorted s').
  { unfold all_links. rewrite Es. f_equal. apply (frames_names o u A L), S. }
  rewrite EN in En. assert (n' = n) by congruence. subst n'.
  destruct (nth_error jids c) as [k|] eqn:Ek; [|apply nth_error_None in Ek; lia].
  apply (jac_both o u Hacc Hu A L A0 L1 Hw R E root so jso sorted jsorted (after so jso ops) s' D n rt jids wb J J' c k r); auto.
  - apply Hx.
  - apply Hr.
  - intros n' P1 P2 H1 H2. exact (rep_pose_det _ _ _ _ _ _ _ _ HR2 _ _ _ H1 H2).
  - apply Hk. eapply nth_error_In; eauto.
Qed.
Print Assumptions C83_rounded_jacobians.

Lemma nth_firstn_lt {T} n (l : list T) r d : (r < n)%nat -> nth r (firstn n l) d = nth r l d.
Proof. revert l r. induction n as [|n IH]; intros [|x l] [|r] H; cbn [firstn nth]; try lia; auto. apply IH. lia. Qed.
Lemma nth_skipn_add {T} n (l : list T) r d : nth r (skipn n l) d = nth (n + r) l d.
Proof. revert l. induction n as [|n IH]; intros [|x l]; cbn [skipn plus]; auto; [now destruct r|]. cbn [nth]. apply IH. Qed.

(** the same for every waypoint and link of solve_fk *)
Theorem C83_rounded_waypoint_jacobians :
  forall (o : Ops) (u : R), accurate o u -> 0 <= u ->
  forall tinyxml text top E root sorted jsorted ops' m',
    @reached RA tinyxml text E root sorted jsorted ops' m' -> tinyxml text = Some top ->
    let s' := after sorted jsorted ops' in
  forall A L D, 0 <= A -> 1 <= L -> moderate A L top E ->
    (forall n d, levels (r_joints E) root (as_added s') n d -> (d <= D)%nat) ->
    4000000 * u * (1 + A) * (INR D + 1) <= 1 ->
  forall m0 ops m, @ctor (FA o) tinyxml text = Ok m0 ->
    Forall2 (same_call o (1000 * u * (1 + A)) A L) ops ops' -> run ops m0 = Some m ->
  forall (qs : list (list R)) elinks jids rt wb m1 P J m2 P' J',
    (forall k, In k jids -> (k < length (get_joint_names m'))%nat) -> bases_within A L wb qs ->
    (forall q, In q qs -> within_range A L (r_joints E) (by_name (jnames jsorted) (as_angles (at_waypoint (A := RA) jids wb q s')))) ->
    @solve_forward_kinematics (FA o) qs elinks jids rt wb true false m = (m1, Ok (P, J)) ->
    @solve_forward_kinematics RA qs elinks jids rt wb true false m' = (m2, Ok (P', J')) ->
    forall a b i r c, (a < length qs)%nat -> nth_error elinks b = Some i -> (i < length (get_link_names m'))%nat ->
      (r < jac_rows rt)%nat -> (c < length jids)%nat ->
      let row := ((a * length elinks + b) * jac_rows rt + r)%nat in
      ((r < 3)%nat -> Rabs (entry J row c - entry J' row c) <= 40000000 * u * (1 + A) * L * (INR D + 1) ^ 2) /\
      ((3 <= r)%nat -> rt = XYZW -> Rabs (entry J row c - entry J' row c) <= 4000000 * u * (1 + A) * (INR D + 1)).
Proof.
  intros o u Hacc U0 tinyxml text top E root sorted jsorted ops' m' Hr Et s' A L D A0 L1 M HD B m0 ops m C F Er
    qs elinks jids rt wb m1 P J m2 P' J' Hk Hb W X1 X2 a b i r c Ha Eb Hi Lr Lc row.
  destruct (small_unit u A D U0 A0 B) as [Hu Hw].
  destruct (runs_both o u _ _ _ _ _ _ _ _ _ _ _ D _ _ _ Hacc U0 A0 L1 B Hr Et M C F Er) as (R & so & jso & Hx & HJ & EJ & Es & S). fold s' in S.
  assert (EN : all_links so (after so jso ops) = all_links sorted s').
  { unfold all_links. rewrite Es. f_equal. apply (frames_names o u A L), S. }
  destruct (reached_Rep _ _ _ _ _ _ _ _ Hx) as [HR1 _]. destruct (reached_Rep _ _ _ _ _ _ _ _ Hr) as [HR2 _].
  assert (Ll : length jso = length jsorted) by (apply (f_equal (@length string)) in EJ; unfold jnames in EJ; now rewrite !map_length in EJ).
  assert (Hk1 : forall k, In k jids -> (k < length (get_joint_names m))%nat).
  { intros k I. specialize (Hk k I). rewrite (rep_joint_count _ _ _ _ _ _ _ _ HR1), Ll. now rewrite (rep_joint_count _ _ _ _ _ _ _ _ HR2) in Hk. }
  destruct (@fk_values (FA o) _ _ _ _ _ _ _ _ qs elinks jids rt wb true false _ _ _ Hx (orb_true_r wb) Hk1 X1) as [_ V1].
  destruct (@fk_values RA _ _ _ _ _ _ _ _ qs elinks jids rt wb true false _ _ _ Hr (orb_true_r wb) Hk X2) as [_ V2].
  rewrite (rep_all_links _ _ _ _ _ _ _ _ HR1), EN in V1. rewrite (rep_all_links _ _ _ _ _ _ _ _ HR2) in V2, Hi. fold s' in V2, Hi.
  destruct (nth_error qs a) as [q|] eqn:Eq; [|apply nth_error_None in Eq; lia].
  destruct (nth_error (all_links sorted s') i) as [n|] eqn:En; [|apply nth_error_None in En; lia].
  destruct (V1 a b q i n Eq Eb En) as [_ J1]. destruct (V2 a b q i n Eq Eb En) as [_ J2]. specialize (J1 eq_refl). specialize (J2 eq_refl).
  assert (Iq : In q qs) by (eapply nth_error_In; eauto).
  assert (Sw : state_near o u A L (@at_waypoint (FA o) jids wb q (after so jso ops)) (@at_waypoint RA jids wb q s')).
  { apply way_near; auto. }
  destruct (nth_error jids c) as [k|] eqn:Ek; [|apply nth_error_None in Ek; lia].
  assert (EB : forall K : list (list Rdefinitions.R), entry K row c = entry (firstn (jac_rows rt) (skipn ((a * length elinks + b) * jac_rows rt) K)) r c).
  { intros K. unfold entry, row. f_equal. rewrite nth_firstn_lt by exact Lr. now rewrite nth_skipn_add. }
  rewrite !EB.
  apply (jac_both o u Hacc Hu A L A0 L1 Hw R E root so jso sorted jsorted (@at_waypoint (FA o) jids wb q (after so jso ops)) (@at_waypoint RA jids wb q s') D n rt jids wb _ _ c k r); auto.
  - apply Hx.
  - apply Hr.
  - intros n' P1 P2 H1 H2. exact (way_det _ _ _ _ _ _ _ _ _ _ _ _ _ _ Hr H1 H2).
  - rewrite (rep_joint_count _ _ _ _ _ _ _ _ HR2) in Hk. apply Hk. eapply nth_error_In; eauto.
Qed.
Print Assumptions C83_rounded_waypoint_jacobians.

Definition fl_jcheck {A : Arith} (ops : list op) (qs : list (list num)) : bool :=
  match ctor fl_tinyxml ex_text with
  | Ok m0 => match run ops m0 with
             | Some m => is_some (replied (get_jacobian 4 [1; 0]%nat XYZW false m)) &&
                         is_some (replied (solve_forward_kinematics qs [4; 2]%nat [0; 1]%nat XYZW true true false m))
             | None => false
             end
  | _ => false
  end.
Lemma fl_jcheck_ok {A : Arith} ops qs : fl_jcheck ops qs = true -> exists m0 m, ctor fl_tinyxml ex_text = Ok m0 /\ run ops m0 = Some m /\
  (exists m1 J, get_jacobian 4 [1; 0]%nat XYZW false m = (m1, Ok J)) /\
  (exists m1 P J, solve_forward_kinematics qs [4; 2]%nat [0; 1]%nat XYZW true true false m = (m1, Ok (P, J))).
Proof.
  unfold fl_jcheck. destruct (ctor fl_tinyxml ex_text) as [m0|e|u|]; try discriminate. destruct (run ops m0) as [m|] eqn:E; [|discriminate].
  intros H. apply andb_prop in H. destruct H as [H1 H2]. exists m0, m. split; [reflexivity|]. split; [exact E|]. split.
  - destruct (is_some_ex _ H1) as (J & X). destruct (replied_ok _ _ X) as (m1 & Y). eauto.
  - destruct (is_some_ex _ H2) as ([P J] & X). destruct (replied_ok _ _ X) as (m1 & Y). eauto.
Qed.
Lemma fl_jcheck_exact : @fl_jcheck RA fl_exact fl_qs = true.
Proof. vm_compute. reflexivity. Qed.
Lemma fl_jcheck_rounded rnd : @fl_jcheck (FA (rounding rnd)) (fl_rounded (rounding rnd)) fl_qs = true.
Proof. vm_compute. reflexivity. Qed.

(** both theorems apply to doubles and the example robot of C76 (whose other hypotheses are
    shown there): the Jacobian of the camera for both joints, and those of two waypoints *)
Example C83_example :
  (exists m', reached fl_tinyxml ex_text fl_R "base" fl_sorted fl_jsorted fl_exact m' /\
     (forall k, In k [1; 0]%nat -> (k < length (get_joint_names m'))%nat) /\ (4 < length (get_link_names m'))%nat /\
     (exists m2 J', get_jacobian 4 [1; 0]%nat XYZW false m' = (m2, Ok J')) /\
     exists m2 P' J', solve_forward_kinematics fl_qs [4; 2]%nat [0; 1]%nat XYZW true true false m' = (m2, Ok (P', J'))) /\
  (exists m0 m, @ctor (FA doubles) fl_tinyxml ex_text = Ok m0 /\ run (fl_rounded doubles) m0 = Some m /\
     Forall2 (same_call doubles (1000 * double_unit * (1 + 2)) 2 2) (fl_rounded doubles) fl_exact /\
     (exists m1 J, get_jacobian 4 [1; 0]%nat XYZW false m = (m1, Ok J)) /\
     exists m1 P J, @solve_forward_kinematics (FA doubles) fl_qs [4; 2]%nat [0; 1]%nat XYZW true true false m = (m1, Ok (P, J))).
Proof.
  split.
  - destruct (fl_jcheck_ok _ _ fl_jcheck_exact) as (m0 & m & C & Er & H1 & H2). exists m.
    assert (Hr : reached fl_tinyxml ex_text fl_R "base" fl_sorted fl_jsorted fl_exact m).
    { split; [exact fl_loadable|]. split; [exact fl_ordered|]. exists m0. split; [exact C | exact Er]. }
    split; [exact Hr|]. destruct (reached_Rep _ _ _ _ _ _ _ _ Hr) as [HR _].
    split. { rewrite (rep_joint_count _ _ _ _ _ _ _ _ HR). assert (Lj : length fl_jsorted = 2%nat) by reflexivity. rewrite Lj. clear. intros k [<-|[<-|[]]]; lia. }
    split. { rewrite (rep_all_links _ _ _ _ _ _ _ _ HR). unfold all_links. rewrite app_length, !map_length.
      assert (La : length (as_added fl_s) = 2%nat) by (rewrite <- (map_length fst), fl_added; reflexivity). rewrite La.
      assert (Ls : length fl_sorted = 3%nat) by reflexivity. rewrite Ls. lia. }
    split; [exact H1|exact H2].
  - destruct (@fl_jcheck_ok (FA doubles) _ _ (fl_jcheck_rounded double_round)) as (m0 & m & C & Er & H1 & H2). exists m0, m.
    split; [exact C|]. split; [exact Er|]. split; [apply fl_same|]. split; [exact H1|exact H2].
Qed.
