(** C98: squared distances between links, and their gradients, in rounded arithmetic. *)
From Coq Require Import QArith Qreals String List Arith Lia Bool Permutation Reals Lra.
From Verif Require Import Base Num Pose DataStructure Urdf Kin Wrapper Decimal RealArith FloatArith Ieee
  Spec_Robot Spec_Hist Spec_Load Spec_Jac Spec_Mass Spec_Rot Spec_Body Spec_Deriv Spec_Float
  Pf_Data Inv Pf_FK Rep Pf_Ops Pf_Jac Pf_Pose Pf_Reach Pf_Wrap Pf_Wrap2 Pf_Mass Pf_Real Pf_Body Pf_ComD
  Pf_Float1 Pf_Float2 Pf_Float3 Pf_Float4 Pf_Float5 Pf_Float6 Pf_Float7 Pf_Float8 Pf_Float9 Thm_Pose Thm_Fk Thm_Float Ex_Robot Ex_Float.
Import ListNotations.
Local Open Scope R_scope.

Lemma grad_entry_FA o u (Hacc : accurate o u) n (J1 J2 : @mat (FA o)) d c : has_shape 3 n J1 -> has_shape 3 n J2 -> (c < n)%nat ->
  nth c (@grad_row (FA o) n J1 J2 d) 0 =
  o_add o (o_add o (o_mul o (o_mul o (@n2 (FA o)) (o_sub o (entry J1 0 c) (entry J2 0 c))) (vx d))
                   (o_mul o (o_mul o (@n2 (FA o)) (o_sub o (entry J1 1 c) (entry J2 1 c))) (vy d)))
          (o_mul o (o_mul o (@n2 (FA o)) (o_sub o (entry J1 2 c) (entry J2 2 c))) (vz d)).
Proof.
  intros S1 S2 Lc. unfold grad_row. rewrite (nth_indep _ 0 0) by (rewrite map_length, seq_length; exact Lc).
  match goal with |- nth c (map ?f _) _ = _ => rewrite (nth_indep _ 0 (f 0%nat)) by (rewrite map_length, seq_length; exact Lc); rewrite (map_nth f) end.
  rewrite seq_nth by exact Lc. cbn [plus].
  assert (X : forall r, (r < 3)%nat -> nth c (nth r (@mat_zip (FA o) sub J1 J2) []) (@n0 (FA o)) = o_sub o (entry J1 r c) (entry J2 r c)).
  { intros r Lr. pose proof (entry_zip (o_sub o) 3 n J1 J2 r c S1 S2 Lr Lc) as X. unfold entry at 1 in X. rewrite <- X, (zero_FA o u Hacc). reflexivity. }
  rewrite (X 0%nat), (X 1%nat), (X 2%nat) by lia. reflexivity.
Qed.
Lemma grad_entry_RA n (J1 J2 : @mat RA) d c : has_shape 3 n J1 -> has_shape 3 n J2 -> (c < n)%nat ->
  nth c (@grad_row RA n J1 J2 d) 0 =
  2 * (entry J1 0 c - entry J2 0 c) * vx d + 2 * (entry J1 1 c - entry J2 1 c) * vy d + 2 * (entry J1 2 c - entry J2 2 c) * vz d.
Proof.
  intros S1 S2 Lc. unfold grad_row.
  match goal with |- nth c (map ?f _) _ = _ => rewrite (nth_indep _ 0 (f 0%nat)) by (rewrite map_length, seq_length; exact Lc); rewrite (map_nth f) end.
  rewrite seq_nth by exact Lc. cbn [plus].
  assert (X : forall r, (r < 3)%nat -> nth c (nth r (@mat_zip RA sub J1 J2) []) (@n0 RA) = entry J1 r c - entry J2 r c).
  { intros r Lr. pose proof (entry_zip Rminus 3 n J1 J2 r c S1 S2 Lr Lc) as X. unfold entry at 1 in X. rewrite <- X.
    change (@n0 RA) with (Q2R 0). rewrite Q2R_0. reflexivity. }
  rewrite (X 0%nat), (X 1%nat), (X 2%nat) by lia. change (@n2 RA) with (Q2R 2). replace (Q2R 2) with 2 by (unfold Q2R; cbn; lra). reflexivity.
Qed.

(** C98.  For every waypoint and pair of links, the squared distance computed in rounded
    arithmetic is near the exact one, and so is every entry of its gradient for a joint.  [A],
    [L] and [D] are as in C76. *)
Theorem C98_rounded_distances :
  forall (o : Ops) (u : R), accurate o u -> 0 <= u ->
  forall tinyxml text top E root sorted jsorted ops' m',
    @reached RA tinyxml text E root sorted jsorted ops' m' -> tinyxml text = Some top ->
    let s' := after sorted jsorted ops' in
  forall A L D, 0 <= A -> 1 <= L -> moderate A L top E ->
    (forall n d, levels (r_joints E) root (as_added s') n d -> (d <= D)%nat) ->
    4000000 * u * (1 + A) * (INR D + 1) <= 1 ->
  forall m0 ops m, @ctor (FA o) tinyxml text = Ok m0 ->
    Forall2 (same_call o (1000 * u * (1 + A)) A L) ops ops' -> run ops m0 = Some m ->
  forall (qs : list (list R)) ids1 ids2 jids wb wg m1 S G m2 S' G',
    (forall k, In k jids -> (k < length (get_joint_names m'))%nat) -> bases_within A L wb qs ->
    (forall q, In q qs -> within_range A L (r_joints E) (by_name (jnames jsorted) (as_angles (at_waypoint (A := RA) jids wb q s')))) ->
    @compute_inter_link_squared_dists (FA o) qs ids1 ids2 jids wb wg false m = (m1, Ok (S, G)) ->
    @compute_inter_link_squared_dists RA qs ids1 ids2 jids wb wg false m' = (m2, Ok (S', G')) ->
    forall a b, (a < length qs)%nat -> (b < length ids1)%nat ->
    (exists x x', nth_error S (a * length ids1 + b) = Some x /\ nth_error S' (a * length ids1 + b) = Some x' /\
       Rabs (x - x') <= 300000000 * u * (1 + A) * L ^ 2 * (INR D + 1) ^ 3) /\
    (wg = true ->
     exists g g', nth_error G (a * length ids1 + b) = Some g /\ nth_error G' (a * length ids1 + b) = Some g' /\
       forall c, (c < length jids)%nat -> Rabs (nth c g 0 - nth c g' 0) <= 4000000000 * u * (1 + A) * L ^ 2 * (INR D + 1) ^ 3).
Proof.
  intros o u Hacc U0 tinyxml text top E root sorted jsorted ops' m' Hr Et s' A L D A0 L1 M HD B m0 ops m C F Er
    qs ids1 ids2 jids wb wg m1 Sd G m2 Sd' G' Hk Hb W X1 X2 a b Ha Hb1.
  destruct (small_unit u A D U0 A0 B) as [Hu Hw].
  destruct (runs_both o u _ _ _ _ _ _ _ _ _ _ _ D _ _ _ Hacc U0 A0 L1 B Hr Et M C F Er) as (R & so & jso & Hx & HJ & EJ & Es & S). fold s' in S.
  destruct (reached_Rep _ _ _ _ _ _ _ _ Hx) as [HR1 _]. destruct (reached_Rep _ _ _ _ _ _ _ _ Hr) as [HR2 _]. fold s' in HR2.
  assert (Ll : length jso = length jsorted) by (apply (f_equal (@length string)) in EJ; unfold jnames in EJ; now rewrite !map_length in EJ).
  rewrite (rep_joint_count _ _ _ _ _ _ _ _ HR2) in Hk.
  assert (Hk1 : forall k, In k jids -> (k < length jso)%nat) by (intros k I; rewrite Ll; now apply Hk).
  destruct (@sqdists_ok (FA o) _ _ _ _ _ _ qs ids1 ids2 jids wb wg false _ _ _ _ _ HR1 (orb_true_r wb) Hk1 X1) as (_ & V1 & W1).
  destruct (@sqdists_ok RA _ _ _ _ _ _ qs ids1 ids2 jids wb wg false _ _ _ _ _ HR2 (orb_true_r wb) Hk X2) as (_ & V2 & W2).
  destruct (nth_error qs a) as [q|] eqn:Eq; [|apply nth_error_None in Eq; lia].
  destruct (nth_error ids1 b) as [e1|] eqn:E1; [|apply nth_error_None in E1; lia].
  assert (Iq : In q qs) by (eapply nth_error_In; eauto).
  assert (Sw : state_near o u A L (@at_waypoint (FA o) jids wb q (after so jso ops)) (@at_waypoint RA jids wb q s')).
  { apply way_near; auto. }
  assert (Det : forall n P1 P2, pose_at E root jsorted (@at_waypoint RA jids wb q s') n P1 -> pose_at E root jsorted (@at_waypoint RA jids wb q s') n P2 -> P1 = P2).
  { intros n' P1 P2 H1 H2. exact (way_det _ _ _ _ _ _ _ _ _ _ _ _ _ _ Hr H1 H2). }
  assert (EN : all_links so (@at_waypoint (FA o) jids wb q (after so jso ops)) = all_links sorted (@at_waypoint RA jids wb q s')).
  { unfold all_links. rewrite Es. f_equal. apply (frames_names o u A L), Sw. }
  set (w := @at_waypoint (FA o) jids wb q (after so jso ops)) in *. set (w' := @at_waypoint RA jids wb q s') in *.
  pose proof (pos_INR D) as D0. set (t := u * (1 + A) * (INR D + 1)). set (K := L * (INR D + 1)).
  assert (HK : 1 <= K). { unfold K. assert (0 <= L * INR D) by (apply Rmult_le_pos; lra). lra. }
  assert (uA : 0 <= u * A) by (apply Rmult_le_pos; lra).
  assert (uD : 0 <= (u * (1 + A)) * INR D) by (apply Rmult_le_pos; [lra|exact D0]).
  assert (Hut : u <= t) by (unfold t; lra). assert (Ht : 4000000 * t <= 1) by (unfold t; lra).
  assert (TK : forall x, x * u * (1 + A) * L ^ 2 * (INR D + 1) ^ 3 = x * (t * K * K)) by (intros x; unfold t, K; ring).
  assert (TJ : forall x, x * u * (1 + A) * L * (INR D + 1) ^ 2 = x * (t * K)) by (intros x; unfold t, K; ring).
  rewrite !TK.
  (* a link's position in the two states *)
  assert (Pb : forall e P P', named_pose R root so jso w e P -> named_pose E root sorted jsorted w' e P' -> sized_v o t K 4000000 2 (position P) (position P')).
  { intros e P P' (n & N1 & H1) (n' & N2 & H2). rewrite EN in N1. assert (n' = n) by congruence. subst n'.
    destruct (pose_both_full o u Hacc Hu A L A0 L1 Hw R E root jso jsorted _ _ D n P HJ EJ Sw (W q Iq) HD B H1) as (Q & Q1 & Q2 & Q3 & Q4 & Q5).
    rewrite (Det _ _ _ Q1 H2) in *. rewrite TJ in Q5. fold K in Q3.
    destruct (vdist_part o (position P) (position P')) as (D1 & D2 & D3). destruct (comp_nv (position P')) as (N3 & N4 & N5).
    split; [|split]; split; lra. }
  assert (Jb : forall e J J' c r, named_jac R root so jso w IGNORE jids wb e J -> named_jac E root sorted jsorted w' IGNORE jids wb e J' ->
    (c < length jids)%nat -> (r < 3)%nat -> sized t K 40000000 4 (entry J r c) (entry J' r c)).
  { intros e J J' c r (n & N1 & H1) (n' & N2 & H2) Lc Lr. rewrite EN in N1. assert (n' = n) by congruence. subst n'.
    destruct (nth_error jids c) as [k|] eqn:Ek; [|apply nth_error_None in Ek; lia].
    assert (Kk : (k < length jsorted)%nat) by (apply Hk; eapply nth_error_In; eauto). split.
    - rewrite <- TJ. apply (jac_both o u Hacc Hu A L A0 L1 Hw R E root so jso sorted jsorted w w' D n IGNORE jids wb J J' c k r); auto; first [apply Hx | apply Hr | exact (W q Iq) | idtac].
    - unfold K. apply (jac_bound o u Hacc Hu A L A0 L1 Hw R E root jso sorted jsorted w w' D HJ (proj1 (proj2 Hr)) EJ Sw (W q Iq) HD B Det n jids wb J' c k r); auto. }
  split.
  - destruct (V1 a b q e1 Eq E1) as (e2 & x & E2 & Ex & p1 & p2 & P1 & P2 & ->).
    destruct (V2 a b q e1 Eq E1) as (e2' & x' & E2' & Ex' & p1' & p2' & P1' & P2' & ->). assert (e2' = e2) by congruence. subst e2'.
    eexists _, _. split; [exact Ex|]. split; [exact Ex'|].
    apply (sqnorm_both o u Hacc U0 t K Hut Ht HK). apply (diff_both o u Hacc U0 t K Hut Ht HK); eapply Pb; eassumption.
  - intros Hg. destruct (W1 Hg) as [_ W1']. destruct (W2 Hg) as [_ W2'].
    destruct (W1' a b q e1 Eq E1) as (e2 & g & E2 & Ex & p1 & p2 & J1 & J2 & P1 & P2 & K1 & K2 & ->).
    destruct (W2' a b q e1 Eq E1) as (e2' & g' & E2' & Ex' & p1' & p2' & J1' & J2' & P1' & P2' & K1' & K2' & ->). assert (e2' = e2) by congruence. subst e2'.
    eexists _, _. split; [exact Ex|]. split; [exact Ex'|]. intros c Lc.
    assert (Sh : forall A0 R0 root0 so0 jso0 w0 e (J : mat), @named_jac A0 R0 root0 so0 jso0 w0 IGNORE jids wb e J -> has_shape 3 (length jids + if wb then 6 else 0) J).
    { intros A1 R0 root0 so0 jso0 w0 e J (n & _ & H & _). exact H. }
    assert (Lc' : (c < length jids + if wb then 6 else 0)%nat) by lia.
    rewrite (grad_entry_FA o u Hacc _ _ _ _ _ (Sh _ _ _ _ _ _ _ _ K1) (Sh _ _ _ _ _ _ _ _ K2) Lc').
    rewrite (grad_entry_RA _ _ _ _ _ (Sh _ _ _ _ _ _ _ _ K1') (Sh _ _ _ _ _ _ _ _ K2') Lc').
    destruct (diff_both o u Hacc U0 t K Hut Ht HK _ _ _ _ (Pb _ _ _ P1 P1') (Pb _ _ _ P2 P2')) as (D1 & D2 & D3).
    set (v := @v_sub (FA o) (position p1) (position p2)) in *. set (v' := @v_sub RA (position p1') (position p2')) in *.
    apply (grad_both o u Hacc U0 t K Hut Ht HK (fun r => entry J1 r c) (fun r => entry J2 r c) (fun r => match r with 0%nat => vx v | 1%nat => vy v | _ => vz v end)
      (fun r => entry J1' r c) (fun r => entry J2' r c) (fun r => match r with 0%nat => vx v' | 1%nat => vy v' | _ => vz v' end)).
    + intros r Lr. eapply Jb; eassumption.
    + intros r Lr. eapply Jb; eassumption.
    + intros r Lr. destruct r as [|[|r]]; assumption.
Qed.
Print Assumptions C98_rounded_distances.

Definition fl_dcheck {A : Arith} (ops : list op) (qs : list (list num)) : bool :=
  match ctor fl_tinyxml ex_text with
  | Ok m0 => match run ops m0 with
             | Some m => is_some (replied (compute_inter_link_squared_dists qs [4; 2]%nat [0; 4]%nat [0; 1]%nat true true false m))
             | None => false
             end
  | _ => false
  end.
Lemma fl_dcheck_ok {A : Arith} ops qs : fl_dcheck ops qs = true -> exists m0 m, ctor fl_tinyxml ex_text = Ok m0 /\ run ops m0 = Some m /\
  exists m1 S G, compute_inter_link_squared_dists qs [4; 2]%nat [0; 4]%nat [0; 1]%nat true true false m = (m1, Ok (S, G)).
Proof.
  unfold fl_dcheck. destruct (ctor fl_tinyxml ex_text) as [m0|e|u|]; try discriminate. destruct (run ops m0) as [m|] eqn:E; [|discriminate].
  intros H. exists m0, m. split; [reflexivity|]. split; [exact E|]. destruct (is_some_ex _ H) as ([P J] & X). destruct (replied_ok _ _ X) as (m1 & Y). eauto.
Qed.
Lemma fl_dcheck_exact : @fl_dcheck RA fl_exact fl_qs = true.
Proof. vm_compute. reflexivity. Qed.
Lemma fl_dcheck_rounded rnd : @fl_dcheck (FA (rounding rnd)) (fl_rounded (rounding rnd)) fl_qs = true.
Proof. vm_compute. reflexivity. Qed.

(** it applies to doubles and the example robot of C76 (whose other hypotheses, those on the
    waypoints included, are shown there): two pairs of links at each waypoint, with gradients *)
Example C98_example :
  (exists m', reached fl_tinyxml ex_text fl_R "base" fl_sorted fl_jsorted fl_exact m' /\
     (forall k, In k [0; 1]%nat -> (k < length (get_joint_names m'))%nat) /\
     exists m2 S' G', compute_inter_link_squared_dists fl_qs [4; 2]%nat [0; 4]%nat [0; 1]%nat true true false m' = (m2, Ok (S', G'))) /\
  (exists m0 m, @ctor (FA doubles) fl_tinyxml ex_text = Ok m0 /\ run (fl_rounded doubles) m0 = Some m /\
     Forall2 (same_call doubles (1000 * double_unit * (1 + 2)) 2 2) (fl_rounded doubles) fl_exact /\
     exists m1 S G, @compute_inter_link_squared_dists (FA doubles) fl_qs [4; 2]%nat [0; 4]%nat [0; 1]%nat true true false m = (m1, Ok (S, G))).
Proof.
  split.
  - destruct (fl_dcheck_ok _ _ fl_dcheck_exact) as (m0 & m & C & Er & H1). exists m.
    assert (Hr : reached fl_tinyxml ex_text fl_R "base" fl_sorted fl_jsorted fl_exact m).
    { split; [exact fl_loadable|]. split; [exact fl_ordered|]. exists m0. split; [exact C | exact Er]. }
    split; [exact Hr|]. destruct (reached_Rep _ _ _ _ _ _ _ _ Hr) as [HR _].
    split. { rewrite (rep_joint_count _ _ _ _ _ _ _ _ HR). assert (Lj : length fl_jsorted = 2%nat) by reflexivity. rewrite Lj. clear. intros k [<-|[<-|[]]]; lia. }
    exact H1.
  - destruct (@fl_dcheck_ok (FA doubles) _ _ (fl_dcheck_rounded double_round)) as (m0 & m & C & Er & H1). exists m0, m.
    split; [exact C|]. split; [exact Er|]. split; [apply fl_same|]. exact H1.
Qed.
