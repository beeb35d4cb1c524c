(** The distance gradient times the joint speeds (lemmas for C112). *)
From Coq Require Import String List Arith Lia Bool Permutation Classical Reals Lra.
From Verif Require Import Base Num Pose DataStructure Urdf Kin Wrapper Spec_Robot Spec_Hist Spec_Load Spec_Jac Spec_Mass Spec_Rot Spec_Deriv Spec_Body Spec_Velocity RealArith
  Pf_Base Pf_Data Inv Pf_FK Pf_Frame Pf_Rp Rep Pf_Ops Pf_Name Pf_Ctor Pf_Reach Pf_Jac Pf_Safe Pf_Pose Pf_Local Pf_Hist Pf_Wrap Pf_Mass Pf_Wrap2 Pf_Real Pf_Rot Pf_Unit Pf_Rpy Pf_Chain Pf_Deriv Pf_JacD Pf_Body Pf_ComD
  Pf_Reach2 Pf_Velocity Pf_Velocity2 Pf_Velocity3 Pf_Velocity4 Pf_Velocity5.
Import ListNotations.
Local Open Scope m_scope.
Local Open Scope R_scope.

Lemma assign_hit (v : list (@num RA)) jids q c k x : NoDup jids -> nth_error jids c = Some k -> nth_error q c = Some x -> (k < length v)%nat -> nth_error (assign jids q v) k = Some x.
Proof.
  intros N Ek Ex L. pose proof (assign_set v jids q c x x k N Ek Ex) as E. rewrite (list_set_same _ _ _ Ex) in E. rewrite E. apply nth_error_list_set_eq. now rewrite assign_length.
Qed.
Lemma assign_miss jids : forall (q v : list (@num RA)) k, ~ In k jids -> nth_error (assign jids q v) k = nth_error v k.
Proof.
  unfold assign. induction jids as [|j jids IH]; intros q v k N; [reflexivity|]. destruct q as [|x q]; [reflexivity|]. cbn [combine fold_left fst snd].
  rewrite IH by (intros I; apply N; now right). apply nth_error_list_set_ne. intros ->. apply N. now left.
Qed.
Lemma nth_error_all {X} : forall (l l' : list X), (forall k, nth_error l k = nth_error l' k) -> l = l'.
Proof.
  induction l as [|x l IH]; intros [|y l'] H; [reflexivity | discriminate (H 0%nat) | discriminate (H 0%nat)|].
  pose proof (H 0%nat) as E. cbn in E. f_equal; [congruence | apply IH; intros k; exact (H (S k))].
Qed.
Lemma assign_app (v : list (@num RA)) jids q rest q0 : NoDup jids -> (length jids <= length q)%nat -> (forall k, In k jids -> (k < length v)%nat) ->
  assign jids (q ++ rest) v = assign jids q (assign jids q0 v).
Proof.
  intros N L Hk. apply nth_error_all. intros k. destruct (in_dec Nat.eq_dec k jids) as [I|Ni].
  - apply In_nth_error in I as I'. destruct I' as (c & Ec). pose proof (nth_error_lt _ _ _ Ec) as Lc. destruct (lt_nth_error q c ltac:(lia)) as (x & Ex).
    rewrite (assign_hit _ _ _ c k x N Ec), (assign_hit _ _ _ c k x N Ec); auto; [rewrite assign_length; auto|]. rewrite nth_error_app1 by lia. exact Ex.
  - now rewrite !assign_miss.
Qed.

Section Dist.
Context (tinyxml : string -> option (list xml)) (text : string) (R : @Robot RA) (root : string) (sorted : list (string * option (@Inertial RA))) (jsorted : list (@UJoint RA)) (ops : list (@op RA)) (m : @KM RA).
Context (Hr : reached tinyxml text R root sorted jsorted ops m) (Hu : unit_axes R) (Hb : unit_bases ops).
Notation s := (after sorted jsorted ops).

Lemma gradient_times_speeds (qs : list (list (@num RA))) ids1 ids2 jids (wb uc : bool) m' D G a b (q : Rdefinitions.R -> list (@num RA)) rest t0 v e1 e2 d :
  (wb || negb uc)%bool = true -> NoDup jids -> (forall k, In k jids -> (k < length (get_joint_names m))%nat) ->
  length rest = (if wb then 6 else 0)%nat -> speeds (length jids) q t0 v ->
  compute_inter_link_squared_dists qs ids1 ids2 jids wb true uc m = (m', Ok (D, G)) ->
  nth_error qs a = Some (q t0 ++ rest) -> nth_error ids1 b = Some e1 -> nth_error ids2 b = Some e2 ->
  (forall t, sqdist_with m jids wb uc e1 e2 (q t ++ rest) (d t)) ->
  derivable_pt_lim d t0 (row_times G (a * length ids1 + b) 0 v).
Proof.
  intros Hcl N Hk Lrest Hs X Eq E1 E2 Hd. destruct (reached_Rep _ _ _ _ _ _ _ _ Hr) as [HR _].
  pose proof Hk as Hk'. rewrite (rep_joint_count _ _ _ _ _ _ _ _ HR) in Hk'. pose proof Hs as (Lv & Lq & _).
  assert (Lw : forall t, length (q t ++ rest) = (length jids + if wb then 6 else 0)%nat) by (intros t; rewrite app_length, Lrest; f_equal; apply Lq).
  destruct (sqdists_ok _ _ _ _ _ _ _ _ _ _ _ _ _ _ _ _ _ _ HR Hcl Hk' X) as (_ & _ & HG). destruct (HG eq_refl) as (LG & HG'). clear HG.
  destruct (HG' a b (q t0 ++ rest) e1 Eq E1) as (e2' & g & E2' & Eg & p1 & p2 & J1 & J2 & (n1 & N1 & P1) & (n2 & N2 & P2) & (n1' & N1' & I1) & (n2' & N2' & I2) & ->).
  assert (e2' = e2) by congruence. subst e2'. assert (n1' = n1) by congruence. assert (n2' = n2) by congruence. subst n1' n2'. clear HG' E2' N1' N2'.
  destruct (waypoint_reached _ _ _ _ _ _ _ _ Hr jids wb (q t0 ++ rest) Hk' (Lw t0)) as (m1 & Hr1 & Ea). pose proof (setters_unit ops Hb jids wb (q t0 ++ rest)) as Hb1.
  set (ops1 := ops ++ setters jids wb (q t0 ++ rest)) in *. rewrite <- Ea in N1, N2, P1, P2, I1, I2.
  destruct (reached_Rep _ _ _ _ _ _ _ _ Hr1) as [HR1 _].
  assert (Hk1 : forall k, In k jids -> (k < length (get_joint_names m1))%nat) by (rewrite (rep_joint_count _ _ _ _ _ _ _ _ HR1); exact Hk').
  assert (LA : length (as_angles s) = length jsorted) by (rewrite (rep_angles_length _ _ _ _ _ _ _ _ HR); unfold jnames; apply map_length).
  assert (LA1 : length (joint_angles m1) = length jsorted) by (rewrite (rep_angles _ _ _ _ _ _ _ _ HR1), (rep_angles_length _ _ _ _ _ _ _ _ HR1); unfold jnames; apply map_length).
  assert (Ha1 : angles_are m1 jids (q t0)).
  { unfold angles_are. rewrite get_angles_spec by (intros k I; rewrite LA1; auto). do 2 f_equal. rewrite (rep_angles _ _ _ _ _ _ _ _ HR1), Ea. cbn [at_waypoint as_angles].
    apply nth_error_all. intros c. rewrite nth_error_map'. destruct (nth_error jids c) as [k|] eqn:Ec; cbn [option_map].
    - pose proof (nth_error_lt _ _ _ Ec) as Lc. destruct (lt_nth_error (q t0) c) as (x & Ex); [apply (Nat.lt_le_trans _ _ _ Lc); apply Nat.eq_le_incl; symmetry; apply (Lq t0)|]. rewrite Ex. f_equal. apply nth_error_nth.
      apply (assign_hit _ _ _ c k x N Ec); [rewrite nth_error_app1 by (apply nth_error_lt in Ex; exact Ex); exact Ex | rewrite LA; apply Hk'; eapply nth_error_In; eauto].
    - symmetry. apply nth_error_None. apply nth_error_None in Ec. apply (Nat.le_trans _ (length jids)); [apply Nat.eq_le_incl; apply (Lq t0) | exact Ec]. }
  assert (ST : forall t, at_waypoint jids wb (q t ++ rest) s = st sorted jsorted ops1 jids q t).
  { intros t. unfold st. rewrite Ea. unfold at_waypoint. cbn [as_added as_angles as_base]. f_equal.
    - apply assign_app; [exact N | apply Nat.eq_le_incl; symmetry; apply (Lq t) | intros k I; rewrite LA; auto].
    - destruct wb; [|reflexivity]. f_equal. assert (SK : forall t, skipn (length (q t ++ rest) - 6) (q t ++ rest) = rest).
      { intros t1. rewrite app_length, Lrest. replace (length (q t1) + 6 - 6)%nat with (length (q t1)) by lia. rewrite skipn_app, skipn_all, Nat.sub_diag. reflexivity. }
      now rewrite !SK. }
  destruct (family_moving _ _ _ _ _ _ _ _ Hr1 Hu Hb1 jids N Hk1 q v t0 Ha1 Hs n1 (nth_error_In _ _ N1)) as (F1 & HF1).
  destruct (family_moving _ _ _ _ _ _ _ _ Hr1 Hu Hb1 jids N Hk1 q v t0 Ha1 Hs n2 (nth_error_In _ _ N2)) as (F2 & HF2).
  assert (D1 : forall r, (r < 3)%nat -> derivable_pt_lim (fun t => reported IGNORE r (F1 t)) t0 (row_times J1 r 0 v))
    by (intros r Lr; apply (is_jacobian_speeds _ _ _ _ _ _ _ _ Hr1 Hu Hb1 jids N Hk1 q v t0 Ha1 Hs n1 IGNORE wb J1 F1 r I1 HF1 Lr); intros Y; discriminate Y).
  assert (D2 : forall r, (r < 3)%nat -> derivable_pt_lim (fun t => reported IGNORE r (F2 t)) t0 (row_times J2 r 0 v))
    by (intros r Lr; apply (is_jacobian_speeds _ _ _ _ _ _ _ _ Hr1 Hu Hb1 jids N Hk1 q v t0 Ha1 Hs n2 IGNORE wb J2 F2 r I2 HF2 Lr); intros Y; discriminate Y).
  assert (Det : forall t n A B, pose_at R root jsorted (st sorted jsorted ops1 jids q t) n A -> pose_at R root jsorted (st sorted jsorted ops1 jids q t) n B -> A = B).
  { intros t n A B HA HB. destruct (moving_reached _ _ _ _ _ _ _ _ Hr1 jids N Hk1 q v t0 Hs t) as (m2 & _ & Hr2 & Ea2 & _). destruct (reached_Rep _ _ _ _ _ _ _ _ Hr2) as [HR2 _].
    rewrite Ea2 in HR2. exact (rep_pose_det _ _ _ _ _ _ _ _ HR2 n A B HA HB). }
  assert (Ed : forall t, d t = sq_norm (v_sub (position (F1 t)) (position (F2 t)))).
  { intros t. destruct (Hd t) as (m2 & G2 & Y).
    destruct (sqdists_ok _ _ _ _ _ _ _ _ _ _ _ _ _ _ _ _ _ _ HR Hcl Hk' Y) as (_ & HD & _).
    destruct (HD 0%nat 0%nat (q t ++ rest) e1 eq_refl eq_refl) as (e2' & d' & E2' & Ed & p1' & p2' & (y1 & Y1 & H1) & (y2 & Y2 & H2) & Ed').
    cbn [nth_error] in E2'. cbn [nth_error Nat.mul Nat.add] in Ed. injection E2' as <-. injection Ed as <-.
    rewrite ST in Y1, Y2, H1, H2.
    assert (y1 = n1) by (unfold all_links in *; cbn [st as_added] in Y1; congruence). assert (y2 = n2) by (unfold all_links in *; cbn [st as_added] in Y2; congruence). subst y1 y2.
    rewrite Ed', (Det t n1 _ _ H1 (HF1 t)), (Det t n2 _ _ H2 (HF2 t)). reflexivity. }
  pose proof (st_now _ _ _ _ _ _ _ _ Hr1 jids N Hk1 q v t0 Ha1 Hs) as Now.
  assert (Q1 : p1 = F1 t0) by (apply (Det t0 n1); [rewrite Now; exact P1 | apply HF1]).
  assert (Q2 : p2 = F2 t0) by (apply (Det t0 n2); [rewrite Now; exact P2 | apply HF2]).
  assert (EG : row_times G (a * length ids1 + b) 0 v = 2 * ((row_times J1 0 0 v - row_times J2 0 0 v) * (vx (position p1) - vx (position p2)) + (row_times J1 1 0 v - row_times J2 1 0 v) * (vy (position p1) - vy (position p2)) + (row_times J1 2 0 v - row_times J2 2 0 v) * (vz (position p1) - vz (position p2)))).
  { assert (EC : forall c, (c < length jids)%nat -> entry G (a * length ids1 + b) c = 2 * ((entry J1 0 c - entry J2 0 c) * (vx (position p1) - vx (position p2)) + (entry J1 1 c - entry J2 1 c) * (vy (position p1) - vy (position p2)) + (entry J1 2 c - entry J2 2 c) * (vz (position p1) - vz (position p2)))).
    { intros c Lc. transitivity (nth c (grad_row (length jids + if wb then 6 else 0) J1 J2 (v_sub (position p1) (position p2))) 0); [unfold entry; now rewrite (nth_error_nth _ _ [] Eg)|].
      rewrite grad_entry by (try apply I1; try apply I2; lia). unfold v_sub. cbn [vx vy vz]. rnum. reflexivity. }
    assert (Gen : forall w c0, (c0 + length w <= length jids)%nat -> row_times G (a * length ids1 + b) c0 w = 2 * ((row_times J1 0 c0 w - row_times J2 0 c0 w) * (vx (position p1) - vx (position p2)) + (row_times J1 1 c0 w - row_times J2 1 c0 w) * (vy (position p1) - vy (position p2)) + (row_times J1 2 c0 w - row_times J2 2 c0 w) * (vz (position p1) - vz (position p2)))).
    { induction w as [|x w IH]; intros c0 L; cbn [row_times]; [ring|]. cbn [length] in L. rewrite (EC c0) by lia. rewrite (IH (S c0)) by lia. ring. }
    apply Gen. rewrite Lv. lia. }
  rewrite EG. clear EG. subst p1 p2.
  apply (dext (fun t => sq_norm (v_sub (position (F1 t)) (position (F2 t))))); [intros; now rewrite Ed|].
  pose proof (D1 0%nat ltac:(lia)) as A0. pose proof (D1 1%nat ltac:(lia)) as A1. pose proof (D1 2%nat ltac:(lia)) as A2.
  pose proof (D2 0%nat ltac:(lia)) as B0. pose proof (D2 1%nat ltac:(lia)) as B1. pose proof (D2 2%nat ltac:(lia)) as B2.
  unfold reported, link_row in *. cbn [nth app v_list] in *.
  assert (SQ : forall f g df dg, derivable_pt_lim f t0 df -> derivable_pt_lim g t0 dg -> derivable_pt_lim (fun t => (f t - g t) * (f t - g t)) t0 (2 * ((df - dg) * (f t0 - g t0)))).
  { intros f h df dg Hf Hg. pose proof (derivable_pt_lim_minus f h t0 df dg Hf Hg) as HM.
    pose proof (derivable_pt_lim_mult _ _ _ _ _ HM HM) as H2. apply (dext ((f - h) * (f - h))%F); [reflexivity|].
    replace (2 * ((df - dg) * (f t0 - h t0))) with ((df - dg) * (f - h)%F t0 + (f - h)%F t0 * (df - dg)) by (unfold minus_fct; ring). exact H2. }
  pose proof (SQ _ _ _ _ A0 B0) as Q0. pose proof (SQ _ _ _ _ A1 B1) as Q1. pose proof (SQ _ _ _ _ A2 B2) as Q2. clear SQ.
  pose proof (derivable_pt_lim_plus _ _ _ _ _ (derivable_pt_lim_plus _ _ _ _ _ Q0 Q1) Q2) as QQ.
  match type of QQ with derivable_pt_lim ?f _ ?l => apply (dext f); [|match goal with |- derivable_pt_lim _ _ ?l' => replace l' with l; [exact QQ|] end] end.
  - intros t. unfold plus_fct, sq_norm, v_sub. cbn [vx vy vz]. rnum. reflexivity.
  - change (@num RA) with Rdefinitions.R. ring.
Qed.
End Dist.
