(** The velocities of all links when the joints move (lemmas for C110). *)
From Coq Require Import String List Arith Lia Bool Permutation Reals Lra.
From Coquelicot Require Import Coquelicot.
From Verif Require Import Base Num Pose DataStructure Urdf Kin Wrapper Spec_Robot Spec_Hist Spec_Load Spec_Jac Spec_Rot Spec_Deriv RealArith
  Pf_Base Pf_Data Inv Pf_FK Pf_Frame Pf_Rp Rep Pf_Ops Pf_Name Pf_Ctor Pf_Reach Pf_Jac Pf_Safe Pf_Pose Pf_Local Pf_Real Pf_Rot Pf_Unit Pf_Rpy Pf_Chain Pf_Deriv Pf_JacD
  Pf_Velocity Pf_Velocity2.
Import ListNotations.
Local Open Scope R_scope.

Ltac vring := apply v_eq; proj; rnum; change (@num RA) with R in *; ring.

(** ** one joint *)
Definition own_v (j : @UJoint RA) (C : pose) : vec := match uj_type j with PRISMATIC => q_rot (rotation C) (uj_axis j) | _ => v_clear end.
Definition own_w (j : @UJoint RA) (C : pose) : vec := match uj_type j with REVOLUTE | CONTINUOUS => q_rot (rotation C) (uj_axis j) | _ => v_clear end.

Lemma axis_moves u q t q' : unit_vector u -> derivable_pt_lim q t q' -> moves (fun s => mkPose v_clear (axis_q u (q s))) t v_clear (vscale q' u).
Proof.
  intros U H. split.
  - intros i. destruct (moves_const (mkPose v_clear q_clear) t) as (D & _). exact (D i).
  - intros k. cbn [rotation]. pose proof (axis_q_derive q_clear u q_clear (q t) k) as D. 
    assert (E : forall a, q_mul (q_mul q_clear a) q_clear = a) by (intros a; unfold q_mul, q_clear; apply q_eq; proj; rnum; ring).
    rewrite E in D. pose proof (derivable_pt_lim_comp _ _ _ _ _ H D) as Y.
    match type of Y with derivable_pt_lim _ _ ?a => match goal with |- derivable_pt_lim _ _ ?b => replace b with a end end.
    + eapply dext; [|exact Y]. intros s. unfold comp. now rewrite E.
    + rewrite axis_q'_mul by exact U. unfold qscale, q_mul, qv, vscale. destruct k as [|[|[|k]]]; cbn [qcomp qx qy qz qw vx vy vz]; rnum; ring.
Qed.
Lemma slide_moves (u : vec) q t q' : derivable_pt_lim q t q' ->
  moves (fun s => mkPose (@V3 RA (vx u * q s) (vy u * q s) (vz u * q s)) q_clear) t (vscale q' u) v_clear.
Proof.
  intros H. apply der in H. split.
  - intros i. apply is_deriv. cbn [position]. unfold vscale. destruct u as [u1 u2 u3]. change (@num RA) with R in *. destruct i as [|[|i]]; cbn [vcomp vx vy vz]; rnum;
      (auto_derive; [dv | repeat change (Derive (fun u => q u) t) with (Derive q t); rewrite ?(is_derive_unique q t q' H); ring]).
  - intros k. destruct (moves_const (mkPose v_clear q_clear) t) as (_ & D). exact (D k).
Qed.

Lemma moves_eq P t v w v' w' : moves P t v w -> v = v' -> w = w' -> moves P t v' w'.
Proof. now intros H -> ->. Qed.
Lemma moves_ext P P' t v w : (forall s, P s = P' s) -> moves P t v w -> moves P' t v w.
Proof.
  intros E (A & B). split; intros k; [eapply dext; [|exact (A k)] | rewrite <- E; eapply dext; [|exact (B k)]]; intros s; cbn beta; now rewrite E.
Qed.

Lemma shift_1 (v w x p : vec) : v_add (v_add v (cross_product w x)) (cross_product w v_clear) = v_add v (cross_product w (v_sub (v_add v_clear (v_add x p)) p)).
Proof. unfold v_sub, v_add, v_clear, cross_product. vring. Qed.
Lemma shift_2 (v w x y p : vec) : v_add (v_add v (cross_product w x)) (cross_product w y) = v_add v (cross_product w (v_sub (v_add y (v_add x p)) p)).
Proof. unfold v_sub, v_add, cross_product. vring. Qed.

Lemma joint_moves js j P t v w q q' : axes_ok js -> In j js -> (forall s, unit_q (rotation (P s))) -> moves P t v w -> derivable_pt_lim q t q' ->
  let C := pose_transform (P t) (motion j (q t)) in
  moves (fun s => pose_transform (P s) (motion j (q s))) t
    (v_add (v_add v (cross_product w (v_sub (position C) (position (P t))))) (vscale q' (own_v j C)))
    (v_add w (vscale q' (own_w j C))).
Proof.
  intros AX I U HM HQ C. destruct (AX j I) as [Ho Hu]. apply rpy_pose_unit in Ho.
  set (B := fun s => pose_transform (P s) (uj_origin j)).
  assert (UB : forall s, unit_q (rotation (B s))) by (intros s; unfold B; cbn [pose_transform rotation]; now apply unit_mul).
  pose proof (moves_compose P (fun _ => uj_origin j) t v w _ _ HM (moves_const _ t) U) as HB. fold B in HB.
  assert (MC : forall m : M33, mvec m v_clear = v_clear) by (intros m; unfold mvec, v_clear; vring).
  assert (MS : forall (m : M33) (a : R) x, mvec m (vscale a x) = vscale a (mvec m x)) by (intros m a x; unfold mvec, vscale; vring).
  assert (SC : forall a : R, vscale a v_clear = v_clear) by (intros a; unfold vscale, v_clear; vring).
  assert (A0 : forall x : vec, v_add x v_clear = x) by (intros x; unfold v_add, v_clear; vring).
  rewrite !MC in HB. rewrite !A0 in HB.
  assert (ST : uj_type j <> REVOLUTE -> uj_type j <> CONTINUOUS -> uj_type j <> PRISMATIC -> moves (fun s => pose_transform (P s) (motion j (q s))) t
    (v_add (v_add v (cross_product w (v_sub (position C) (position (P t))))) (vscale q' (own_v j C))) (v_add w (vscale q' (own_w j C)))).
  { intros N1 N2 N3. assert (EM : forall a, motion j a = uj_origin j) by (intros a; rewrite motion_is; destruct (uj_type j); congruence).
    apply (moves_ext B); [intros s; unfold B; now rewrite EM|].
    assert (OV : own_v j C = v_clear) by (unfold own_v; destruct (uj_type j); congruence). assert (OW : own_w j C = v_clear) by (unfold own_w; destruct (uj_type j); congruence).
    rewrite OV, OW. eapply moves_eq; [exact HB| |]; rewrite !SC, !A0; [|reflexivity].
    f_equal. f_equal. unfold C. rewrite EM. cbn [pose_transform position]. rewrite quat_mat_rot by apply U. symmetry. apply v_add_sub. }
  destruct (uj_type j) eqn:Ty; try (apply ST; discriminate); clear ST.
  - assert (EM : forall s, pose_transform (P s) (motion j (q s)) = pose_transform (B s) (mkPose v_clear (axis_q (uj_axis j) (q s))))
      by (intros s; rewrite motion_is, Ty; unfold B; rewrite <- pt_assoc by (apply unit_pos; auto); reflexivity).
    apply (moves_ext (fun s => pose_transform (B s) (mkPose v_clear (axis_q (uj_axis j) (q s))))); [intros s; now rewrite EM|].
    eapply moves_eq; [exact (moves_compose B _ t _ _ _ _ HB (axis_moves (uj_axis j) q t q' (Hu ltac:(now left)) HQ) UB)| |].
    + unfold own_v. rewrite Ty. cbn [position]. rewrite !MC, SC, !A0. unfold C. rewrite EM. cbn [pose_transform position].
      rewrite quat_mat_rot, MC by apply UB. unfold B. cbn [pose_transform position]. rewrite quat_mat_rot by apply U. apply shift_1.
    + unfold own_w. rewrite Ty. rewrite MS. f_equal. f_equal. unfold C. rewrite EM. exact (eq_sym (turned_axis (B t) (uj_axis j) (q t) (UB t) (Hu ltac:(now left)))).
  - assert (EM : forall s, pose_transform (P s) (motion j (q s)) = pose_transform (B s) (mkPose v_clear (axis_q (uj_axis j) (q s))))
      by (intros s; rewrite motion_is, Ty; unfold B; rewrite <- pt_assoc by (apply unit_pos; auto); reflexivity).
    apply (moves_ext (fun s => pose_transform (B s) (mkPose v_clear (axis_q (uj_axis j) (q s))))); [intros s; now rewrite EM|].
    eapply moves_eq; [exact (moves_compose B _ t _ _ _ _ HB (axis_moves (uj_axis j) q t q' (Hu ltac:(now right)) HQ) UB)| |].
    + unfold own_v. rewrite Ty. cbn [position]. rewrite !MC, SC, !A0. unfold C. rewrite EM. cbn [pose_transform position].
      rewrite quat_mat_rot, MC by apply UB. unfold B. cbn [pose_transform position]. rewrite quat_mat_rot by apply U. apply shift_1.
    + unfold own_w. rewrite Ty. rewrite MS. f_equal. f_equal. unfold C. rewrite EM. exact (eq_sym (turned_axis (B t) (uj_axis j) (q t) (UB t) (Hu ltac:(now right)))).
  - set (L := fun s => mkPose (@V3 RA (vx (uj_axis j) * q s) (vy (uj_axis j) * q s) (vz (uj_axis j) * q s)) q_clear).
    assert (EM : forall s, pose_transform (P s) (motion j (q s)) = pose_transform (B s) (L s))
      by (intros s; rewrite motion_is, Ty; unfold B, L; rewrite <- pt_assoc by (apply unit_pos; auto); reflexivity).
    apply (moves_ext (fun s => pose_transform (B s) (L s))); [intros s; now rewrite EM|].
    eapply moves_eq; [exact (moves_compose B L t _ _ _ _ HB (slide_moves (uj_axis j) q t q' HQ) UB)| |].
    + unfold own_v. rewrite Ty, MS. f_equal.
      * unfold C. rewrite EM. cbn [pose_transform position]. rewrite quat_mat_rot by apply UB. generalize (mvec (quat_mat (rotation (B t))) (position (L t))). intros x.
        unfold B. cbn [pose_transform position]. rewrite quat_mat_rot by apply U. apply shift_2.
      * f_equal. unfold C. rewrite EM. cbn [pose_transform rotation L]. rewrite q_mul_1r, quat_mat_rot by apply UB. reflexivity.
    + unfold own_w. rewrite Ty. now rewrite !MC, SC.
Qed.

(** ** all joints *)
Definition vsum {X} (f : X -> vec) (l : list X) : vec := fold_right (fun j a => v_add a (f j)) v_clear l.

Lemma vsum_cons {X} (f : X -> vec) j l : vsum f (j :: l) = v_add (vsum f l) (f j).
Proof. reflexivity. Qed.
Lemma vsum_ext {X} (f g : X -> vec) l : (forall j, In j l -> f j = g j) -> vsum f l = vsum g l.
Proof.
  induction l as [|j l IH]; intros H; [reflexivity|]. rewrite !vsum_cons, IH by (intros; apply H; cbn; tauto). rewrite H by (cbn; tauto). reflexivity.
Qed.
Lemma vsum_add {X} (f g : X -> vec) l : vsum (fun j => v_add (f j) (g j)) l = v_add (vsum f l) (vsum g l).
Proof. induction l as [|j l IH]; [unfold vsum, v_add, v_clear; cbn [fold_right]; vring|]. rewrite !vsum_cons, IH. unfold v_add. vring. Qed.
Lemma vsum_cross {X} (f : X -> vec) d l : vsum (fun j => cross_product (f j) d) l = cross_product (vsum f l) d.
Proof. induction l as [|j l IH]; [unfold vsum, cross_product, v_clear; cbn [fold_right]; vring|]. rewrite !vsum_cons, IH. unfold v_add, cross_product. vring. Qed.
Lemma add_0r (x : vec) : v_add x v_clear = x.
Proof. unfold v_add, v_clear. vring. Qed.
Lemma add_0l (x : vec) : v_add v_clear x = x.
Proof. unfold v_add, v_clear. vring. Qed.
Lemma vsum_0 {X} (f : X -> vec) l : (forall j, In j l -> f j = v_clear) -> vsum f l = v_clear.
Proof.
  induction l as [|j l IH]; intros H; [reflexivity|]. rewrite vsum_cons, IH by (intros; apply H; cbn; tauto). rewrite H by (cbn; tauto). apply add_0r.
Qed.
Lemma vsum_one {X} (nm : X -> string) (x : X) (c : vec) l : NoDup (map nm l) -> In x l ->
  vsum (fun j => if String.eqb (nm j) (nm x) then c else v_clear) l = c.
Proof.
  induction l as [|j l IH]; intros N I; [easy|]. cbn [map] in N. apply NoDup_cons_iff in N as [Nj N]. rewrite vsum_cons. destruct I as [->|I].
  - rewrite String.eqb_refl. rewrite vsum_0; [apply add_0l|]. intros j' I'. destruct (String.eqb_spec (nm j') (nm x)) as [E|]; [|reflexivity].
    exfalso. apply Nj. rewrite <- E. now apply in_map.
  - destruct (String.eqb_spec (nm j) (nm x)) as [E|]; [exfalso; apply Nj; rewrite E; now apply in_map|]. rewrite IH by auto. apply add_0r.
Qed.
Lemma scale_0 (x : vec) : vscale 0 x = v_clear.
Proof. unfold vscale, v_clear. vring. Qed.
Lemma scale_clear (a : R) : vscale a v_clear = v_clear.
Proof. unfold vscale, v_clear. vring. Qed.
Lemma scale_add (a : R) (x y : vec) : vscale a (v_add x y) = v_add (vscale a x) (vscale a y).
Proof. unfold vscale, v_add. vring. Qed.
Lemma scale_cross (a : R) (x y : vec) : vscale a (cross_product x y) = cross_product (vscale a x) y.
Proof. unfold vscale, cross_product. vring. Qed.
Lemma cross_0 (y : vec) : cross_product v_clear y = v_clear.
Proof. unfold cross_product, v_clear. vring. Qed.
Lemma cross_same (x y : vec) : cross_product x (v_sub y y) = v_clear.
Proof. unfold cross_product, v_clear, v_sub. vring. Qed.
Lemma cross_shift (w e p c : vec) : cross_product w (v_sub e c) = v_add (cross_product w (v_sub p c)) (cross_product w (v_sub e p)).
Proof. unfold cross_product, v_add, v_sub. vring. Qed.
Lemma rot_shift (x p : vec) : v_sub (v_add x p) p = x.
Proof. unfold v_add, v_sub. vring. Qed.

Section Chain.
Context (R : @Robot RA) (root : string) (sorted : list (string * option (@Inertial RA))) (jsorted : list (@UJoint RA)).
Context (ms : list (string * @Inertial RA)) (mass : @num RA) (s : @AState RA) (m : @KM RA).
Context (HR : Rep R root sorted jsorted ms mass s m).
Context (ND : NoDup (map uj_name (r_joints R))) (NC : NoDup (map uj_child (r_joints R))) (AX : axes_ok (r_joints R)) (AD : added_ok (as_added s)).
Context (B : @Pose RA) (UB : unit_q (rotation B)).
Context (Ls : list (@UJoint RA)) (qf : Rdefinitions.R -> string -> Rdefinitions.R) (dq : string -> Rdefinitions.R) (t0 : Rdefinitions.R).
Context (LN : NoDup (map uj_name Ls)) (LI : forall j, In j Ls -> In j (r_joints R) /\ is_movable (uj_type j)).
Context (Hd : forall j, In j (r_joints R) -> derivable_pt_lim (fun t => qf t (uj_name j)) t0 (dq (uj_name j))).
Context (Hz : forall j, In j (r_joints R) -> ~ In j Ls -> dq (uj_name j) = 0).
Notation js := (r_joints R).
Notation added := (as_added s).

Lemma hangs_same i i' n n' p p' J J' : hangs (links m) i n p J -> hangs (links m) i' n' p' J' -> n = n' -> p = p' /\ J = J'.
Proof.
  intros (l & k & lp & E1 & E2 & E3 & E4 & E5 & E6) (l' & k' & lp' & F1 & F2 & F3 & F4 & F5 & F6) <-.
  assert (i = i') by (eapply (name_inj _ _ _ _ _ _ _ _ HR); eauto; congruence). subst i'. split; congruence.
Qed.

(** a joint that carries a link, and is not the one it hangs on, carries the link above it *)
Lemma carries_up_joint j jj : In j js -> In jj js -> j <> jj -> carries js added j (uj_child jj) -> carries js added j (uj_parent jj).
Proof.
  intros I II Ne H. pose proof (rep_named _ _ _ _ _ _ _ _ HR) as NM. destruct (nm_joint _ _ _ _ NM jj II) as (ii & JJ & HJ & _).
  remember (uj_child jj) as n eqn:En. destruct H as [|j' I' H|n p T I' H].
  - exfalso. apply Ne. assert (X : forall a b, In a js -> In b js -> uj_child a = uj_child b -> a = b); [|auto].
    intros a b Ia Ib E. apply In_nth_error in Ia as (x & Ex), Ib as (y & Ey). rewrite NoDup_nth_error in NC.
    assert (x = y); [apply NC; [rewrite map_length; eapply nth_error_lt; eauto | rewrite !nth_error_map', Ex, Ey; simpl; now rewrite E] | congruence].
  - destruct (nm_joint _ _ _ _ NM j' I') as (i' & J' & HJ' & _). destruct (hangs_same _ _ _ _ _ _ _ _ HJ HJ' eq_refl) as [-> _]. exact H.
  - destruct (nm_added _ _ _ _ NM n p T I') as (i' & HJ'). destruct (hangs_same _ _ _ _ _ _ _ _ HJ HJ' eq_refl) as [-> _]. exact H.
Qed.
Lemma carries_up_added j n p T : In j js -> is_movable (uj_type j) -> In (n, p, T) added -> carries js added j n -> carries js added j p.
Proof.
  intros I Mv Ia H. pose proof (rep_named _ _ _ _ _ _ _ _ HR) as NM. destruct (nm_added _ _ _ _ NM n p T Ia) as (ii & HJ).
  revert Ia HJ. destruct H as [|j' I' H|n p' T' I' H]; intros Ia HJ.
  - exfalso. destruct (nm_joint _ _ _ _ NM j I) as (i' & J' & HJ' & SJ). destruct (hangs_same _ _ _ _ _ _ _ _ HJ HJ' eq_refl) as [_ E]. subst J'.
    destruct SJ as [_ Ty _ _]. cbn [fixed_joint j_type] in Ty. destruct Mv as [X|[X|X]]; congruence.
  - destruct (nm_joint _ _ _ _ NM j' I') as (i' & J' & HJ' & _). destruct (hangs_same _ _ _ _ _ _ _ _ HJ HJ' eq_refl) as [-> _]. exact H.
  - destruct (nm_added _ _ _ _ NM n p' T' I') as (i' & HJ'). destruct (hangs_same _ _ _ _ _ _ _ _ HJ HJ' eq_refl) as [-> _]. exact H.
Qed.

(** what joint [j] adds to the velocities of link [n] at pose [E], per unit of its own speed *)
Definition contributes (j : @UJoint RA) (n : string) (E : @Pose RA) (gv gw : vec) : Prop :=
  (~ carries js added j n -> gv = v_clear /\ gw = v_clear) /\
  (carries js added j n -> exists C, fk js root added (qf t0) B (uj_child j) C /\
     match uj_type j with
     | PRISMATIC => gv = q_rot (rotation C) (uj_axis j) /\ gw = v_clear
     | _ => gv = cross_product (q_rot (rotation C) (uj_axis j)) (v_sub (position E) (position C)) /\ gw = q_rot (rotation C) (uj_axis j)
     end).

Lemma contributes_down j n p E P gv gw : (carries js added j n <-> carries js added j p) -> contributes j p P gv gw ->
  contributes j n E (v_add gv (cross_product gw (v_sub (position E) (position P)))) gw.
Proof.
  intros Hc (H0 & H1). split.
  - intros Nc. rewrite Hc in Nc. destruct (H0 Nc) as [-> ->]. now rewrite cross_0, add_0r.
  - intros Yc. apply Hc in Yc. destruct (H1 Yc) as (C & HC & H). exists C. split; [exact HC|].
    destruct (uj_type j); destruct H as [-> ->]; (split; [|reflexivity]); try (symmetry; apply cross_shift). now rewrite cross_0, add_0r.
Qed.

Lemma fk_moves n E : fk js root added (qf t0) B n E -> exists P gv gw, P t0 = E /\ (forall t, fk js root added (qf t) B n (P t)) /\ (forall t, unit_q (rotation (P t))) /\
  (forall j, In j Ls -> contributes j n E (gv j) (gw j)) /\
  moves P t0 (vsum (fun j => vscale (dq (uj_name j)) (gv j)) Ls) (vsum (fun j => vscale (dq (uj_name j)) (gw j)) Ls).
Proof.
  intros H. induction H as [|jj E I H IH|n p T E I H IH].
  - exists (fun _ => B), (fun _ => v_clear), (fun _ => v_clear). split; [reflexivity|]. split; [intros t; constructor|]. split; [auto|]. split.
    + intros j Ij. split; [auto|]. intros Hc. exfalso.
      destruct (nm_root _ _ _ _ (rep_named _ _ _ _ _ _ _ _ HR)) as (i & l & E1 & E2 & E3). pose proof (rep_named _ _ _ _ _ _ _ _ HR) as NM.
      assert (X : forall i' n' p' J', hangs (links m) i' n' p' J' -> n' <> root).
      { intros i' n' p' J' (l' & k' & lp' & F1 & F2 & F3 & F4 & F5 & F6) En. assert (i = i') by (eapply (name_inj _ _ _ _ _ _ _ _ HR); eauto; congruence). congruence. }
      remember root as n eqn:En. destruct Hc as [|j' I' Hc|n p T I' Hc].
      * destruct (nm_joint _ _ _ _ NM j (proj1 (LI j Ij))) as (i' & J' & HJ' & _). exact (X _ _ _ _ HJ' eq_refl).
      * destruct (nm_joint _ _ _ _ NM j' I') as (i' & J' & HJ' & _). exact (X _ _ _ _ HJ' eq_refl).
      * destruct (nm_added _ _ _ _ NM n p T I') as (i' & HJ'). exact (X _ _ _ _ HJ' eq_refl).
    + eapply moves_eq; [apply moves_const| |]; symmetry; apply vsum_0; intros; apply scale_clear.
  - destruct IH as (P & gv & gw & P0 & HP & UP & CT & HM). subst E.
    set (C := pose_transform (P t0) (motion jj (qf t0 (uj_name jj)))) in *.
    set (d := v_sub (position C) (position (P t0))).
    exists (fun t => pose_transform (P t) (motion jj (qf t (uj_name jj)))).
    exists (fun j => if String.eqb (uj_name j) (uj_name jj) then own_v jj C else v_add (gv j) (cross_product (gw j) d)).
    exists (fun j => if String.eqb (uj_name j) (uj_name jj) then own_w jj C else gw j).
    split; [reflexivity|]. split; [intros t; apply fk_joint; auto|].
    split; [intros t; cbn [pose_transform rotation]; apply unit_mul; auto; eapply motion_unit; eauto|].
    assert (SN : forall j, In j Ls -> uj_name j = uj_name jj -> j = jj) by (intros j Ij E; apply (same_name_same_joint R); auto; now apply LI).
    assert (J0 : In jj Ls -> gv jj = v_clear /\ gw jj = v_clear) by (intros Ij; apply (CT jj Ij); now apply (parent_not_carried _ _ _ _ _ _ _ _ HR)).
    split.
    + intros j Ij. destruct (String.eqb_spec (uj_name j) (uj_name jj)) as [E|Ne].
      * apply SN in E; auto. subst j. destruct (LI jj Ij) as [_ Mv]. split; [intros X; exfalso; apply X; constructor|]. intros _. exists C. split; [now apply fk_joint|].
        unfold own_v, own_w. destruct Mv as [-> |[-> | ->]]; (split; [|reflexivity]); try reflexivity; symmetry; apply cross_same.
      * apply (contributes_down j (uj_child jj) (uj_parent jj) C (P t0)); [|now apply CT]. split; [apply carries_up_joint; auto; [now apply LI | congruence] | now apply carries_joint].
    + assert (K : forall c, vsum (fun j => if String.eqb (uj_name j) (uj_name jj) then vscale (dq (uj_name jj)) c else v_clear) Ls = vscale (dq (uj_name jj)) c).
      { intros c. destruct (in_dec string_dec (uj_name jj) (map uj_name Ls)) as [Y|Nj].
        - apply in_map_iff in Y as (j & E & Ij). apply SN in E as E'; auto. subst j. now apply vsum_one.
        - rewrite Hz, scale_0; [|exact I|intros Ij; apply Nj; now apply in_map]. apply vsum_0. intros j Ij. now destruct (String.eqb _ _). }
      eapply moves_eq; [exact (joint_moves js jj P t0 _ _ (fun t => qf t (uj_name jj)) _ AX I UP HM (Hd jj I))| |].
      * cbv beta zeta. fold C d. rewrite <- (K (own_v jj C)), <- vsum_cross, <- !vsum_add. apply vsum_ext. intros j Ij. destruct (String.eqb_spec (uj_name j) (uj_name jj)) as [E|Ne].
        -- apply SN in E; auto. subst j. destruct (J0 Ij) as [-> ->]. now rewrite scale_clear, cross_0, !add_0l.
        -- now rewrite scale_add, scale_cross, add_0r.
      * cbv beta zeta. fold C. rewrite <- (K (own_w jj C)), <- !vsum_add. apply vsum_ext. intros j Ij. destruct (String.eqb_spec (uj_name j) (uj_name jj)) as [E|Ne].
        -- apply SN in E; auto. subst j. destruct (J0 Ij) as [_ ->]. now rewrite scale_clear, !add_0l.
        -- apply add_0r.
  - destruct IH as (P & gv & gw & P0 & HP & UP & CT & HM). subst E.
    set (d := v_sub (position (pose_transform (P t0) T)) (position (P t0))).
    exists (fun t => pose_transform (P t) T), (fun j => v_add (gv j) (cross_product (gw j) d)), gw.
    split; [reflexivity|]. split; [intros t; eapply fk_added; eauto|].
    split; [intros t; cbn [pose_transform rotation]; apply unit_mul; auto; apply rpy_pose_unit; eapply AD; eauto|]. split.
    + intros j Ij. apply (contributes_down j n p _ (P t0)); [|now apply CT]. destruct (LI j Ij) as [Ij' Mv].
      split; [eapply carries_up_added; eauto | eapply carries_added; eauto].
    + eapply moves_eq; [exact (moves_compose P (fun _ => T) t0 _ _ _ _ HM (moves_const _ t0) UP)| |].
      * assert (MC : forall m : M33, mvec m v_clear = v_clear) by (intros m1; unfold mvec, v_clear; vring). rewrite MC, add_0r, <- vsum_cross, <- vsum_add.
        apply vsum_ext. intros j Ij. rewrite scale_add, scale_cross. do 2 f_equal. unfold d. cbn [pose_transform position]. rewrite quat_mat_rot by apply UP. now rewrite rot_shift.
      * assert (MC : forall m : M33, mvec m v_clear = v_clear) by (intros m1; unfold mvec, v_clear; vring). now rewrite MC, add_0r.
Qed.
End Chain.
