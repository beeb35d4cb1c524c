(** Histories and poses with doubles and with rounded real numbers. *)
From Coq Require Import ZArith QArith Qreals Reals Lra Lia String Ascii List Bool Permutation Sorted.
From Flocq Require Import Core BinarySingleNaN.
From Verif Require Import Base Num Pose DataStructure Urdf Kin Wrapper Decimal RealArith FloatArith Ieee Spec_Robot Spec_Hist Spec_Load Spec_Float Spec_Ieee Ex_Float
  Pf_Urdf Pf_Reach Pf_Real Pf_Rot Pf_BaseD Pf_Float1 Pf_Float2 Pf_Float3 Pf_Float4 Pf_Float5 Pf_Ieee1 Pf_Ieee2 Pf_Ieee3.
Import ListNotations.
Local Open Scope R_scope.

Section Runs.
Variable pf : Platform.
Variable u : R.
Hypothesis Hpf : platform_ok pf u.
Hypothesis Hu : double_unit <= u <= / 1000.
Variables A L : R.
Hypothesis HA : 0 <= A.
Hypothesis HL : 1 <= L.
Hypothesis HLb : L <= bpow radix2 900.
Hypothesis HAb : A <= bpow radix2 32.
Hypothesis Hw : unit_err u A <= / 10000.
Notation o := (ieee pf).
Notation w := (unit_err u A).
Notation e := (1000 * unit_err u A).
Let Hu1 : double_unit <= u := proj1 Hu.
Let Hu0 : 0 <= u <= / 1000.
Proof. unfold double_unit in Hu. lra. Qed.
Let Hacc : accurate o u := ieee_accurate pf u Hpf Hu1.

Lemma sim_cut k l x r : sim k x r -> Rabs r <= bpow radix2 l -> sim l x r.
Proof. intros (F & V & _) B. split; [exact F|]. now split. Qed.
Lemma simv_cut k l a b : simv pf k a b -> Rabs (vx b) <= bpow radix2 l -> Rabs (vy b) <= bpow radix2 l -> Rabs (vz b) <= bpow radix2 l -> simv pf l a b.
Proof. intros (X & Y & Z) BX BY BZ. split; [|split]; eapply sim_cut; eauto. Qed.
Lemma simq_cut k a b : simq pf k a b -> small_q pf b -> simq pf 1 a b.
Proof. intros (X & Y & Z & W) (BX & BY & BZ & BW). split; [|split; [|split]]; eapply sim_cut; eauto. Qed.

Lemma near_small (q' : @Rotation (FA o)) (q : quat) : unit_q q -> dist (qR o q') q <= 1 -> small_q pf q'.
Proof.
  intros U D. destruct (comp_N q) as (X & Y & Z & W). rewrite (N_unit q U) in *. destruct (comp_N (q_minus (qR o q') q)) as (X' & Y' & Z' & W').
  fold (dist (qR o q') q) in *. unfold q_minus, qR in X', Y', Z', W'. cbn [qx qy qz qw] in X', Y', Z', W'.
  assert (K : forall a b : R, Rabs b <= 1 -> Rabs (a - b) <= dist (qR o q') q -> Rabs a <= 2).
  { intros a b Hb Hab. replace a with ((a - b) + b) by ring. eapply Rle_trans; [apply Rabs_triang|]. lra. }
  split; [|split; [|split]]; [apply (K _ (qx q)) | apply (K _ (qy q)) | apply (K _ (qz q)) | apply (K _ (qw q))]; assumption.
Qed.
Lemma near_small_inv (q' : @Rotation (FA o)) (q : quat) : unit_q q -> dist (qR o q') q <= / 20 -> small_q pf (q_GetInverse q').
Proof.
  intros U D. apply (near_small _ (qconj q)).
  - unfold unit_q, qn, qconj in *. cbn [qx qy qz qw] in *. rewrite <- U. rnum. ring.
  - eapply Rle_trans; [apply (round_inverse o u Hacc Hu0 q' q (/ 20)); auto; lra|]. lra.
Qed.
Lemma near_vec (v' : @Vector3 (FA o)) (v : vec) B k : nv v + dv (vR o v') v <= B -> B <= bpow radix2 k -> Rabs (vx v') <= bpow radix2 k /\ Rabs (vy v') <= bpow radix2 k /\ Rabs (vz v') <= bpow radix2 k.
Proof.
  intros H HB. destruct (comp_nv v) as (X & Y & Z). destruct (comp_dv (vR o v') v) as (X' & Y' & Z'). cbn [vR vx vy vz] in X', Y', Z'.
  assert (K : forall a b : R, Rabs b <= nv v -> Rabs (a - b) <= dv (vR o v') v -> Rabs a <= bpow radix2 k).
  { intros a b Hb Hab. replace a with ((a - b) + b) by ring. eapply Rle_trans; [apply Rabs_triang|]. lra. }
  split; [|split]; [apply (K _ (vx v)) | apply (K _ (vy v)) | apply (K _ (vz v))]; assumption.
Qed.

Lemma e_small : 0 <= w /\ e <= / 10.
Proof. assert (0 <= w) by (unfold unit_err; apply Rmult_le_pos; lra). split; lra. Qed.
Lemma two_L : 2 * L <= bpow radix2 901.
Proof. change 901%Z with (900 + 1)%Z. rewrite bpow_plus. change (bpow radix2 1) with 2. lra. Qed.

(** a stored pose near an exact one *)
Lemma near_pose_sim k p p' q : simv pf k (position p) (position p') -> if_small pf (rotation p) (rotation p') -> pose_near o e L p' q -> simp pf 901 p p'.
Proof.
  intros V Q Nr. destruct (pose_near_close o e L p' q Nr) as (U & S & C1 & C2). destruct e_small as [W0 E1].
  assert (eL : e * L <= / 10 * L) by (apply Rmult_le_compat_r; lra). split.
  - destruct (near_vec (position p') (position q) (2 * L) 901 ltac:(lra) two_L) as (X & Y & Z). eapply simv_cut; eauto.
  - apply Q. apply (near_small _ (rotation q) U). lra.
Qed.

(** * States *)
Definition frame_sim (a : string * string * @Pose (DA pf)) (b : string * string * @Pose (FA o)) : Prop := fst a = fst b /\ simp pf 901 (snd a) (snd b).
Record state_sim (s : @AState (DA pf)) (t : @AState (FA o)) : Prop := {
  ss_added : Forall2 frame_sim (as_added s) (as_added t);
  ss_angles : same_numbers (as_angles s) (as_angles t);
  ss_base : simp pf 901 (as_base s) (as_base t) }.

Lemma sim_frames_names l l' : Forall2 frame_sim l l' -> map (fun a => fst (fst a)) l = map (fun a => fst (fst a)) l'.
Proof. intros H. induction H as [|a a' l l' [Ha _] H IH]; [reflexivity|]. cbn [map]. now rewrite Ha, IH. Qed.

Lemma zero_same : same_number (@n0 (DA pf)) 0.
Proof. destruct (lit0 pf u Hpf Hu1) as [(F & V & _) E]. split; [exact F|]. now rewrite V, E. Qed.
Lemma same_nth l l' k : same_numbers l l' -> same_number (nth k l (@n0 (DA pf))) (nth k l' 0).
Proof. intros H. revert k. induction H as [|x r l l' Hx H IH]; intros k; [destruct k; exact zero_same|]. destruct k; cbn [nth]; auto. Qed.
Lemma same_set l l' k x r : same_numbers l l' -> same_number x r -> same_numbers (list_set l k x) (list_set l' k r).
Proof. intros H Hx. revert k. induction H as [|y s l l' Hy H IH]; intros k; [destruct k; constructor|]. destruct k; cbn [list_set]; constructor; auto. apply IH. Qed.
Lemma same_assign jids a a' l l' : same_numbers a a' -> same_numbers l l' -> same_numbers (@assign (DA pf) jids a l) (@assign (FA o) jids a' l').
Proof.
  intros H. unfold assign. revert jids l l'. induction H as [|x r a a' Hx H IH]; intros jids l l' Hl; destruct jids as [|j jids]; cbn [combine fold_left]; auto.
  apply IH. cbn [fst snd]. now apply same_set.
Qed.
Lemma same_skip n l l' : same_numbers l l' -> same_numbers (skipn n l) (skipn n l').
Proof. intros H. revert n. induction H as [|x r l l' Hx H IH]; intros n; destruct n; cbn [skipn]; try constructor; auto. Qed.
Lemma same_length l l' : same_numbers l l' -> List.length l = List.length l'.
Proof. intros H. induction H; cbn [List.length]; congruence. Qed.

Lemma same_sim x r k : same_number x r -> Rabs r <= bpow radix2 k -> sim k x r.
Proof. intros [F V] B. split; [exact F|]. now split. Qed.

Lemma rpy_sim (pos : @Vector3 (DA pf)) (pos' : @Vector3 (FA o)) r p y r' p' y' : simv pf 901 pos pos' ->
  same_number r r' -> same_number p p' -> same_number y y' -> Rabs r' <= A -> Rabs p' <= A -> Rabs y' <= A ->
  if_small pf (@setFromRPY (DA pf) r p y) (@setFromRPY (FA o) r' p' y').
Proof.
  intros V Sr Sp Sy Br Bp By Sm. assert (K : bpow radix2 32 <= bpow radix2 1001) by (apply bpow_le; lia).
  eapply (sim_rpy pf u Hpf Hu); auto; apply same_sim; auto; lra.
Qed.

Lemma small_num x : Rabs x <= L -> Rabs x <= bpow radix2 901.
Proof. intros H. pose proof two_L. pose proof (Rabs_pos x). lra. Qed.
Lemma same_vec_sim a b c : vx a = vx c -> vy a = vy c -> vz a = vz c -> same_vec pf b a -> nv a <= L -> simv pf 901 b (@V3 (FA o) (vx c) (vy c) (vz c)).
Proof.
  intros E1 E2 E3 (X & Y & Z) S. destruct (comp_nv a) as (B1 & B2 & B3). rewrite E1 in *. rewrite E2 in *. rewrite E3 in *.
  split; [|split]; apply same_sim; auto; apply small_num; cbn [vx vy vz]; lra.
Qed.

Lemma pose6_sim b b' : same_numbers b b' -> base_within A L b' -> simp pf 901 (@pose6 (DA pf) b) (@pose6 (FA o) b').
Proof.
  intros H W. pose proof (pose6_near o u Hacc Hu0 A L HA HL Hw b' W) as Nr. destruct W as [S (H1 & H2 & H3)]. rewrite vlen_nv in S. cbn [vx vy vz] in H1, H2, H3.
  assert (E0 : @n0 (FA o) = 0) by exact (proj2 (lit0 pf u Hpf Hu1)).
  assert (V : simv pf 901 (position (@pose6 (DA pf) b)) (position (@pose6 (FA o) b'))).
  { unfold pose6. cbn [position]. rewrite E0. destruct (comp_nv (@V3 RA (nth 0 b' 0) (nth 1 b' 0) (nth 2 b' 0))) as (B1 & B2 & B3). cbn [vx vy vz] in B1, B2, B3.
    split; [|split]; cbn [vx vy vz]; (apply same_sim; [now apply same_nth|]; apply small_num; eapply Rle_trans; [first [exact B1 | exact B2 | exact B3] | exact S]). }
  apply (near_pose_sim 901 _ _ (@pose6 RA b')); [exact V| |exact Nr].
  unfold pose6. cbn [rotation]. rewrite E0. eapply rpy_sim; eauto; now apply same_nth.
Qed.

Lemma way_sim jids wb q q' s t : same_numbers q q' -> (wb = true -> base_within A L (skipn (List.length q' - 6) q')) ->
  state_sim s t -> state_sim (@at_waypoint (DA pf) jids wb q s) (@at_waypoint (FA o) jids wb q' t).
Proof.
  intros H B [Sa Sn Sb]. split; cbn [at_waypoint as_added as_angles as_base]; [exact Sa | now apply same_assign|].
  destruct wb; [|exact Sb]. change (@num (DA pf)) with double. rewrite (same_length _ _ H). apply pose6_sim; [now apply same_skip | now apply B].
Qed.
Lemma ways_sim jids wb qs qs' : Forall2 same_numbers qs qs' -> bases_within A L wb qs' -> forall s t, state_sim s t ->
  state_sim (fold_left (fun s q => @at_waypoint (DA pf) jids wb q s) qs s) (fold_left (fun s q => @at_waypoint (FA o) jids wb q s) qs' t).
Proof.
  intros F. induction F as [|q q' qs qs' H F IH]; intros Hb s t S; [exact S|]. cbn [fold_left]. apply IH.
  - intros W q1 Hq. apply Hb; [exact W|now right].
  - apply way_sim; [exact H| |exact S]. intros W. apply Hb; [exact W|now left].
Qed.

(** the numbers of a finite pose *)
Definition v_of (v : @Vector3 (DA pf)) : @Vector3 (FA o) := @V3 (FA o) (value (vx v)) (value (vy v)) (value (vz v)).
Definition q_of (q : @Rotation (DA pf)) : @Rotation (FA o) := @Q4 (FA o) (value (qx q)) (value (qy q)) (value (qz q)) (value (qw q)).
Lemma finite_max (x : double) : finite x -> sim 1024 x (value x).
Proof. intros F. split; [exact F|]. split; [reflexivity|]. left. apply abs_B2R_lt_emax. Qed.

Lemma step_sim names c c' : double_call pf e A L c c' -> exists d, same_call o e A L d c' /\
  (clean_step c = clean_step d) /\
  forall s t s', state_sim s t -> state_near o u A L t s' -> state_sim (abs_step names c s) (abs_step names d t).
Proof.
  intros C. destruct C.
  - exists (@Op_set_joint_angles (FA o) jids a'). split; [constructor|]. split; [reflexivity|]. intros s t s' [Sa Sn Sb] _. split; cbn [abs_step as_added as_angles as_base]; auto. now apply same_assign.
  - exists (@Op_set_joint_angle (FA o) j a'). split; [constructor|]. split; [reflexivity|]. intros s t s' [Sa Sn Sb] _. split; cbn [abs_step as_added as_angles as_base]; auto. now apply same_set.
  - exists (@Op_set_base_pose (FA o) (@mkPose (FA o) (v_of (position p)) (q_of (rotation p)))).
    assert (Nr : pose_near o e L (@mkPose (FA o) (v_of (position p)) (q_of (rotation p))) p') by (split; assumption).
    split; [now constructor|]. split; [reflexivity|]. intros s t s' [Sa Sn Sb] _. split; cbn [abs_step as_added as_angles as_base]; auto.
    destruct H as [(F1 & F2 & F3) (G1 & G2 & G3 & G4)]. apply (near_pose_sim 1024 _ _ p'); [| |exact Nr]; cbn [position rotation].
    + split; [|split]; now apply finite_max.
    + intros Sm. apply (simq_cut 1024); [|exact Sm]. split; [|split; [|split]]; now apply finite_max.
  - exists (@Op_set_base_xyzrpy (FA o) v'). split; [now constructor|]. split; [unfold clean_step; change (@num (DA pf)) with double; now rewrite (same_length _ _ H)|]. intros s t s' S _. cbn [abs_step].
    change (@num (DA pf)) with double. rewrite (same_length _ _ H). change (@num (FA o)) with R. destruct (Nat.eqb (List.length v') 6); [|exact S]. destruct S as [Sa Sn Sb]. split; cbn [as_added as_angles as_base]; auto. now apply pose6_sim.
  - exists (@Op_set_init_angles (FA o)). split; [constructor|]. split; [reflexivity|]. intros s t s' [Sa Sn Sb] _. split; cbn [abs_step as_added as_angles as_base]; auto.
    rewrite (proj2 (lit0 pf u Hpf Hu1)). unfold same_numbers in *. clear - Sn Hpf Hu1. induction Sn; cbn [map]; constructor; auto. apply zero_same.
  - exists (@Op_add_new_link (FA o) n k (@V3 (FA o) (vx pos') (vy pos') (vz pos')) (@V3 (FA o) (vx rpy') (vy rpy') (vz rpy'))).
    assert (C : same_call o e A L (@Op_add_new_link (FA o) n k (@V3 (FA o) (vx pos') (vy pos') (vz pos')) (@V3 (FA o) (vx rpy') (vy rpy') (vz rpy'))) (Op_add_new_link n k pos' rpy')).
    { apply sc_add_new_link; auto; split; auto. }
    split; [exact C|]. split; [reflexivity|]. intros s t s' [Sa Sn Sb] _. cbn [abs_step]. rewrite (sim_frames_names _ _ Sa). destruct (existsb _ _); [now split|].
    split; cbn [as_added as_angles as_base]; auto. apply Forall2_app; [exact Sa|]. constructor; [|constructor]. split; [reflexivity|]. cbn [snd].
    destruct H0 as (Y1 & Y2 & Y3), H2 as (B1 & B2 & B3). rewrite vlen_nv in H1.
    assert (V : simv pf 901 pos (@V3 (FA o) (vx pos') (vy pos') (vz pos'))) by (eapply same_vec_sim; eauto).
    apply (near_pose_sim 901 _ _ (@mkPose RA pos' (@setFromRPY RA (vx rpy') (vy rpy') (vz rpy')))); cbn [position rotation vx vy vz]; [exact V | eapply rpy_sim; eauto |].
    apply (rpy_near o u Hacc Hu0 A L HA HL Hw); auto using (diff_refl u Hu0 A L HA HL). split; [|split]; cbn [vx vy vz]; apply (rounds_refl u Hu0).
  - exists (@Op_clear_cache (FA o)). split; [constructor|]. split; [reflexivity|]. auto.
  - exists (@Op_get_link_pose (FA o) i). split; [constructor|]. split; [reflexivity|]. auto.
  - exists (@Op_get_jacobian (FA o) i jids rt wb). split; [constructor|]. split; [reflexivity|]. auto.
  - exists (@Op_get_com (FA o)). split; [constructor|]. split; [reflexivity|]. auto.
  - exists (@Op_get_com_jacobian (FA o) jids wb). split; [constructor|]. split; [reflexivity|]. auto.
  - exists (@Op_get_total_inertia_matrix (FA o)). split; [constructor|]. split; [reflexivity|]. auto.
  - exists (@Op_solve_fk (FA o) qs' el jids rt wb wj uc). split; [now constructor|]. split; [reflexivity|]. intros s t s' S _. cbn [abs_step].
    destruct wb; [|now apply ways_sim]. destruct H as [|q0 q0' qs qs' Hq H]; [exact S|]. change (@num (DA pf)) with double. rewrite (same_length _ _ Hq). change (@num (FA o)) with R.
    destruct (Nat.ltb _ 6 || _)%bool; [exact S|]. apply ways_sim; [now constructor | assumption | exact S].
  - exists (@Op_solve_com_fk (FA o) qs' jids ac fo' wb wj). split; [now constructor|]. split; [reflexivity|]. intros s t s' S _. now apply ways_sim.
  - exists (@Op_compute_inertia (FA o) q' jids). split; [constructor|]. split; [reflexivity|]. intros s t s' S _. apply way_sim; [assumption|discriminate|exact S].
  - exists (@Op_sqdists (FA o) qs' i1 i2 jids wb wg uc). split; [now constructor|]. split; [reflexivity|]. intros s t s' S _. now apply ways_sim.
Qed.

Lemma run_sim names ops ops' : Forall2 (double_call pf e A L) ops ops' -> exists opsF, Forall2 (same_call o e A L) opsF ops' /\
  (forall b, fold_left (fun b c => clean_step c b) ops b = fold_left (fun b c => clean_step c b) opsF b) /\
  forall s t s', state_sim s t -> state_near o u A L t s' -> state_sim (abs_run names ops s) (abs_run names opsF t).
Proof.
  intros F. induction F as [|c c' ops ops' C F IH]; [exists []; split; [constructor|]; split; [reflexivity|]; intros s t s' S _; exact S|].
  destruct IH as (opsF & F' & Cl & IH). destruct (step_sim names c c' C) as (d & D & Cd & Hd). exists (d :: opsF). split; [now constructor|]. split.
  - intros b. cbn [fold_left]. rewrite Cd. apply Cl.
  - intros s t s' S Nr. cbn [abs_run fold_left]. apply (IH _ _ (abs_step names c' s')); [eapply Hd; eauto|]. apply step_near; auto.
Qed.

(** * Poses *)
Definition jsim (j : @UJoint (DA pf)) (j' : @UJoint (FA o)) : Prop :=
  uj_name j = uj_name j' /\ uj_type j = uj_type j' /\ uj_parent j = uj_parent j' /\ uj_child j = uj_child j' /\
  simp pf 901 (uj_origin j) (uj_origin j') /\ (is_movable (uj_type j') -> simv pf 1 (uj_axis j) (uj_axis j')).
Lemma joint_jsim j j' j0 : joint_sim pf j j' -> joint_near o e L j' j0 -> jsim j j'.
Proof.
  intros S Nr. destruct S as [S1 S2 S3 S4 [Sv Sq] S6]. split; [exact S1|]. split; [exact S2|]. split; [exact S3|]. split; [exact S4|]. split.
  - eapply near_pose_sim; eauto. apply (jn_origin _ _ _ _ _ Nr).
  - intros M. destruct (jn_axis _ _ _ _ _ Nr M) as [V D]. rewrite vlen_nv in V. rewrite vdist_dv in D. destruct e_small as [W0 E1].
    destruct (near_vec (uj_axis j') (uj_axis j0) 2 1 ltac:(lra) ltac:(right; reflexivity)) as (X & Y & Z). eapply simv_cut; eauto.
Qed.

Lemma gain_e : gain u e A = 1001 * w. Proof. unfold gain, unit_err. ring. Qed.

Lemma motion_sim j j' j0 a r : jsim j j' -> joint_near o e L j' j0 -> same_number a r -> e <= / 1000 ->
  1001 * w <= / 1000 ->
  match uj_type j' with REVOLUTE | CONTINUOUS => Rabs r <= A | PRISMATIC => Rabs r <= L | _ => True end ->
  simp pf 910 (@motion (DA pf) j a) (@motion (FA o) j' r) /\ small_q pf (rotation (@motion (FA o) j' r)).
Proof.
  intros (S1 & S2 & S3 & S4 & So & Sx) Nr Sa He Hg Ha. destruct e_small as [W0 _].
  destruct (round_motion o u Hacc Hu0 e L A ltac:(lra) HL HA ltac:(rewrite gain_e; exact Hg) j' j0 r Nr Ha) as (U & _ & C1 & _). rewrite gain_e in C1.
  assert (Sm : small_q pf (rotation (@motion (FA o) j' r))) by (apply (near_small _ _ U); lra). split; [|exact Sm].
  destruct (pose_near_close o e L _ _ (jn_origin _ _ _ _ _ Nr)) as (Uo & _ & Co & _).
  assert (Si : small_q pf (q_GetInverse (rotation (uj_origin j')))) by (apply (near_small_inv _ _ Uo); lra).
  assert (Ax := jn_axis _ _ _ _ _ Nr).
  assert (Turn : is_movable (uj_type j') -> Rabs r <= A ->
    let t := @mkPose (DA pf) v_clear (@Q4 (DA pf) (@mul (DA pf) (vx (uj_axis j)) (@nsin (DA pf) (@mul (DA pf) a nhalf))) (@mul (DA pf) (vy (uj_axis j)) (@nsin (DA pf) (@mul (DA pf) a nhalf))) (@mul (DA pf) (vz (uj_axis j)) (@nsin (DA pf) (@mul (DA pf) a nhalf))) (@ncos (DA pf) (@mul (DA pf) a nhalf))) in
    let t' := @mkPose (FA o) v_clear (@Q4 (FA o) (@mul (FA o) (vx (uj_axis j')) (@nsin (FA o) (@mul (FA o) r nhalf))) (@mul (FA o) (vy (uj_axis j')) (@nsin (FA o) (@mul (FA o) r nhalf))) (@mul (FA o) (vz (uj_axis j')) (@nsin (FA o) (@mul (FA o) r nhalf))) (@ncos (FA o) (@mul (FA o) r nhalf))) in
    small_q pf (rotation (pose_transform (uj_origin j') t')) ->
    simp pf 910 (pose_transform (uj_origin j) t) (pose_transform (uj_origin j') t')).
  { intros M Hr t t' Sr. specialize (Sx M). destruct (Ax M) as [V D]. rewrite vlen_nv in V. rewrite vdist_dv in D.
    pose proof (round_turn o u Hacc Hu0 e A ltac:(lra) HA ltac:(rewrite gain_e; exact Hg) (uj_axis j') (uj_axis j0) r V D Hr) as T. cbv zeta in T. rewrite gain_e in T.
    assert (Half : sim 34 (@mul (DA pf) a nhalf) (@mul (FA o) r nhalf)).
    { apply (sim_mul pf 32 2); [apply same_sim; [exact Sa|lra] | apply (lit_half pf u Hpf) | lia]. }
    pose proof (sim_sin pf u Hpf Hu1 _ _ _ Half (proj2 Hu)) as Sn. pose proof (sim_cos pf u Hpf Hu1 _ _ _ Half (proj2 Hu)) as Cs.
    destruct Sx as (X & Y & Z).
    assert (St : simp pf 1 t t').
    { split; cbn [t t' position rotation].
      - eapply simv_le; [|apply (clear_v pf u Hpf Hu)]. lia.
      - apply (simq_cut 2); [|apply (near_small _ (@Q4 RA (vx (uj_axis j0) * sin (r / 2)) (vy (uj_axis j0) * sin (r / 2)) (vz (uj_axis j0) * sin (r / 2)) (cos (r / 2))))].
        + split; [|split; [|split]]; cbn [qx qy qz qw]; try (apply (sim_mul pf 1 1); try assumption; lia). eapply sim_le; [|exact Cs]. lia.
        + apply unit_N. assert (N1 : nv (uj_axis j0) = 1) by exact V. unfold nv, N in N1. unfold N.
          assert (Q1 : qn (qv (uj_axis j0)) = 1). { rewrite <- (sqrt_sqrt (qn (qv (uj_axis j0)))); [rewrite N1; ring|]. destruct (Rle_dec 0 (qn (qv (uj_axis j0)))) as [|G]; [assumption|]. rewrite sqrt_neg in N1 by lra. lra. }
          replace (qn _) with 1; [apply sqrt_1|]. pose proof (sin2_cos2 (r / 2)) as SC. unfold Rsqr in SC. unfold qn, qv in *. cbn [qx qy qz qw] in *. rnum.
          transitivity ((vx (uj_axis j0) * vx (uj_axis j0) + vy (uj_axis j0) * vy (uj_axis j0) + vz (uj_axis j0) * vz (uj_axis j0)) * (sin (r / 2) * sin (r / 2)) + cos (r / 2) * cos (r / 2)); [|ring].
          revert Q1. rnum. intros Q1. replace (vx (uj_axis j0) * vx (uj_axis j0) + vy (uj_axis j0) * vy (uj_axis j0) + vz (uj_axis j0) * vz (uj_axis j0)) with 1 by lra. lra.
        + eapply Rle_trans; [exact T|]. lra. }
    pose proof (sim_transform pf u Hpf Hu 901 1 _ _ _ _ So St Si Sr ltac:(lia) ltac:(lia)) as [Rv Rq]. split; [|exact Rq]. eapply simv_le; [|exact Rv]. lia. }
  revert Sm Ha. unfold motion. rewrite S2. destruct (uj_type j') eqn:Et; intros Sm Ha.
  all: try (destruct So as [Ov Oq]; split; [eapply simv_le; [|exact Ov]; lia | exact Oq]).
  - apply Turn; auto. now left.
  - apply Turn; auto. right. now left.
  - assert (M : is_movable PRISMATIC) by (right; now right). specialize (Sx M). destruct Sx as (X & Y & Z).
    assert (Sr : sim 900 a r) by (apply same_sim; [exact Sa|lra]).
    assert (St : simp pf 901 (@mkPose (DA pf) (@V3 (DA pf) (@mul (DA pf) (vx (uj_axis j)) a) (@mul (DA pf) (vy (uj_axis j)) a) (@mul (DA pf) (vz (uj_axis j)) a)) q_clear)
      (@mkPose (FA o) (@V3 (FA o) (@mul (FA o) (vx (uj_axis j')) r) (@mul (FA o) (vy (uj_axis j')) r) (@mul (FA o) (vz (uj_axis j')) r)) q_clear)).
    { split; cbn [position rotation].
      - split; [|split]; cbn [vx vy vz]; (apply (sim_mul pf 1 900); try assumption; lia).
      - eapply simq_le; [|apply (clear_q pf u Hpf Hu)]. lia. }
    exact (sim_transform pf u Hpf Hu 901 901 _ _ _ _ So St Si Sm ltac:(lia) ltac:(lia)).
Qed.
End Runs.
