(** The centre-of-mass Jacobian and the distance gradient are derivatives (lemmas for C19, C39). *)
From Coq Require Import String List Arith Lia Bool Permutation Classical Reals Lra.
From Verif Require Import Base Num Pose DataStructure Urdf Kin Wrapper Spec_Robot Spec_Hist Spec_Load Spec_Jac Spec_Mass Spec_Rot Spec_Deriv Spec_Body RealArith
  Pf_Base Pf_Data Inv Pf_FK Pf_Frame Pf_Rp Rep Pf_Ops Pf_Name Pf_Ctor Pf_Reach Pf_Jac Pf_Safe Pf_Pose Pf_Local Pf_Hist Pf_Wrap Pf_Mass Pf_Wrap2 Pf_Real Pf_Rot Pf_Unit Pf_Rpy Pf_Chain Pf_Deriv Pf_JacD Pf_Body.
Import ListNotations.
Local Open Scope m_scope.
Local Open Scope R_scope.

Definition with_angle (s : @AState RA) k t : AState := mkAS (as_added s) (list_set (as_angles s) k t) (as_base s).

Section Reached.
Context tinyxml text (R : @Robot RA) root sorted jsorted ops m (Hr : reached tinyxml text R root sorted jsorted ops m).
Context (Hu : unit_axes R) (Hb : unit_bases ops).
Notation s := (after sorted jsorted ops).
Notation poses k n P := (forall t, pose_at R root jsorted (with_angle s k t) n (P t)).

Lemma angle_nth k j : nth_error jsorted k = Some j -> exists q0, nth_error (as_angles s) k = Some q0.
Proof.
  intros E. destruct (reached_Rep _ _ _ _ _ _ _ _ Hr) as [HR _]. apply lt_nth_error.
  rewrite (rep_angles_length _ _ _ _ _ _ _ _ HR). unfold jnames. rewrite map_length. eapply nth_error_lt; eauto.
Qed.

Lemma with_angle_same k q0 : nth_error (as_angles s) k = Some q0 -> with_angle s k q0 = s.
Proof. intros E. unfold with_angle. rewrite (list_set_same _ _ _ E). now destruct s. Qed.

Lemma with_angle_reached k t : (k < length jsorted)%nat -> exists m1, set_joint_angles [k] [t] m = (m1, Ok tt) /\ Rep R root sorted jsorted (massive sorted) (mass_sum (massive sorted)) (with_angle s k t) m1 /\ Good m1.
Proof.
  intros Lk. destruct (set_one_reached _ _ _ _ _ _ _ _ k t Hr Lk) as (m1 & E1 & Hr1 & Ea).
  destruct (reached_Rep _ _ _ _ _ _ _ _ Hr1) as [HR1 HC1]. exists m1. split; auto.
  assert (C : clean (ops ++ [Op_set_joint_angles [k] [t]]) = true) by (unfold clean; rewrite fold_left_app; reflexivity). specialize (HC1 C).
  rewrite Ea in HR1. split; [exact HR1|]. split; auto. apply HR1.
Qed.

Lemma with_angle_det k t n P1 P2 : (k < length jsorted)%nat ->
  pose_at R root jsorted (with_angle s k t) n P1 -> pose_at R root jsorted (with_angle s k t) n P2 -> P1 = P2.
Proof. intros Lk H1 H2. destruct (with_angle_reached k t Lk) as (m1 & _ & HR1 & _). exact (rep_pose_det _ _ _ _ _ _ _ _ HR1 n P1 P2 H1 H2). Qed.

(** every link's pose, as a function of one angle *)
Lemma family k j n : nth_error jsorted k = Some j -> In n (all_links sorted s) -> exists P, poses k n P.
Proof.
  intros Ej Hn. destruct (reached_Rep _ _ _ _ _ _ _ _ Hr) as [HR _]. destruct (angle_nth k j Ej) as (q0 & Eq).
  assert (Ij : In j (r_joints R) /\ movable (uj_type j) = true) by (apply (rep_jsorted _ _ _ _ _ _ _ _ HR); eapply nth_error_In; eauto).
  destruct Ij as [Ij Mj]. assert (En : nth_error (jnames jsorted) k = Some (uj_name j)) by (unfold jnames; rewrite nth_error_map', Ej; reflexivity).
  pose proof (jn_nodup _ _ _ _ _ _ _ _ HR) as JN. pose proof (rep_angles_length _ _ _ _ _ _ _ _ HR) as LA.
  pose proof (reached_NoDup _ _ _ _ _ _ _ _ Hr) as ND.
  assert (Q : forall t j', In j' (r_joints R) -> uj_name j' <> uj_name j -> by_name (jnames jsorted) (list_set (as_angles s) k t) (uj_name j') = by_name (jnames jsorted) (as_angles s) (uj_name j')).
  { intros t j' I' N. apply (by_name_set (jnames jsorted) (as_angles s) k (uj_name j) t JN LA En); auto. }
  destruct (classic (carries (r_joints R) (as_added s) j n)) as [Hc|Hc].
  - destruct (parent_pose_ex _ _ _ _ _ _ _ _ HR j Ij) as (Pp & HPp).
    destruct (chain _ _ _ _ _ _ _ _ HR j n _ _ Pp ND (loaded_axes_ok _ _ _ _ (proj1 Hr) Hu) (after_ok sorted jsorted ops) (after_base_unit sorted jsorted ops Hb) Ij Hc HPp) as (D & UD & HD).
    exists (fun t => pose_transform (pose_transform Pp (motion j t)) D). intros t. specialize (HD _ (Q t)).
    rewrite (proj1 (by_name_set (jnames jsorted) (as_angles s) k (uj_name j) t JN LA En)) in HD. exact HD.
  - destruct (rep_pose_ex _ _ _ _ _ _ _ _ HR n Hn) as (P0 & HP0). exists (fun _ => P0). intros t. unfold pose_at, with_angle in *. cbn [as_added as_angles as_base].
    apply (fk_local _ _ _ _ _ _ _ _ HP0). intros j' I' C'.
    assert (N : uj_name j' <> uj_name j) by (intros E; apply (same_name_same_joint R) in E; auto; subst; auto). symmetry. apply (Q t); auto.
Qed.

Lemma is_jacobian_derives rt n jids wb J c k q0 P r :
  is_jacobian R root jsorted s rt n jids wb J -> nth_error jids c = Some k -> (k < length jsorted)%nat ->
  nth_error (as_angles s) k = Some q0 -> poses k n P ->
  (r < jac_rows rt)%nat -> regular rt r (rotation (P q0)) ->
  derivable_pt_lim (fun t => reported rt r (P t)) q0 (entry J r c).
Proof.
  intros (Hs & E & HE & HJ & _) Ec Lk Eq HP Lr Hreg. destruct (reached_Rep _ _ _ _ _ _ _ _ Hr) as [HR _].
  destruct (lt_nth_error _ _ Lk) as (j & Ej). destruct (HJ c k j Ec Ej) as [H1 H2].
  assert (PQ : pose_at R root jsorted s n (P q0)) by (specialize (HP q0); rewrite (with_angle_same _ _ Eq) in HP; exact HP).
  assert (EE : E = P q0) by exact (rep_pose_det _ _ _ _ _ _ _ _ HR n _ _ HE PQ).
  assert (PA : path R root jsorted s j q0 n P).
  { eapply (path_of R root sorted jsorted); eauto using reached_NoDup, after_ok, loaded_axes_ok.
    - eapply loaded_axes_ok; eauto. apply Hr.
    - now apply after_base_unit.
    - apply classic.
    - intros t P1 P2. apply with_angle_det; auto. }
  rewrite entry_column. destruct (classic (carries (r_joints R) (as_added s) j n)) as [Hca|Hca].
  - destruct (H2 Hca) as (C & HCp & ->). apply (path_derives R root jsorted s j q0 n P rt r E C); auto.
    + apply movable_iff. apply (rep_jsorted _ _ _ _ _ _ _ _ HR). eapply nth_error_In; eauto.
    + intros C' H'. exact (rep_pose_det _ _ _ _ _ _ _ _ HR _ _ _ H' HCp).
    + now rewrite EE.
  - rewrite (H1 Hca). assert (Z : nth r (zeros (jac_rows rt)) 0 = 0) by apply nth_zeros. rewrite Z.
    destruct PA as [_ PA|B D Y|B D Y]; try tauto. apply deriv_const. intros t. now rewrite PA.
Qed.
End Reached.

(** ** means *)
Lemma nth_zipw f (p q : list (@num RA)) c : (c < length p)%nat -> (c < length q)%nat -> nth c (zipw f p q) 0 = f (nth c p 0) (nth c q 0).
Proof.
  revert q c. induction p as [|x p IH]; intros q c L1 L2; [simpl in L1; lia|]. destruct q as [|y q]; [simpl in L2; lia|].
  destruct c as [|c]; [reflexivity|]. apply (IH q c); simpl in *; lia.
Qed.
Lemma zipw_length f (p q : list (@num RA)) : length (zipw f p q) = Nat.min (length p) (length q).
Proof. unfold zipw. now rewrite map_length, combine_length. Qed.
Lemma nth_mat_zip f (P Q : @mat RA) r : (r < length P)%nat -> (r < length Q)%nat -> nth r (mat_zip f P Q) [] = zipw f (nth r P []) (nth r Q []).
Proof.
  revert Q r. induction P as [|x P IH]; intros Q r L1 L2; [simpl in L1; lia|]. destruct Q as [|y Q]; [simpl in L2; lia|].
  destruct r as [|r]; [reflexivity|]. apply (IH Q r); simpl in *; lia.
Qed.
Lemma zip_shape f rows cols (P Q : @mat RA) : has_shape rows cols P -> has_shape rows cols Q -> has_shape rows cols (mat_zip f P Q).
Proof.
  intros [LP HP] [LQ HQ]. split; [unfold mat_zip; rewrite map_length, combine_length; lia|].
  intros row I. unfold mat_zip in I. apply in_map_iff in I. destruct I as ([p q] & <- & I). cbn [fst snd].
  rewrite zipw_length, (HP p (in_combine_l _ _ _ _ I)), (HQ q (in_combine_r _ _ _ _ I)). lia.
Qed.
Lemma entry_zip f rows cols (P Q : @mat RA) r c : has_shape rows cols P -> has_shape rows cols Q -> (r < rows)%nat -> (c < cols)%nat ->
  entry (mat_zip f P Q) r c = f (entry P r c) (entry Q r c).
Proof.
  intros [LP HP] [LQ HQ] Lr Lc. unfold entry. rewrite nth_mat_zip by lia.
  apply nth_zipw; [rewrite HP | rewrite HQ]; auto; apply nth_In; lia.
Qed.
Lemma map_shape f rows cols (P : @mat RA) : has_shape rows cols P -> has_shape rows cols (mat_map f P).
Proof.
  intros [LP HP]. split; [unfold mat_map; now rewrite map_length|]. intros row I. unfold mat_map in I. apply in_map_iff in I.
  destruct I as (p & <- & I). rewrite map_length. auto.
Qed.
Lemma entry_map f rows cols (P : @mat RA) r c : has_shape rows cols P -> (r < rows)%nat -> (c < cols)%nat -> entry (mat_map f P) r c = f (entry P r c).
Proof.
  intros [LP HP] Lr Lc. unfold entry, mat_map. rewrite (nth_indep _ [] (map f [])) by (rewrite map_length; lia). rewrite map_nth.
  assert (L : (c < length (nth r P []))%nat) by (rewrite HP; auto; apply nth_In; lia).
  rewrite (nth_indep _ 0 (f 0)) by (rewrite map_length; lia). apply map_nth.
Qed.
Lemma zero_shape rows cols : has_shape rows cols (@mat_zero RA rows cols).
Proof. split; [apply repeat_length|]. intros row I. apply repeat_spec in I. subst. apply repeat_length. Qed.
Lemma entry_zero rows cols r c : entry (@mat_zero RA rows cols) r c = 0.
Proof.
  unfold entry, mat_zero. destruct (Nat.lt_ge_cases r rows) as [L|L].
  - rewrite (nth_indep _ [] (repeat n0 cols)) by now rewrite repeat_length. rewrite nth_repeat, <- n0_R. apply nth_repeat.
  - rewrite (nth_overflow (repeat _ _)) by now rewrite repeat_length. now destruct c.
Qed.

Lemma entry_fold rows cols (ws : list (@num RA * @mat RA)) r c : (r < rows)%nat -> (c < cols)%nat -> (forall w, In w ws -> has_shape rows cols (snd w)) ->
  forall acc, has_shape rows cols acc ->
  has_shape rows cols (fold_left (fun acc wj => mat_zip add acc (mat_map (mul (fst wj)) (snd wj))) ws acc) /\
  entry (fold_left (fun acc wj => mat_zip add acc (mat_map (mul (fst wj)) (snd wj))) ws acc) r c = entry acc r c + rsum (fun w => fst w * entry (snd w) r c) ws.
Proof.
  intros Lr Lc. induction ws as [|w ws IH]; intros Hw acc Ha.
  - split; auto. symmetry. apply Rplus_0_r.
  - cbn [fold_left rsum fold_right].
    assert (Hs : has_shape rows cols (mat_map (mul (fst w)) (snd w))) by (apply map_shape, Hw; now left).
    destruct (IH (fun w' I => Hw w' (or_intror I)) _ (zip_shape add _ _ _ _ Ha Hs)) as [S1 E1]. split; [exact S1|].
    rewrite E1, (entry_zip add rows cols) by auto. rewrite (entry_map (mul (fst w)) rows cols) by (auto; apply Hw; now left).
    unfold rsum. rnum. change (@num RA) with Rdefinitions.R. lra.
Qed.
Lemma entry_mean rows cols (ws : list (@num RA * @mat RA)) total r c : (r < rows)%nat -> (c < cols)%nat -> (forall w, In w ws -> has_shape rows cols (snd w)) ->
  entry (mean_mat rows cols ws total) r c = rsum (fun w => fst w * entry (snd w) r c) ws / total.
Proof.
  intros Lr Lc Hw. unfold mean_mat. destruct (entry_fold rows cols ws r c Lr Lc Hw _ (zero_shape rows cols)) as [S1 E1].
  fold (mat_map (fun x => div x total) (fold_left (fun acc wj => mat_zip add acc (mat_map (mul (fst wj)) (snd wj))) ws (mat_zero rows cols))).
  rewrite (entry_map _ rows cols) by auto. rewrite E1, entry_zero. rnum. change (@num RA) with Rdefinitions.R. now rewrite Rplus_0_l.
Qed.

Lemma weighted_coord (l : list (@num RA * @Vector3 RA)) r : forall acc, coord r (weighted_sum l acc) = coord r acc + rsum (fun mp => fst mp * coord r (snd mp)) l.
Proof.
  induction l as [|mp l IH]; intros acc; [symmetry; apply Rplus_0_r|]. cbn [weighted_sum fold_left rsum fold_right]. fold (weighted_sum l).
  unfold weighted_sum in IH |- *. rewrite IH. destruct r as [|[|r]]; cbn [coord vx vy vz]; unfold rsum; rnum; change (@num RA) with Rdefinitions.R; lra.
Qed.

Lemma rsum_derive {B} (f : B -> Rdefinitions.R -> Rdefinitions.R) (d : B -> Rdefinitions.R) l x : (forall b, In b l -> derivable_pt_lim (f b) x (d b)) ->
  derivable_pt_lim (fun t => rsum (fun b => f b t) l) x (rsum d l).
Proof.
  induction l as [|b l IH]; intros H; cbn [rsum fold_right].
  - apply derivable_pt_lim_const.
  - apply (derivable_pt_lim_plus (f b) (fun t => rsum (fun b => f b t) l)); [apply H; now left | apply IH; intros; apply H; now right].
Qed.

Section Com.
Context tinyxml text (R : @Robot RA) root sorted jsorted ops m (Hr : reached tinyxml text R root sorted jsorted ops m).
Context (Hu : unit_axes R) (Hb : unit_bases ops).
Notation s := (after sorted jsorted ops).
Notation ms := (massive sorted).
Notation poses k n P := (forall t, pose_at R root jsorted (with_angle s k t) n (P t)).

Lemma massive_link n i : In (n, i) ms -> In n (all_links sorted s).
Proof.
  intros I. destruct (reached_Rep _ _ _ _ _ _ _ _ Hr) as [HR _]. pose proof (reached_has_com sorted jsorted ops n i I) as Ia.
  destruct (nm_added _ _ _ _ (rep_named _ _ _ _ _ _ _ _ HR) _ _ _ Ia) as (k & l & q & lq & E1 & E2 & E3 & E4 & E5 & E6).
  rewrite <- E5. eapply nth_error_In. exact (rep_link_inv _ _ _ _ _ _ _ _ HR q lq E4).
Qed.

Lemma families k j : nth_error jsorted k = Some j -> forall sub, incl sub ms -> exists Fs, Forall2 (fun (ni : string * Inertial) P => poses k (fst ni) P) sub Fs.
Proof.
  intros Ej. induction sub as [|[n i] sub IH]; intros Hi; [exists []; constructor|].
  destruct (IH (fun x I => Hi x (or_intror I))) as (Fs & F). 
  destruct (family _ _ _ _ _ _ _ _ Hr Hu Hb k j n Ej (massive_link n i (Hi _ (or_introl eq_refl)))) as (P & HP).
  exists (P :: Fs). constructor; auto.
Qed.

Lemma body_derives k j q0 n i P jids wb J c r : nth_error jsorted k = Some j -> nth_error (as_angles s) k = Some q0 -> In (n, i) ms -> poses k n P ->
  is_jacobian R root jsorted s IGNORE (n ++ "_com")%string jids wb J -> nth_error jids c = Some k -> (r < 3)%nat ->
  derivable_pt_lim (fun t => coord r (com_point (P t) i)) q0 (entry J r c).
Proof.
  intros Ej Eq I HP HJ Ec Lr. set (Q := fun t => pose_transform (P t) (mkPose (position (in_origin i)) q_clear)).
  assert (HQ : poses k (n ++ "_com")%string Q).
  { intros t. unfold pose_at, with_angle. cbn [as_added as_angles as_base]. eapply fk_added; [exact (reached_has_com sorted jsorted ops n i I)|]. exact (HP t). }
  pose proof (is_jacobian_derives _ _ _ _ _ _ _ _ Hr Hu Hb IGNORE _ jids wb J c k q0 Q r HJ Ec ltac:(eapply nth_error_lt; eauto) Eq HQ Lr ltac:(intros X; discriminate X)) as D.
  apply (dext (fun t => reported IGNORE r (Q t))); [|exact D]. intros t. destruct r as [|[|[|r]]]; try lia; reflexivity.
Qed.

Lemma bodies_derive k j q0 jids wb c r sub Fs Js : nth_error jsorted k = Some j -> nth_error (as_angles s) k = Some q0 -> nth_error jids c = Some k -> (r < 3)%nat ->
  incl sub ms -> Forall2 (fun (ni : string * Inertial) P => poses k (fst ni) P) sub Fs ->
  Forall2 (fun ni J => is_jacobian R root jsorted s IGNORE (fst ni ++ "_com")%string jids wb J) sub Js ->
  derivable_pt_lim (fun t => rsum (fun mp : @num RA * @Vector3 RA => fst mp * coord r (snd mp)) (map (fun x => (in_mass (snd (fst x)), com_point (snd x) (snd (fst x)))) (combine sub (map (fun P => P t) Fs)))) q0
    (rsum (fun w : @num RA * @mat RA => fst w * entry (snd w) r c) (map (fun x => (in_mass (snd (fst x)), snd x)) (combine sub Js))).
Proof.
  intros Ej Eq Ec Lr Hi F. revert Js. induction F as [|[n i] P sub Fs HP F IH]; intros Js FJ; inversion FJ as [|? J ? Js' HJ FJ']; subst.
  - apply derivable_pt_lim_const.
  - cbn [map combine rsum fold_right fst snd].
    apply (derivable_pt_lim_plus (fun t => in_mass i * coord r (com_point (P t) i)) (fun t => rsum (fun mp : @num RA * @Vector3 RA => fst mp * coord r (snd mp)) (map (fun x => (in_mass (snd (fst x)), com_point (snd x) (snd (fst x)))) (combine sub (map (fun P => P t) Fs))))).
    + apply (derivable_pt_lim_scal (fun t => coord r (com_point (P t) i)) (in_mass i) q0).
      apply (body_derives k j q0 n i P jids wb J c r); auto. apply Hi. now left.
    + apply IH; auto. intros x I. apply Hi. now right.
Qed.

Lemma com_derives jids wb m' J c k q0 C r : clean ops = true ->
  (forall k, In k jids -> (k < length (get_joint_names m))%nat) -> get_com_jacobian jids wb m = (m', Ok J) ->
  nth_error jids c = Some k -> angle_is m k q0 -> (forall t, com_with_joint m k t (C t)) -> (r < 3)%nat ->
  derivable_pt_lim (fun t => coord r (C t)) q0 (entry J r c).
Proof.
  intros Hc Hk X Ec Ha HC Lr. destruct (reached_Rep _ _ _ _ _ _ _ _ Hr) as [HR Hcl]. specialize (Hcl Hc).
  assert (G : Good m) by (split; auto; apply HR). rewrite (rep_joint_count _ _ _ _ _ _ _ _ HR) in Hk.
  assert (Lk : (k < length jsorted)%nat) by (apply Hk; eapply nth_error_In; eauto). destruct (lt_nth_error _ _ Lk) as (j & Ej).
  pose proof (angle_at _ _ _ _ _ _ _ _ Hr k q0 Ha Lk) as Eq.
  destruct (get_com_jacobian_ok _ _ _ _ _ _ _ _ _ _ _ _ HR G Hk X) as (Js & FJ & ->).
  destruct (families k j Ej ms (incl_refl _)) as (Fs & FF).
  assert (EC : forall t, C t = com_of ms (map (fun P => P t) Fs)).
  { intros t. destruct (HC t) as (m2 & Y). destruct (with_angle_reached _ _ _ _ _ _ _ _ Hr k t Lk) as (m1 & E1 & HR1 & G1).
    rewrite (bind_ok _ _ _ _ _ E1) in Y. destruct (get_com_ok _ _ _ _ _ _ _ _ _ _ HR1 G1 (reached_has_com sorted jsorted ops) Y) as (Ps & FP & ->).
    f_equal. apply (is_com_det _ _ _ _ _ _ _ _ _ _ HR1); auto. clear - FF. induction FF; constructor; auto. }
  apply (dext (fun t => coord r (com_of ms (map (fun P => P t) Fs)))); [intros t; now rewrite EC|].
  assert (S : forall w, In w (map (fun x => (in_mass (snd (fst x)), snd x)) (combine ms Js)) -> has_shape 3 (length jids + (if wb then 6 else 0))%nat (snd w)).
  { intros w I. apply in_map_iff in I. destruct I as ([ni J] & <- & I). cbn [snd fst]. apply in_combine_r in I. destruct (Forall2_in_r _ _ _ _ FJ I) as (ni' & _ & (HS & _)). exact HS. }
  rewrite entry_mean; auto. 2:{ pose proof (nth_error_lt _ _ _ Ec). lia. }
  pose proof (bodies_derive k j q0 jids wb c r ms Fs Js Ej Eq Ec Lr (incl_refl _) FF FJ) as D.
  unfold Rdiv. rewrite Rmult_comm.
  match type of D with derivable_pt_lim ?f _ ?d => apply (dext (fun t => / mass_sum ms * f t)) end; [|exact (derivable_pt_lim_scal _ _ _ _ D)].
  intros t. unfold com_of, scaled_down.
  assert (W : forall v, coord r (@V3 RA (vx v / mass_sum ms) (vy v / mass_sum ms) (vz v / mass_sum ms))%num = / mass_sum ms * coord r v).
  { intros v. destruct r as [|[|r']]; cbn [coord vx vy vz]; rnum; change (@num RA) with Rdefinitions.R; unfold Rdiv; apply Rmult_comm. }
  rewrite W, weighted_coord. f_equal. assert (Z : coord r v_clear = 0) by (destruct r as [|[|r']]; cbn [coord vx vy vz v_clear]; rnum; reflexivity).
  rewrite Z. symmetry. apply Rplus_0_l.
Qed.
End Com.

(** ** waypoints *)
Lemma assign_set (v : list (@num RA)) jids : forall q c t x k, NoDup jids -> nth_error jids c = Some k -> nth_error q c = Some x ->
  assign jids (list_set q c t) v = list_set (assign jids q v) k t.
Proof.
  unfold assign. revert v. induction jids as [|k0 jids IH]; intros v q c t x k N Ek Eq; [destruct c; discriminate|].
  inversion N as [|? ? Ni N']; subst. destruct q as [|y q]; [destruct c; discriminate|].
  destruct c as [|c]; cbn [nth_error] in Ek, Eq.
  - inversion Ek; subst k0. cbn [list_set combine fold_left fst snd]. clear - Ni.
    assert (X : forall l v, (forall z, In z (map fst l) -> z <> k) -> fold_left (fun v (ja : nat * @num RA) => list_set v (fst ja) (snd ja)) l (list_set v k t) = list_set (fold_left (fun v ja => list_set v (fst ja) (snd ja)) l v) k t).
    { induction l as [|[z w] l IH]; intros v0 H; [reflexivity|]. cbn [fold_left fst snd]. rewrite <- IH by (intros z' I; apply H; now right).
      f_equal. specialize (H z (or_introl eq_refl)). clear - H. revert z k H. induction v0 as [|a v0 IH]; intros [|z] [|k] H; simpl; auto; try congruence. f_equal. apply IH. congruence. }
    rewrite <- X.
    + f_equal. clear. revert k. induction v; intros [|k]; simpl; auto. f_equal. auto.
    + intros z I E. subst z. apply Ni. apply in_map_iff in I. destruct I as ([a b] & E & I). cbn in E. subst a. exact (in_combine_l _ _ _ _ I).
  - cbn [list_set combine fold_left fst snd]. eapply IH; eauto.
Qed.

Section Dist.
Context tinyxml text (R : @Robot RA) root sorted jsorted ops m (Hr : reached tinyxml text R root sorted jsorted ops m).
Context (Hu : unit_axes R) (Hb : unit_bases ops).
Notation s := (after sorted jsorted ops).

(** a waypoint is reached by setters *)
Definition setters (jids : list nat) (wb : bool) (q : list (@num RA)) : list op :=
  Op_set_joint_angles jids q :: if wb then [Op_set_base_xyzrpy (skipn (length q - 6) q)] else [].
Lemma waypoint_reached jids (wb : bool) (q : list (@num RA)) : (forall k, In k jids -> (k < length jsorted)%nat) -> length q = (length jids + if wb then 6 else 0)%nat ->
  exists m1, reached tinyxml text R root sorted jsorted (ops ++ setters jids wb q) m1 /\ after sorted jsorted (ops ++ setters jids wb q) = at_waypoint jids wb q s.
Proof.
  intros Hk Lq. destruct (reached_Rep _ _ _ _ _ _ _ _ Hr) as [HR _].
  assert (X : exists m1, run (setters jids wb q) m = Some m1).
  { assert (Y : exists m1, set_joint_angles jids q m = (m1, Ok tt)).
    { assert (La : (length (joint_angles m) = length jsorted)%nat) by (rewrite (rep_angles _ _ _ _ _ _ _ _ HR), (rep_angles_length _ _ _ _ _ _ _ _ HR); unfold jnames; now rewrite map_length).
      eexists. unfold set_joint_angles. erewrite bind_ok; [|apply set_nc_total; [intros j I; rewrite La; auto | lia]]. reflexivity. }
    destruct Y as (m1 & Y). unfold setters. cbn [run exec]. rewrite Y. destruct wb; [|exists m1; reflexivity]. cbn [run exec].
    unfold w_set_base_pose. rewrite skipn_length. replace (length q - (length q - 6))%nat with 6%nat by lia. cbn [Nat.eqb]. rewrite w6_total by (rewrite skipn_length; lia). eexists. reflexivity. }
  destruct X as (m1 & X). exists m1. split; [exact (reached_run _ _ _ _ _ _ _ _ _ _ Hr X)|].
  rewrite after_app. unfold setters, at_waypoint. destruct wb; [|reflexivity]. cbn [abs_run fold_left abs_step].
  rewrite skipn_length. replace (length q - (length q - 6))%nat with 6%nat by lia. reflexivity.
Qed.

Lemma setters_unit jids wb q : unit_bases (ops ++ setters jids wb q).
Proof. intros p I. apply in_app_iff in I. destruct I as [I|I]; [auto|]. unfold setters in I. destruct wb; simpl in I; repeat (destruct I as [I|I]; [discriminate I|]); destruct I. Qed.

Lemma waypoint_set jids (wb : bool) (q : list (@num RA)) c t x k : NoDup jids -> length q = (length jids + if wb then 6 else 0)%nat -> nth_error jids c = Some k -> nth_error q c = Some x ->
  at_waypoint jids wb (list_set q c t) s = with_angle (at_waypoint jids wb q s) k t.
Proof.
  intros N Lq Ek Ex. unfold at_waypoint, with_angle. cbn [as_added as_angles as_base]. rewrite (assign_set _ _ _ _ _ _ _ N Ek Ex). f_equal.
  destruct wb; [|reflexivity]. f_equal. rewrite list_set_length. apply nth_error_lt in Ek.
  assert (X : forall (l : list (@num RA)) c n t, (c < n)%nat -> skipn n (list_set l c t) = skipn n l).
  { induction l; intros [|c'] [|n] t' L; simpl; auto; try lia. apply IHl. lia. }
  apply X. lia.
Qed.

Lemma grad_entry nj (J1 J2 : @mat RA) d c : has_shape 3 nj J1 -> has_shape 3 nj J2 -> (c < nj)%nat ->
  nth c (grad_row nj J1 J2 d) 0 = 2 * ((entry J1 0 c - entry J2 0 c) * vx d + (entry J1 1 c - entry J2 1 c) * vy d + (entry J1 2 c - entry J2 2 c) * vz d).
Proof.
  intros S1 S2 Lc. unfold grad_row.
  set (f := fun c0 => _). rewrite (nth_indep _ 0 (f 0%nat)) by (rewrite map_length, seq_length; auto). rewrite map_nth, seq_nth by auto. unfold f. clear f.
  assert (X : forall r, (r < 3)%nat -> nth (0 + c) (nth r (mat_zip sub J1 J2) []) (@n0 RA) = entry J1 r c - entry J2 r c).
  { intros r Lr. pose proof (entry_zip sub 3 nj J1 J2 r c S1 S2 Lr Lc) as E. unfold entry at 1 in E. rewrite <- n0_R in E. exact E. }
  rewrite !X by lia. rnum. change (@num RA) with Rdefinitions.R. ring.
Qed.

Lemma gradient_derives (qs : list (list (@num RA))) ids1 ids2 jids (wb uc : bool) m' D G a b q e1 e2 c x d :
  (wb || negb uc)%bool = true -> NoDup jids -> (forall k, In k jids -> (k < length (get_joint_names m))%nat) ->
  (forall q, In q qs -> length q = (length jids + if wb then 6 else 0)%nat) ->
  compute_inter_link_squared_dists qs ids1 ids2 jids wb true uc m = (m', Ok (D, G)) ->
  nth_error qs a = Some q -> nth_error ids1 b = Some e1 -> nth_error ids2 b = Some e2 -> (c < length jids)%nat -> nth_error q c = Some x ->
  (forall t, sqdist_with m jids wb uc e1 e2 (list_set q c t) (d t)) ->
  derivable_pt_lim d x (entry G (a * length ids1 + b) c).
Proof.
  intros Hcl N Hk Hq X Eq E1 E2 Lc Ex Hd. destruct (reached_Rep _ _ _ _ _ _ _ _ Hr) as [HR _].
  rewrite (rep_joint_count _ _ _ _ _ _ _ _ HR) in Hk. destruct (lt_nth_error _ _ Lc) as (k & Ek).
  assert (Lk : (k < length jsorted)%nat) by (apply Hk; eapply nth_error_In; eauto). destruct (lt_nth_error _ _ Lk) as (j & Ej).
  pose proof (Hq q (nth_error_In _ _ Eq)) as Lq.
  destruct (sqdists_ok _ _ _ _ _ _ _ _ _ _ _ _ _ _ _ _ _ _ HR Hcl Hk X) as (_ & _ & HG). destruct (HG eq_refl) as (LG & HG'). clear HG.
  destruct (HG' a b q e1 Eq E1) as (e2' & g & E2' & Eg & p1 & p2 & J1 & J2 & (n1 & N1 & P1) & (n2 & N2 & P2) & (n1' & N1' & I1) & (n2' & N2' & I2) & ->).
  assert (e2' = e2) by congruence. subst e2'. assert (n1' = n1) by congruence. assert (n2' = n2) by congruence. subst n1' n2'. clear HG' E2' N1' N2'.
  destruct (waypoint_reached jids wb q Hk Lq) as (m1 & Hr1 & Ea). pose proof (setters_unit jids wb q) as Hb1.
  set (ops1 := ops ++ setters jids wb q) in *. rewrite <- Ea in N1, N2, P1, P2, I1, I2.
  assert (Ex' : nth_error (as_angles (after sorted jsorted ops1)) k = Some x).
  { rewrite Ea. cbn [at_waypoint as_angles]. rewrite <- (list_set_same _ _ _ Ex). erewrite assign_set by eauto. apply nth_error_list_set_eq.
    destruct (reached_Rep _ _ _ _ _ _ _ _ Hr1) as [HR1 _]. pose proof (rep_angles_length _ _ _ _ _ _ _ _ HR1) as L1. rewrite Ea in L1. cbn [at_waypoint as_angles] in L1.
    rewrite L1. unfold jnames. now rewrite map_length. }
  destruct (family _ _ _ _ _ _ _ _ Hr1 Hu Hb1 k j n1 Ej (nth_error_In _ _ N1)) as (F1 & HF1).
  destruct (family _ _ _ _ _ _ _ _ Hr1 Hu Hb1 k j n2 Ej (nth_error_In _ _ N2)) as (F2 & HF2).
  assert (D1 : forall r, (r < 3)%nat -> derivable_pt_lim (fun t => reported IGNORE r (F1 t)) x (entry J1 r c))
    by (intros r Lr; apply (is_jacobian_derives _ _ _ _ _ _ _ _ Hr1 Hu Hb1 IGNORE n1 jids wb J1 c k x F1 r I1 Ek Lk Ex' HF1 Lr); intros Y; discriminate Y).
  assert (D2 : forall r, (r < 3)%nat -> derivable_pt_lim (fun t => reported IGNORE r (F2 t)) x (entry J2 r c))
    by (intros r Lr; apply (is_jacobian_derives _ _ _ _ _ _ _ _ Hr1 Hu Hb1 IGNORE n2 jids wb J2 c k x F2 r I2 Ek Lk Ex' HF2 Lr); intros Y; discriminate Y).
  assert (Ed : forall t, d t = sq_norm (v_sub (position (F1 t)) (position (F2 t)))).
  { intros t. destruct (Hd t) as (m2 & G2 & Y).
    destruct (sqdists_ok _ _ _ _ _ _ _ _ _ _ _ _ _ _ _ _ _ _ HR Hcl Hk Y) as (_ & HD & _).
    destruct (HD 0%nat 0%nat (list_set q c t) e1 eq_refl eq_refl) as (e2' & d' & E2' & Ed & p1' & p2' & (y1 & Y1 & H1) & (y2 & Y2 & H2) & Ed').
    cbn [nth_error] in E2'. cbn [nth_error Nat.mul Nat.add] in Ed. injection E2' as <-. injection Ed as <-.
    rewrite (waypoint_set jids wb q c t x k N Lq Ek Ex), <- Ea in Y1, Y2, H1, H2.
    assert (y1 = n1) by (unfold all_links in *; cbn [with_angle as_added] in Y1; congruence). assert (y2 = n2) by (unfold all_links in *; cbn [with_angle as_added] in Y2; congruence). subst y1 y2.
    rewrite Ed', (with_angle_det _ _ _ _ _ _ _ _ Hr1 k t n1 _ _ Lk H1 (HF1 t)), (with_angle_det _ _ _ _ _ _ _ _ Hr1 k t n2 _ _ Lk H2 (HF2 t)). reflexivity. }
  destruct (reached_Rep _ _ _ _ _ _ _ _ Hr1) as [HR1 _].
  assert (Q1 : p1 = F1 x) by (apply (rep_pose_det _ _ _ _ _ _ _ _ HR1 n1); auto; rewrite <- (with_angle_same sorted jsorted ops1 k x Ex'); apply HF1).
  assert (Q2 : p2 = F2 x) by (apply (rep_pose_det _ _ _ _ _ _ _ _ HR1 n2); auto; rewrite <- (with_angle_same sorted jsorted ops1 k x Ex'); apply HF2).
  assert (EG : entry G (a * length ids1 + b) c = nth c (grad_row (length jids + if wb then 6 else 0) J1 J2 (v_sub (position p1) (position p2))) 0)
    by (unfold entry; now rewrite (nth_error_nth _ _ [] Eg)).
  rewrite EG, grad_entry by (try apply I1; try apply I2; lia). subst p1 p2. clear EG.
  apply (dext (fun t => sq_norm (v_sub (position (F1 t)) (position (F2 t))))); [intros; now rewrite Ed|].
  pose proof (D1 0%nat ltac:(lia)) as A0. pose proof (D1 1%nat ltac:(lia)) as A1. pose proof (D1 2%nat ltac:(lia)) as A2.
  pose proof (D2 0%nat ltac:(lia)) as B0. pose proof (D2 1%nat ltac:(lia)) as B1. pose proof (D2 2%nat ltac:(lia)) as B2.
  unfold reported, link_row in *. cbn [nth app v_list] in *.
  assert (SQ : forall f g df dg, derivable_pt_lim f x df -> derivable_pt_lim g x dg -> derivable_pt_lim (fun t => (f t - g t) * (f t - g t)) x (2 * ((df - dg) * (f x - g x)))).
  { intros f g df dg Hf Hg. pose proof (derivable_pt_lim_minus f g x df dg Hf Hg) as HM.
    pose proof (derivable_pt_lim_mult _ _ _ _ _ HM HM) as H2. apply (dext ((f - g) * (f - g))%F); [reflexivity|].
    replace (2 * ((df - dg) * (f x - g x))) with ((df - dg) * (f - g)%F x + (f - g)%F x * (df - dg)) by (unfold minus_fct; ring). exact H2. }
  pose proof (SQ _ _ _ _ A0 B0) as Q0. pose proof (SQ _ _ _ _ A1 B1) as Q1. pose proof (SQ _ _ _ _ A2 B2) as Q2. clear SQ.
  pose proof (derivable_pt_lim_plus _ _ _ _ _ (derivable_pt_lim_plus _ _ _ _ _ Q0 Q1) Q2) as QQ.
  match type of QQ with derivable_pt_lim ?f _ ?l => apply (dext f); [|match goal with |- derivable_pt_lim _ _ ?l' => replace l' with l; [exact QQ|] end] end.
  - intros t. unfold plus_fct, sq_norm, v_sub. cbn [vx vy vz]. rnum. reflexivity.
  - unfold v_sub. cbn [vx vy vz]. rnum. change (@num RA) with Rdefinitions.R. ring.
Qed.
End Dist.
