(** Base columns of the centre-of-mass Jacobian and of distance gradients (lemmas for C79, C80). *)
From Coq Require Import String List Arith Lia Bool Permutation Reals Lra.
From Verif Require Import Base Num Pose DataStructure Urdf Kin Wrapper Spec_Robot Spec_Hist Spec_Load Spec_Jac Spec_Mass Spec_Rot Spec_Deriv Spec_Body RealArith
  Pf_Base Pf_Data Inv Pf_FK Pf_Frame Pf_Rp Rep Pf_Ops Pf_Name Pf_Ctor Pf_Reach Pf_Jac Pf_Safe Pf_Pose Pf_Local Pf_Hist Pf_Wrap Pf_Mass Pf_Wrap2 Pf_Real Pf_Rot Pf_Unit Pf_Rpy Pf_Chain Pf_Deriv Pf_JacD Pf_Body Pf_BaseD Pf_ComD.
Import ListNotations.
Local Open Scope m_scope.
Local Open Scope R_scope.

Definition with_basep (s : @AState RA) (B : @Pose RA) : AState := mkAS (as_added s) (as_angles s) B.
Definition level (v : @Vector3 RA) : Prop := - (PI / 2) < vy v < PI / 2 /\ Rabs (sin (vy v)) < 99999 / 100000.

Section Reached.
Context tinyxml text (R : @Robot RA) root sorted jsorted ops m (Hr : reached tinyxml text R root sorted jsorted ops m).
Context (Hu : unit_axes R) (Hb : unit_bases ops).
Notation s := (after sorted jsorted ops).

Record attached (n : string) (jids : list nat) (J : @mat RA) (D : @Pose RA) : Prop := {
  at_unit : unit_q (rotation D);
  at_pose : forall B, unit_q (rotation B) -> pose_at R root jsorted (with_basep s B) n (pose_transform B D);
  at_shift : forall b r, (b < 3)%nat -> (r < 3)%nat -> entry J r (length jids + b) = if Nat.eqb r b then 1 else 0;
  at_turn : forall pos v b r, as_base s = mkPose pos (from_rpy v) -> level v -> (b < 3)%nat -> (r < 3)%nat ->
    exists d, derivable_pt_lim (fun t => coord r (position (pose_transform (mkPose pos (from_rpy (with_coord b t v))) D))) (coord b v) d /\
      Rabs (entry J r (length jids + 3 + b) - d) <= 4 / 10000000 * dist3 (position (pose_transform (as_base s) D)) pos
}.

Lemma jac_attached n jids J : is_jacobian R root jsorted s IGNORE n jids true J -> exists D, attached n jids J D.
Proof.
  intros (Hs & E & HE & _ & HB). specialize (HB eq_refl). destruct (reached_Rep _ _ _ _ _ _ _ _ Hr) as [HR _].
  pose proof (after_base_unit sorted jsorted ops Hb) as UB. pose proof (unit_nonzero _ _ _ _ (proj1 Hr) Hu) as NZ.
  destruct (fk_base_inv _ _ _ _ _ _ _ NZ (after_ok sorted jsorted ops) (unit_pos _ UB) HE) as (D & HD & ->).
  exists D. constructor.
  - apply (fk_unit _ _ _ _ _ _ _ (loaded_axes_ok _ _ _ _ (proj1 Hr) Hu) (after_ok sorted jsorted ops) (unit_clear : unit_q (rotation pose_clear)) HD).
  - intros B UBB. unfold pose_at, with_basep. cbn [as_added as_angles as_base]. apply (fk_base _ _ _ _ _ _ _ NZ (after_ok sorted jsorted ops) (unit_pos _ UBB) HD).
  - intros b r Lb Lr. destruct (HB b Lb) as [Col _]. rewrite entry_column, Col. cbn [jac_rows].
    rewrite (nth_indep _ 0 ((fun r => if Nat.eqb r b then @n1 RA else n0) 0%nat)) by (rewrite map_length, seq_length; auto).
    rewrite (map_nth (fun r => if Nat.eqb r b then @n1 RA else n0)), seq_nth by auto. rewrite Nat.add_0_l. rnum. reflexivity.
  - intros pos v b r EB [Hp Hs'] Lb Lr. destruct (HB b Lb) as [_ Col]. rewrite entry_column, Col.
    assert (Inv : pose_transform (pose_inverse (as_base s)) (pose_transform (as_base s) D) = D).
    { rewrite <- pt_assoc, pt_inverse_l, pt_1l; auto; [now apply unit_pos| |now apply unit_pos]. unfold pose_inverse. cbn [rotation]. apply qn_inverse_pos. now apply unit_pos. }
    assert (UD : unit_q (rotation D)) by apply (fk_unit _ _ _ _ _ _ _ (loaded_axes_ok _ _ _ _ (proj1 Hr) Hu) (after_ok sorted jsorted ops) (unit_clear : unit_q (rotation pose_clear)) HD).
    rewrite EB in *. destruct (base_turn_error pos v D b r IGNORE Lb Lr UD Hp Hs' Inv) as (d & H1 & H2). exists d. split; [|exact H2].
    apply (dext (fun t => reported IGNORE r (pose_transform (mkPose pos (from_rpy (with_coord b t v))) D))); [|exact H1].
    intros t. unfold reported, link_row. destruct r as [|[|[|r]]]; [reflexivity..|lia].
Qed.

Lemma shift_derives (D : @Pose RA) (B : @Pose RA) b r : (b < 3)%nat -> (r < 3)%nat ->
  derivable_pt_lim (fun t => coord r (position (pose_transform (mkPose (with_coord b t (position B)) (rotation B)) D))) (coord b (position B)) (if Nat.eqb r b then 1 else 0).
Proof.
  intros Lb Lr. pose proof (base_shift B D b r IGNORE Lb Lr) as H.
  assert (E : nth r (map (fun r => if Nat.eqb r b then @n1 RA else n0) (seq 0 (jac_rows IGNORE))) 0 = if Nat.eqb r b then 1 else 0).
  { cbn [jac_rows]. rewrite (nth_indep _ 0 ((fun r => if Nat.eqb r b then @n1 RA else n0) 0%nat)) by (rewrite map_length, seq_length; auto).
    rewrite (map_nth (fun r => if Nat.eqb r b then @n1 RA else n0)), seq_nth by auto. rewrite Nat.add_0_l. rnum. reflexivity. }
  rewrite E in H. apply (dext (fun t => reported IGNORE r (pose_transform (mkPose (with_coord b t (position B)) (rotation B)) D))); [|exact H].
  intros t. unfold reported, link_row. destruct r as [|[|[|r]]]; [reflexivity..|lia].
Qed.

(** a base pose, set *)
Lemma based_reached B : exists m1, set_base_pose B m = (m1, Ok tt) /\ Rep R root sorted jsorted (massive sorted) (mass_sum (massive sorted)) (with_basep s B) m1 /\ Good m1.
Proof.
  assert (Hr1 : exists m1, set_base_pose B m = (m1, Ok tt) /\ reached tinyxml text R root sorted jsorted (ops ++ [Op_set_base_pose B]) m1).
  { eexists. split; [reflexivity|]. apply (reached_run _ _ _ _ _ _ _ _ _ _ Hr). reflexivity. }
  destruct Hr1 as (m1 & E1 & Hr1). destruct (reached_Rep _ _ _ _ _ _ _ _ Hr1) as [HR1 HC1].
  assert (C : clean (ops ++ [Op_set_base_pose B]) = true) by (unfold clean; rewrite fold_left_app; reflexivity). specialize (HC1 C).
  rewrite after_app in HR1. exists m1. split; [exact E1|]. split; [exact HR1|]. split; auto. apply HR1.
Qed.
Lemma based_det B n P1 P2 : pose_at R root jsorted (with_basep s B) n P1 -> pose_at R root jsorted (with_basep s B) n P2 -> P1 = P2.
Proof. destruct (based_reached B) as (m1 & _ & HR1 & _). exact (rep_pose_det _ _ _ _ _ _ _ _ HR1 n P1 P2). Qed.
Lemma based_same : with_basep s (as_base s) = s.
Proof. unfold with_basep. now destruct s. Qed.

(** ** centre of mass *)
Notation ms := (massive sorted).
Definition Part : Type := ((string * @Inertial RA) * (@mat RA * @Pose RA))%type.
Definition pmass (x : Part) : Rdefinitions.R := in_mass (snd (fst x)).
Lemma parts jids : forall sub Js, incl sub ms -> Forall2 (fun ni J => is_jacobian R root jsorted s IGNORE (fst ni ++ "_com")%string jids true J) sub Js ->
  exists T : list Part, map fst T = sub /\ map (fun x => fst (snd x)) T = Js /\
    forall x, In x T -> In (fst x) ms /\ attached (fst (fst x) ++ "_com")%string jids (fst (snd x)) (snd (snd x)).
Proof.
  intros sub Js Hi F. induction F as [|ni J sub Js H F IH]; [exists []; split; [reflexivity|split; [reflexivity|intros x []]]|].
  destruct (IH (fun x I => Hi x (or_intror I))) as (T & <- & <- & HT). destruct (jac_attached _ _ _ H) as (D & HD).
  exists ((ni, (J, D)) :: T). split; [reflexivity|]. split; [reflexivity|]. intros x [<-|I]; [split; [apply Hi; now left|exact HD]|auto].
Qed.

Lemma com_parts B (T : list Part) Ps : unit_q (rotation B) -> (forall x, In x T -> In (fst x) ms /\ exists jids, attached (fst (fst x) ++ "_com")%string jids (fst (snd x)) (snd (snd x))) ->
  Forall2 (fun ni P => pose_at R root jsorted (with_basep s B) (fst ni) P) (map fst T) Ps ->
  map (fun x : (string * @Inertial RA) * @Pose RA => (in_mass (snd (fst x)), com_point (snd x) (snd (fst x)))) (combine (map fst T) Ps) =
  map (fun x => (pmass x, position (pose_transform B (snd (snd x))))) T.
Proof.
  intros UB. revert Ps. induction T as [|[[n i] [J D]] T IH]; intros Ps HT F; inversion F as [|? P ? Ps' HP F']; subst; [reflexivity|].
  cbn [map combine fst snd]. f_equal; [|apply IH; auto; intros x I; apply HT; now right].
  unfold pmass. cbn [fst snd]. f_equal. destruct (HT _ (or_introl eq_refl)) as (I & jids & At). cbn [fst snd] in I, At.
  assert (Q : pose_at R root jsorted (with_basep s B) (n ++ "_com")%string (pose_transform P (mkPose (position (in_origin i)) q_clear))).
  { unfold pose_at, with_basep. cbn [as_added as_angles as_base]. eapply fk_added; [exact (reached_has_com sorted jsorted ops n i I)|]. exact HP. }
  rewrite (based_det B _ _ _ (at_pose _ _ _ _ At B UB) Q). reflexivity.
Qed.

Lemma com_coord r (l : list (string * @Inertial RA)) Ps : coord r (com_of l Ps) =
  / mass_sum l * rsum (fun mp : @num RA * @Vector3 RA => fst mp * coord r (snd mp)) (map (fun x => (in_mass (snd (fst x)), com_point (snd x) (snd (fst x)))) (combine l Ps)).
Proof.
  unfold com_of, scaled_down.
  assert (W : forall v, coord r (@V3 RA (vx v / mass_sum l) (vy v / mass_sum l) (vz v / mass_sum l))%num = / mass_sum l * coord r v).
  { intros v. destruct r as [|[|r']]; cbn [coord vx vy vz]; rnum; change (@num RA) with Rdefinitions.R; unfold Rdiv; apply Rmult_comm. }
  rewrite W, weighted_coord. f_equal. assert (Z : coord r v_clear = 0) by (destruct r as [|[|r']]; cbn [coord vx vy vz v_clear]; rnum; reflexivity).
  rewrite Z. apply Rplus_0_l.
Qed.

Lemma com_at B c : unit_q (rotation B) -> com_with_base m B c -> forall T : list Part, map fst T = ms ->
  (forall x, In x T -> In (fst x) ms /\ exists jids, attached (fst (fst x) ++ "_com")%string jids (fst (snd x)) (snd (snd x))) ->
  forall r, coord r c = / mass_sum ms * rsum (fun x => pmass x * coord r (position (pose_transform B (snd (snd x))))) T.
Proof.
  intros UB (m2 & Y) T ET HT r. destruct (based_reached B) as (m1 & E1 & HR1 & G1). rewrite (bind_ok _ _ _ _ _ E1) in Y.
  destruct (get_com_ok _ _ _ _ _ _ _ _ _ _ HR1 G1 (reached_has_com sorted jsorted ops) Y) as (Ps & FP & ->).
  rewrite com_coord. f_equal. rewrite <- ET in FP |- *. rewrite (com_parts B T Ps UB HT FP), rsum_map. reflexivity.
Qed.

Lemma com_base_jacobian jids m' J : clean ops = true -> (forall k, In k jids -> (k < length (get_joint_names m))%nat) ->
  get_com_jacobian jids true m = (m', Ok J) ->
  exists T : list Part, map fst T = ms /\ (forall x, In x T -> In (fst x) ms /\ attached (fst (fst x) ++ "_com")%string jids (fst (snd x)) (snd (snd x))) /\
    forall r c, (r < 3)%nat -> (c < length jids + 6)%nat -> entry J r c = / mass_sum ms * rsum (fun x => pmass x * entry (fst (snd x)) r c) T.
Proof.
  intros Hc Hk X. destruct (reached_Rep _ _ _ _ _ _ _ _ Hr) as [HR Hcl]. specialize (Hcl Hc).
  assert (G : Good m) by (split; auto; apply HR). rewrite (rep_joint_count _ _ _ _ _ _ _ _ HR) in Hk.
  destruct (get_com_jacobian_ok _ _ _ _ _ _ _ _ _ _ _ _ HR G Hk X) as (Js & FJ & ->).
  assert (S : forall w, In w (map (fun x => (in_mass (snd (fst x)), snd x)) (combine ms Js)) -> has_shape 3 (length jids + 6)%nat (snd w)).
  { intros w I. apply in_map_iff in I. destruct I as ([ni J] & <- & I). cbn [snd fst]. apply in_combine_r in I. destruct (Forall2_in_r _ _ _ _ FJ I) as (ni' & _ & (HS & _)). exact HS. }
  destruct (parts jids ms Js (incl_refl _) FJ) as (T & ET & EJ & HT). exists T. split; [exact ET|]. split; [exact HT|].
  intros r c Lr Lc. rewrite entry_mean by auto. unfold Rdiv. rewrite Rmult_comm. f_equal. rewrite rsum_map. rewrite <- EJ. rewrite <- ET at 1.
  clear. induction T as [|x T IH]; [reflexivity|]. cbn [map combine]. unfold rsum in IH |- *. cbn [fold_right]. f_equal. exact IH.
Qed.

Lemma rsum_const {B} (f : B -> Rdefinitions.R) k l : rsum (fun x => f x * k) l = rsum f l * k.
Proof. induction l as [|b l IH]; cbn [rsum fold_right]; [ring|]. unfold rsum in IH. rewrite IH. ring. Qed.
Lemma rsum_err {B} (w f g e : B -> Rdefinitions.R) l : (forall b, In b l -> Rabs (f b - g b) <= e b) ->
  Rabs (rsum (fun b => w b * f b) l - rsum (fun b => w b * g b) l) <= rsum (fun b => Rabs (w b) * e b) l.
Proof.
  induction l as [|b l IH]; intros H; cbn [rsum fold_right]; [rewrite Rminus_0_r, Rabs_R0; lra|].
  specialize (IH (fun b I => H b (or_intror I))). specialize (H b (or_introl eq_refl)). unfold rsum in IH |- *.
  match goal with |- Rabs (?a + ?x - (?c + ?y)) <= _ => replace (a + x - (c + y)) with ((a - c) + (x - y)) by ring end.
  eapply Rle_trans; [apply Rabs_triang|]. apply Rplus_le_compat; [|exact IH]. rewrite <- Rmult_minus_distr_l, Rabs_mult.
  apply Rmult_le_compat_l; [apply Rabs_pos|exact H].
Qed.
Lemma mass_parts (T : list Part) : map fst T = ms -> mass_sum ms = rsum pmass T.
Proof. intros <-. rewrite mass_sum_rsum, rsum_map. reflexivity. Qed.

Lemma com_shift jids m' J C b r : clean ops = true -> (forall k, In k jids -> (k < length (get_joint_names m))%nat) ->
  get_com_jacobian jids true m = (m', Ok J) -> (b < 3)%nat -> (r < 3)%nat ->
  (forall t, com_with_base m (mkPose (with_coord b t (position (as_base s))) (rotation (as_base s))) (C t)) ->
  (mass_sum ms <> 0 -> entry J r (length jids + b) = if Nat.eqb r b then 1 else 0) /\
  derivable_pt_lim (fun t => coord r (C t)) (coord b (position (as_base s))) (entry J r (length jids + b)).
Proof.
  intros Hc Hk X Lb Lr HC. destruct (com_base_jacobian jids m' J Hc Hk X) as (T & ET & HT & HJ).
  assert (HT' : forall x, In x T -> In (fst x) ms /\ exists jids, attached (fst (fst x) ++ "_com")%string jids (fst (snd x)) (snd (snd x))) by (intros x I; destruct (HT x I); eauto).
  rewrite HJ by lia. assert (E1 : forall f : Part -> Rdefinitions.R, (forall x, In x T -> f x = if Nat.eqb r b then 1 else 0) -> rsum (fun x => pmass x * f x) T = mass_sum ms * (if Nat.eqb r b then 1 else 0)).
  { intros f Hf. rewrite (mass_parts T ET), <- rsum_const. clear - Hf. induction T as [|x T IH]; [reflexivity|]. cbn [rsum fold_right]. unfold rsum in IH.
    rewrite IH by (intros y I; apply Hf; now right). now rewrite (Hf x (or_introl eq_refl)). }
  rewrite E1 by (intros x I; exact (at_shift _ _ _ _ (proj2 (HT x I)) b r Lb Lr)). split; [intros N; field; exact N|].
  pose proof (after_base_unit sorted jsorted ops Hb) as UB.
  apply (dext (fun t => / mass_sum ms * rsum (fun x => pmass x * coord r (position (pose_transform (mkPose (with_coord b t (position (as_base s))) (rotation (as_base s))) (snd (snd x))))) T)).
  { intros t. symmetry. apply (com_at (mkPose (with_coord b t (position (as_base s))) (rotation (as_base s))) _ UB (HC t) T ET HT'). }
  apply (derivable_pt_lim_scal (fun t => rsum (fun x => pmass x * coord r (position (pose_transform (mkPose (with_coord b t (position (as_base s))) (rotation (as_base s))) (snd (snd x))))) T)).
  rewrite <- (E1 (fun _ => if Nat.eqb r b then 1 else 0)) by reflexivity. apply rsum_derive. intros x I.
  apply (derivable_pt_lim_scal (fun t => coord r (position (pose_transform (mkPose (with_coord b t (position (as_base s))) (rotation (as_base s))) (snd (snd x)))))). now apply shift_derives.
Qed.

Lemma family_choice {B} (Q : B -> Rdefinitions.R -> Prop) (l : list B) : (forall x, In x l -> exists d, Q x d) -> exists ds, Forall2 Q l ds.
Proof. induction l as [|x l IH]; intros H; [exists []; constructor|]. destruct (H x (or_introl eq_refl)) as (d & Hd). destruct IH as (ds & F); [auto using in_cons|]. exists (d :: ds). now constructor. Qed.

Lemma com_turn jids m' J C b r pos v : clean ops = true -> (forall k, In k jids -> (k < length (get_joint_names m))%nat) ->
  get_com_jacobian jids true m = (m', Ok J) -> (b < 3)%nat -> (r < 3)%nat ->
  as_base s = mkPose pos (from_rpy v) -> level v ->
  (forall t, com_with_base m (mkPose pos (from_rpy (with_coord b t v))) (C t)) ->
  exists d W, derivable_pt_lim (fun t => coord r (C t)) (coord b v) d /\ bodies R root jsorted s W /\ 
    Rabs (mass_of W) * Rabs (entry J r (length jids + 3 + b) - d) <= 4 / 10000000 * rsum (fun w => Rabs (bmass w) * dist3 (bpoint w) pos) W.
Proof.
  intros Hc Hk X Lb Lr EB Lv HC. destruct (com_base_jacobian jids m' J Hc Hk X) as (T & ET & HT & HJ).
  assert (HT' : forall x, In x T -> In (fst x) ms /\ exists jids, attached (fst (fst x) ++ "_com")%string jids (fst (snd x)) (snd (snd x))) by (intros x I; destruct (HT x I); eauto).
  assert (UB : forall u, unit_q (rotation (mkPose pos (from_rpy u)))) by (intros u; cbn [rotation]; unfold from_rpy; apply rpy_unit).
  assert (T2 : exists T2 : list (Part * Rdefinitions.R), map fst T2 = T /\ forall x d, In (x, d) T2 ->
     derivable_pt_lim (fun t => coord r (position (pose_transform (mkPose pos (from_rpy (with_coord b t v))) (snd (snd x))))) (coord b v) d /\
     Rabs (entry (fst (snd x)) r (length jids + 3 + b) - d) <= 4 / 10000000 * dist3 (position (pose_transform (as_base s) (snd (snd x)))) pos).
  { clear - HT EB Lv Lb Lr. induction T as [|x T IH]; [exists []; split; [reflexivity|intros x d []]|].
    destruct IH as (T2 & E & H2); [intros y I; apply HT; now right|]. destruct (at_turn _ _ _ _ (proj2 (HT x (or_introl eq_refl))) pos v b r EB Lv Lb Lr) as (d & H).
    exists ((x, d) :: T2). split; [cbn; now rewrite E|]. intros y d' [E'|I]; [injection E' as <- <-; exact H|auto]. }
  destruct T2 as (T2 & ET2 & H2). exists (/ mass_sum ms * rsum (fun xd => pmass (fst xd) * snd xd) T2).
  assert (UBs : unit_q (rotation (as_base s))) by (rewrite EB; apply UB).
  assert (PS : exists Ps, Forall2 (fun ni P => pose_at R root jsorted s (fst ni) P) ms Ps).
  { destruct (reached_Rep _ _ _ _ _ _ _ _ Hr) as [HR _]. pose proof (massive_link _ _ _ _ _ _ _ _ Hr) as ML. revert ML. generalize ms. intros l ML.
    induction l as [|[n i] l IH]; [exists []; constructor|]. destruct IH as (Ps & F); [intros n' i' I; apply (ML n' i'); now right|].
    destruct (rep_pose_ex _ _ _ _ _ _ _ _ HR n (ML n i (or_introl eq_refl))) as (P & HP). exists (P :: Ps). constructor; auto. }
  destruct PS as (Ps & FPs). destruct (poses_bodies R root jsorted s sorted Ps (ord_links _ _ _ (proj1 (proj2 Hr))) FPs) as (W & HW & PW).
  exists W. split; [|split; [exact HW|]].
  - apply (dext (fun t => / mass_sum ms * rsum (fun x => pmass x * coord r (position (pose_transform (mkPose pos (from_rpy (with_coord b t v))) (snd (snd x))))) T)).
    { intros t. symmetry. apply (com_at _ _ (UB _) (HC t) T ET HT'). }
    apply (derivable_pt_lim_scal (fun t => rsum (fun x => pmass x * coord r (position (pose_transform (mkPose pos (from_rpy (with_coord b t v))) (snd (snd x))))) T)).
    rewrite <- ET2. apply (dext (fun t => rsum (fun xd : Part * Rdefinitions.R => pmass (fst xd) * coord r (position (pose_transform (mkPose pos (from_rpy (with_coord b t v))) (snd (snd (fst xd)))))) T2)).
    { intros t. symmetry. apply rsum_map. }
    apply rsum_derive. intros [x d] I. cbn [fst snd].
    apply (derivable_pt_lim_scal (fun t => coord r (position (pose_transform (mkPose pos (from_rpy (with_coord b t v))) (snd (snd x)))))). exact (proj1 (H2 x d I)).
  - rewrite HJ by lia. rewrite <- Rmult_minus_distr_l, Rabs_mult.
    assert (EM : mass_of W = mass_sum ms).
    { unfold mass_of. rewrite <- (rsum_perm _ _ _ PW), rsum_map, mass_sum_rsum. unfold pair_up, bmass. cbn [fst].
      pose proof (Forall2_len _ _ _ FPs) as L. clear - L. revert Ps L. generalize ms. intros l. induction l as [|ni l IH]; intros [|P Ps] L; simpl in *; try lia; auto. f_equal. apply IH. lia. }
    rewrite EM. assert (EW : rsum (fun w => Rabs (bmass w) * dist3 (bpoint w) pos) W = rsum (fun x => Rabs (pmass x) * dist3 (position (pose_transform (as_base s) (snd (snd x)))) pos) T).
    { rewrite <- (rsum_perm _ _ _ PW), rsum_map. unfold pair_up, bmass, bpoint. cbn [fst snd].
      pose proof (com_parts (as_base s) T Ps UBs HT') as CP. rewrite based_same, ET in CP. specialize (CP FPs).
      match type of CP with _ = ?l => transitivity (rsum (fun mp : @num RA * @Vector3 RA => Rabs (fst mp) * dist3 (snd mp) pos) l) end; [rewrite <- CP|]; rewrite rsum_map; reflexivity. }
    rewrite EW. rewrite <- Rmult_assoc.
    assert (K : Rabs (mass_sum ms) * Rabs (/ mass_sum ms) <= 1).
    { rewrite <- Rabs_mult. destruct (Req_dec (mass_sum ms) 0) as [Z|N]; [rewrite Z, Rmult_0_l, Rabs_R0; lra|]. rewrite Rinv_r by exact N. rewrite Rabs_R1. lra. }
    apply Rle_trans with (1 * Rabs (rsum (fun x => pmass x * entry (fst (snd x)) r (length jids + 3 + b)) T - rsum (fun xd => pmass (fst xd) * snd xd) T2)).
    { apply Rmult_le_compat_r; [apply Rabs_pos|exact K]. }
    rewrite Rmult_1_l. rewrite <- ET2, !rsum_map. rewrite <- rsum_scal.
    eapply Rle_trans; [apply (rsum_err (fun xd : Part * Rdefinitions.R => pmass (fst xd)) (fun xd => entry (fst (snd (fst xd))) r (length jids + 3 + b)) snd
      (fun xd => 4 / 10000000 * dist3 (position (pose_transform (as_base s) (snd (snd (fst xd))))) pos))|].
    + intros [x d] I. exact (proj2 (H2 x d I)).
    + right. apply rsum_ext. intros xd. ring.
Qed.
End Reached.

(** ** waypoints *)
Lemma split6 (q : list (@num RA)) n : length q = (n + 6)%nat -> exists js x y z r p w, length js = n /\ q = js ++ [x; y; z; r; p; w].
Proof.
  intros L. exists (firstn n q). assert (L1 : length (firstn n q) = n) by (rewrite firstn_length; lia).
  assert (L2 : length (skipn n q) = 6%nat) by (rewrite skipn_length; lia). pose proof (firstn_skipn n q) as E.
  destruct (skipn n q) as [|x [|y [|z [|r [|p [|w [|]]]]]]]; simpl in L2; try lia. exists x, y, z, r, p, w. split; [exact L1|now symmetry].
Qed.
Lemma set_tail {B} (js l : list B) k t : list_set (js ++ l) (length js + k) t = js ++ list_set l k t.
Proof. induction js as [|j js IH]; [reflexivity|]. cbn [app length Nat.add list_set]. now rewrite IH. Qed.
Lemma skip_tail {B} (js l : list B) : skipn (length (js ++ l) - length l) (js ++ l) = l.
Proof. rewrite app_length. replace (length js + length l - length l)%nat with (length js) by lia. rewrite skipn_app, skipn_all, Nat.sub_diag. reflexivity. Qed.
Lemma combine_tail {B C} (a : list B) (js l l' : list C) : length js = length a -> combine a (js ++ l) = combine a (js ++ l').
Proof. revert js. induction a as [|x a IH]; intros [|j js] L; simpl in *; try lia; [reflexivity|]. f_equal. apply IH. lia. Qed.
Lemma waypoint_tail jids js l l' (s : @AState RA) : length js = length jids -> length l = 6%nat -> length l' = 6%nat ->
  at_waypoint jids true (js ++ l') s = with_basep (at_waypoint jids true (js ++ l) s) (pose6 l').
Proof.
  intros L L1 L2. unfold at_waypoint, with_basep. cbn [as_added as_angles]. f_equal.
  - unfold assign. now rewrite (combine_tail jids js l l' L).
  - rewrite <- L2 at 1. rewrite skip_tail. reflexivity.
Qed.

Lemma pos_coord (P : @Pose RA) : position P = @V3 RA (coord 0 (position P)) (coord 1 (position P)) (coord 2 (position P)).
Proof. destruct P as [[x y z] q]. reflexivity. Qed.
Lemma same_distance (B D1 D2 : @Pose RA) : unit_q (rotation B) ->
  sq_norm (v_sub (position (pose_transform B D1)) (position (pose_transform B D2))) = sq_norm (v_sub (position D1) (position D2)).
Proof.
  intros U. cbn [pose_transform position]. rewrite !quat_mat_rot by exact U.
  assert (E : v_sub (v_add (mvec (quat_mat (rotation B)) (position D1)) (position B)) (v_add (mvec (quat_mat (rotation B)) (position D2)) (position B)) = mvec (quat_mat (rotation B)) (v_sub (position D1) (position D2))).
  { destruct (position D1) as [a b c], (position D2) as [d e f], (position B) as [g h k], (quat_mat (rotation B)). apply v_eq; cbn; rnum; ring. }
  rewrite E. pose proof (rot_norm (rotation B) (v_sub (position D1) (position D2)) U) as N. cbv zeta in N. unfold sq_norm. rnum. exact N.
Qed.

Section Dist.
Context tinyxml text (R : @Robot RA) root sorted jsorted ops m (Hr : reached tinyxml text R root sorted jsorted ops m).
Context (Hu : unit_axes R) (Hb : unit_bases ops).
Notation s := (after sorted jsorted ops).

Lemma base_gradient (qs : list (list (@num RA))) ids1 ids2 jids (uc : bool) m' D G a b q e1 e2 n1 n2 P1 P2 :
  (forall k, In k jids -> (k < length (get_joint_names m))%nat) ->
  (forall q, In q qs -> length q = (length jids + 6)%nat) ->
  compute_inter_link_squared_dists qs ids1 ids2 jids true true uc m = (m', Ok (D, G)) ->
  nth_error qs a = Some q -> nth_error ids1 b = Some e1 -> nth_error ids2 b = Some e2 ->
  nth_error (all_links sorted s) e1 = Some n1 -> nth_error (all_links sorted s) e2 = Some n2 ->
  pose_at R root jsorted (at_waypoint jids true q s) n1 P1 -> pose_at R root jsorted (at_waypoint jids true q s) n2 P2 ->
  (forall c x d, (length jids <= c < length jids + 6)%nat -> nth_error q c = Some x ->
     (forall t, sqdist_with m jids true uc e1 e2 (list_set q c t) (d t)) -> forall t, d t = d x) /\
  (forall k, (k < 3)%nat -> entry G (a * length ids1 + b) (length jids + k) = 0) /\
  (forall k, (k < 3)%nat -> let B := pose6 (skipn (length jids) q) in
     - (PI / 2) < nth (length jids + 4) q 0 < PI / 2 -> Rabs (sin (nth (length jids + 4) q 0)) < 99999 / 100000 ->
     Rabs (entry G (a * length ids1 + b) (length jids + 3 + k)) <=
       16 / 10000000 * dist3 (position P1) (position P2) * (dist3 (position P1) (position B) + dist3 (position P2) (position B))).
Proof.
  intros Hk Hq X Eq E1 E2 N1 N2 HP1 HP2. destruct (reached_Rep _ _ _ _ _ _ _ _ Hr) as [HR _].
  rewrite (rep_joint_count _ _ _ _ _ _ _ _ HR) in Hk. pose proof (Hq q (nth_error_In _ _ Eq)) as Lq.
  destruct (sqdists_ok _ _ _ _ _ _ _ _ _ _ _ _ _ _ _ _ _ _ HR (eq_refl : (true || negb uc)%bool = true) Hk X) as (_ & _ & HG). destruct (HG eq_refl) as (LG & HG'). clear HG.
  destruct (HG' a b q e1 Eq E1) as (e2' & g & E2' & Eg & p1 & p2 & J1 & J2 & (y1 & Y1 & Q1) & (y2 & Y2 & Q2) & (y1' & Y1' & I1) & (y2' & Y2' & I2) & ->).
  assert (e2' = e2) by congruence. subst e2'. clear HG' E2'.
  assert (AL : all_links sorted (at_waypoint jids true q s) = all_links sorted s) by reflexivity. rewrite AL in *.
  assert (y1 = n1) by congruence. assert (y2 = n2) by congruence. assert (y1' = n1) by congruence. assert (y2' = n2) by congruence. subst y1 y2 y1' y2'. clear Y1 Y2 Y1' Y2'.
  destruct (waypoint_reached _ _ _ _ _ _ _ _ Hr jids true q Hk Lq) as (m1 & Hr1 & Ea). pose proof (setters_unit ops Hb jids true q) as Hb1.
  set (ops1 := ops ++ setters jids true q) in *. rewrite <- Ea in HP1, HP2, Q1, Q2, I1, I2.
  destruct (reached_Rep _ _ _ _ _ _ _ _ Hr1) as [HR1 _].
  assert (p1 = P1) by exact (rep_pose_det _ _ _ _ _ _ _ _ HR1 n1 _ _ Q1 HP1). assert (p2 = P2) by exact (rep_pose_det _ _ _ _ _ _ _ _ HR1 n2 _ _ Q2 HP2). subst p1 p2. clear Q1 Q2.
  destruct (jac_attached _ _ _ _ _ _ _ _ Hr1 Hu Hb1 n1 jids J1 I1) as (D1 & A1). destruct (jac_attached _ _ _ _ _ _ _ _ Hr1 Hu Hb1 n2 jids J2 I2) as (D2 & A2).
  pose proof (after_base_unit sorted jsorted ops1 Hb1) as UB.
  assert (EP1 : P1 = pose_transform (as_base (after sorted jsorted ops1)) D1).
  { apply (based_det _ _ _ _ _ _ _ _ Hr1 (as_base (after sorted jsorted ops1)) n1); [rewrite based_same; exact HP1|]. now apply (at_pose _ _ _ _ _ _ _ _ _ A1). }
  assert (EP2 : P2 = pose_transform (as_base (after sorted jsorted ops1)) D2).
  { apply (based_det _ _ _ _ _ _ _ _ Hr1 (as_base (after sorted jsorted ops1)) n2); [rewrite based_same; exact HP2|]. now apply (at_pose _ _ _ _ _ _ _ _ _ A2). }
  assert (EG : forall c, (c < length jids + 6)%nat -> entry G (a * length ids1 + b) c = 2 * ((entry J1 0 c - entry J2 0 c) * vx (v_sub (position P1) (position P2)) + (entry J1 1 c - entry J2 1 c) * vy (v_sub (position P1) (position P2)) + (entry J1 2 c - entry J2 2 c) * vz (v_sub (position P1) (position P2)))).
  { intros c Lc. unfold entry at 1. rewrite (nth_error_nth _ _ [] Eg). apply grad_entry; [apply I1|apply I2|exact Lc]. }
  destruct (split6 q _ Lq) as (js & x & y & z & r & p & w & Ljs & ->).
  assert (EB : as_base (after sorted jsorted ops1) = pose6 [x; y; z; r; p; w]).
  { rewrite Ea. unfold at_waypoint. cbn [as_base]. change 6%nat with (length [x; y; z; r; p; w]). now rewrite skip_tail. }
  split; [|split].
  - intros c x0 d Lc Ex Hd. assert (K : forall t, d t = sq_norm (v_sub (position D1) (position D2))).
    { intros t. destruct (Hd t) as (m2 & G2 & Y).
      destruct (sqdists_ok _ _ _ _ _ _ _ _ _ _ _ _ _ _ _ _ _ _ HR (eq_refl : (true || negb uc)%bool = true) Hk Y) as (_ & HD & _).
      destruct (HD 0%nat 0%nat _ e1 eq_refl eq_refl) as (e2' & d' & E2' & Ed & p1' & p2' & (y1 & Y1 & H1) & (y2 & Y2 & H2) & Ed').
      cbn [nth_error] in E2'. cbn [nth_error Nat.mul Nat.add] in Ed. injection E2' as <-. injection Ed as <-.
      replace c with (length js + (c - length js))%nat in H1, H2, Y1, Y2 by lia. rewrite set_tail in H1, H2, Y1, Y2.
      set (l' := list_set [x; y; z; r; p; w] (c - length js) t) in *. assert (Ll' : length l' = 6%nat) by (unfold l'; now rewrite list_set_length).
      rewrite (waypoint_tail jids js [x; y; z; r; p; w] l' _ Ljs eq_refl Ll'), <- Ea in H1, H2, Y1, Y2.
      assert (AL' : all_links sorted (with_basep (after sorted jsorted ops1) (pose6 l')) = all_links sorted s) by (rewrite Ea; reflexivity). rewrite AL' in Y1, Y2.
      assert (y1 = n1) by congruence. assert (y2 = n2) by congruence. subst y1 y2.
      assert (U6 : unit_q (rotation (pose6 l'))) by (cbn [pose6 rotation]; apply rpy_unit).
      rewrite (based_det _ _ _ _ _ _ _ _ Hr1 _ n1 _ _ H1 (at_pose _ _ _ _ _ _ _ _ _ A1 _ U6)) in Ed'.
      rewrite (based_det _ _ _ _ _ _ _ _ Hr1 _ n2 _ _ H2 (at_pose _ _ _ _ _ _ _ _ _ A2 _ U6)) in Ed'.
      rewrite Ed'. now apply same_distance. }
    intros t. now rewrite !K.
  - intros k Lk. rewrite EG by lia. rewrite !(at_shift _ _ _ _ _ _ _ _ _ A1), !(at_shift _ _ _ _ _ _ _ _ _ A2) by lia. ring.
  - intros k Lk B Hp Hs'.
    assert (ER : skipn (length jids) (js ++ [x; y; z; r; p; w]) = [x; y; z; r; p; w]) by (rewrite skipn_app, <- Ljs, skipn_all, Nat.sub_diag; reflexivity).
    assert (EN : nth (length jids + 4) (js ++ [x; y; z; r; p; w]) 0 = p) by (rewrite app_nth2, <- Ljs by lia; replace (length js + 4 - length js)%nat with 4%nat by lia; reflexivity).
    rewrite EN in Hp, Hs'. unfold B. rewrite ER, <- EB. clear B.
    set (pos := @V3 RA x y z). set (v := @V3 RA r p w). assert (EB' : as_base (after sorted jsorted ops1) = mkPose pos (from_rpy v)) by exact EB.
    assert (Lv : level v) by (split; assumption).
    assert (PB : position (as_base (after sorted jsorted ops1)) = pos) by (rewrite EB'; reflexivity). rewrite PB.
    rewrite EG by lia.
    assert (T1 : forall i, (i < 3)%nat -> exists d, derivable_pt_lim (fun t => coord i (position (pose_transform (mkPose pos (from_rpy (with_coord k t v))) D1))) (coord k v) d /\ Rabs (entry J1 i (length jids + 3 + k) - d) <= 4 / 10000000 * dist3 (position P1) pos).
    { intros i Li. destruct (at_turn _ _ _ _ _ _ _ _ _ A1 pos v k i EB' Lv Lk Li) as (d & H1 & H2). exists d. rewrite EP1. split; assumption. }
    assert (T2 : forall i, (i < 3)%nat -> exists d, derivable_pt_lim (fun t => coord i (position (pose_transform (mkPose pos (from_rpy (with_coord k t v))) D2))) (coord k v) d /\ Rabs (entry J2 i (length jids + 3 + k) - d) <= 4 / 10000000 * dist3 (position P2) pos).
    { intros i Li. destruct (at_turn _ _ _ _ _ _ _ _ _ A2 pos v k i EB' Lv Lk Li) as (d & H1 & H2). exists d. rewrite EP2. split; assumption. }
    destruct (T1 0%nat ltac:(lia)) as (d10 & D10 & R10). destruct (T1 1%nat ltac:(lia)) as (d11 & D11 & R11). destruct (T1 2%nat ltac:(lia)) as (d12 & D12 & R12).
    destruct (T2 0%nat ltac:(lia)) as (d20 & D20 & R20). destruct (T2 1%nat ltac:(lia)) as (d21 & D21 & R21). destruct (T2 2%nat ltac:(lia)) as (d22 & D22 & R22). clear T1 T2.
    assert (SQ : forall f g df dg x0, derivable_pt_lim f x0 df -> derivable_pt_lim g x0 dg -> derivable_pt_lim (fun t => (f t - g t) * (f t - g t)) x0 (2 * ((df - dg) * (f x0 - g x0)))).
    { intros f g df dg x0 Hf Hg. pose proof (derivable_pt_lim_minus f g x0 df dg Hf Hg) as HM.
      pose proof (derivable_pt_lim_mult _ _ _ _ _ HM HM) as H2. apply (dext ((f - g) * (f - g))%F); [reflexivity|].
      replace (2 * ((df - dg) * (f x0 - g x0))) with ((df - dg) * (f - g)%F x0 + (f - g)%F x0 * (df - dg)) by (unfold minus_fct; ring). exact H2. }
    pose proof (derivable_pt_lim_plus _ _ _ _ _ (derivable_pt_lim_plus _ _ _ _ _ (SQ _ _ _ _ _ D10 D20) (SQ _ _ _ _ _ D11 D21)) (SQ _ _ _ _ _ D12 D22)) as QQ. clear SQ D10 D11 D12 D20 D21 D22.
    assert (Z : derivable_pt_lim (fun t => sq_norm (v_sub (position D1) (position D2))) (coord k v) 0) by (apply deriv_const; reflexivity).
    assert (QZ : 2 * ((d10 - d20) * vx (v_sub (position P1) (position P2))) + 2 * ((d11 - d21) * vy (v_sub (position P1) (position P2))) + 2 * ((d12 - d22) * vz (v_sub (position P1) (position P2))) = 0).
    { cbv beta in QQ. rewrite with_coord_same in QQ. rewrite <- EB', <- EP1, <- EP2 in QQ. cbn [coord] in QQ. 
      assert (Q' : derivable_pt_lim (fun t => sq_norm (v_sub (position D1) (position D2))) (coord k v) (2 * ((d10 - d20) * vx (v_sub (position P1) (position P2))) + 2 * ((d11 - d21) * vy (v_sub (position P1) (position P2))) + 2 * ((d12 - d22) * vz (v_sub (position P1) (position P2))))).
      { match type of QQ with derivable_pt_lim ?f _ ?l => apply (dext f); [|match goal with |- derivable_pt_lim _ _ ?l' => replace l' with l; [exact QQ|] end] end.
        - intros t. rewrite <- (same_distance (mkPose pos (from_rpy (with_coord k t v))) D1 D2) by (cbn [rotation]; unfold from_rpy; apply rpy_unit).
          unfold plus_fct, sq_norm, v_sub. cbn [vx vy vz]. rnum. reflexivity.
        - unfold v_sub. cbn [vx vy vz]. rnum. change (@num RA) with Rdefinitions.R. ring. }
      exact (uniqueness_limite _ _ _ _ Q' Z). }
    set (u := v_sub (position P1) (position P2)) in *.
    assert (ND : dist3 (position P1) (position P2) = sqrt (vx u * vx u + vy u * vy u + vz u * vz u)) by (unfold u, dist3, v_sub; cbn [vx vy vz]; rnum; reflexivity).
    rewrite ND. pose proof (l1_norm u) as LN. unfold l1 in LN.
    set (h1 := dist3 (position P1) pos) in *. set (h2 := dist3 (position P2) pos) in *. set (nn := sqrt (vx u * vx u + vy u * vy u + vz u * vz u)) in *.
    set (j10 := entry J1 0 (length jids + 3 + k)) in *. set (j11 := entry J1 1 (length jids + 3 + k)) in *. set (j12 := entry J1 2 (length jids + 3 + k)) in *.
    set (j20 := entry J2 0 (length jids + 3 + k)) in *. set (j21 := entry J2 1 (length jids + 3 + k)) in *. set (j22 := entry J2 2 (length jids + 3 + k)) in *.
    assert (B1 : forall ja da jb db, Rabs (ja - da) <= 4 / 10000000 * h1 -> Rabs (jb - db) <= 4 / 10000000 * h2 -> Rabs ((ja - jb) - (da - db)) <= 4 / 10000000 * (h1 + h2)).
    { intros ja da jb db Ha Hb'. replace ((ja - jb) - (da - db)) with ((ja - da) + - (jb - db)) by ring. eapply Rle_trans; [apply Rabs_triang|]. rewrite Rabs_Ropp. lra. }
    pose proof (B1 _ _ _ _ R10 R20) as C0. pose proof (B1 _ _ _ _ R11 R21) as C1. pose proof (B1 _ _ _ _ R12 R22) as C2. clear B1.
    generalize dependent (vx u). intros ux. generalize dependent (vy u). intros uy. generalize dependent (vz u). intros uz. change (@num RA) with Rdefinitions.R in *. intros.
    match goal with |- Rabs ?e <= _ => replace e with (2 * (((j10 - j20) - (d10 - d20)) * ux + ((j11 - j21) - (d11 - d21)) * uy + ((j12 - j22) - (d12 - d22)) * uz)) by lra end.
    rewrite Rabs_mult, (Rabs_pos_eq 2) by lra.
    assert (S3 : forall e0 e1' e2', Rabs e0 <= 4 / 10000000 * (h1 + h2) -> Rabs e1' <= 4 / 10000000 * (h1 + h2) -> Rabs e2' <= 4 / 10000000 * (h1 + h2) -> Rabs (e0 * ux + e1' * uy + e2' * uz) <= 4 / 10000000 * (h1 + h2) * (Rabs ux + Rabs uy + Rabs uz)).
    { intros e0 e1' e2' H0 H1 H2. eapply Rle_trans; [apply Rabs_triang|]. eapply Rle_trans; [apply Rplus_le_compat_r, Rabs_triang|]. rewrite !Rabs_mult.
      pose proof (Rmult_le_compat_r _ _ _ (Rabs_pos ux) H0). pose proof (Rmult_le_compat_r _ _ _ (Rabs_pos uy) H1). pose proof (Rmult_le_compat_r _ _ _ (Rabs_pos uz) H2). lra. }
    pose proof (S3 _ _ _ C0 C1 C2) as S. clear S3.
    assert (H0 : 0 <= h1 + h2) by (pose proof (sqrt_pos ((vx (position P1) - vx pos) * (vx (position P1) - vx pos) + (vy (position P1) - vy pos) * (vy (position P1) - vy pos) + (vz (position P1) - vz pos) * (vz (position P1) - vz pos))); pose proof (sqrt_pos ((vx (position P2) - vx pos) * (vx (position P2) - vx pos) + (vy (position P2) - vy pos) * (vy (position P2) - vy pos) + (vz (position P2) - vz pos) * (vz (position P2) - vz pos))); unfold h1, h2, dist3; lra).
    assert (S' : 4 / 10000000 * (h1 + h2) * (Rabs ux + Rabs uy + Rabs uz) <= 4 / 10000000 * (h1 + h2) * (2 * nn)) by (apply Rmult_le_compat_l; [lra|exact LN]).
    lra.
Qed.
End Dist.
