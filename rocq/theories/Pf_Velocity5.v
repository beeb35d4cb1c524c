(** The centre-of-mass Jacobian times the joint speeds (lemmas for C111). *)
From Coq Require Import String List Arith Lia Bool Permutation Classical Reals Lra.
From Verif Require Import Base Num Pose DataStructure Urdf Kin Wrapper Spec_Robot Spec_Hist Spec_Load Spec_Jac Spec_Mass Spec_Rot Spec_Deriv Spec_Body Spec_Velocity RealArith
  Pf_Base Pf_Data Inv Pf_FK Pf_Frame Pf_Rp Rep Pf_Ops Pf_Name Pf_Ctor Pf_Reach Pf_Jac Pf_Safe Pf_Pose Pf_Local Pf_Hist Pf_Wrap Pf_Mass Pf_Wrap2 Pf_Real Pf_Rot Pf_Unit Pf_Rpy Pf_Chain Pf_Deriv Pf_JacD Pf_Body Pf_ComD
  Pf_Reach2 Pf_Velocity Pf_Velocity2 Pf_Velocity3 Pf_Velocity4.
Import ListNotations.
Local Open Scope m_scope.
Local Open Scope R_scope.

Lemma row_times_combination {W} (M : @mat RA) (f : W -> R) (Ms : W -> @mat RA) (l : list W) (tot : R) r : forall v c0,
  (forall c, (c0 <= c < c0 + length v)%nat -> entry M r c = rsum (fun w => f w * entry (Ms w) r c) l / tot) ->
  row_times M r c0 v = rsum (fun w => f w * row_times (Ms w) r c0 v) l / tot.
Proof.
  induction v as [|x v IH]; intros c0 H; cbn [row_times].
  - assert (Z : rsum (fun w => f w * 0) l = 0) by (clear; induction l; cbn; [reflexivity|]; unfold rsum in *; lra). rewrite Z. unfold Rdiv. ring.
  - rewrite (H c0) by (cbn; lia). rewrite (IH (S c0)) by (intros c Lc; apply H; cbn; lia).
    assert (E : rsum (fun w => f w * (entry (Ms w) r c0 * x + row_times (Ms w) r (S c0) v)) l = rsum (fun w => f w * entry (Ms w) r c0) l * x + rsum (fun w => f w * row_times (Ms w) r (S c0) v) l).
    { clear. induction l as [|w l IH]; cbn; [ring|]. unfold rsum in *. rewrite IH. ring. }
    rewrite E. unfold Rdiv. ring.
Qed.

Section Moving.
Context (tinyxml : string -> option (list xml)) (text : string) (R : @Robot RA) (root : string) (sorted : list (string * option (@Inertial RA))) (jsorted : list (@UJoint RA)) (ops : list (@op RA)) (m : @KM RA).
Context (Hr : reached tinyxml text R root sorted jsorted ops m) (Hc : clean ops = true) (Hu : unit_axes R) (Hb : unit_bases ops).
Context (jids : list nat) (Nj : NoDup jids) (Hk : forall k, In k jids -> (k < length (get_joint_names m))%nat).
Context (q : Rdefinitions.R -> list Rdefinitions.R) (dq : list Rdefinitions.R) (t0 : Rdefinitions.R).
Context (Ha : angles_are m jids (q t0)) (Hs : speeds (length jids) q t0 dq).
Notation s := (after sorted jsorted ops).
Notation ms := (massive sorted).
Notation stt := (st sorted jsorted ops jids q).
Notation poses n P := (forall t, pose_at R root jsorted (stt t) n (P t)).

Lemma families_moving : forall sub, incl sub ms -> exists Fs, Forall2 (fun (ni : string * Inertial) P => poses (fst ni) P) sub Fs.
Proof.
  induction sub as [|[n i] sub IH]; intros Hi; [exists []; constructor|].
  destruct (IH (fun x I => Hi x (or_intror I))) as (Fs & F).
  destruct (family_moving _ _ _ _ _ _ _ _ Hr Hu Hb jids Nj Hk q dq t0 Ha Hs n (massive_link _ _ _ _ _ _ _ _ Hr n i (Hi _ (or_introl eq_refl)))) as (P & HP).
  exists (P :: Fs). constructor; auto.
Qed.

Lemma body_moving n i P wb J r : In (n, i) ms -> poses n P ->
  is_jacobian R root jsorted s IGNORE (n ++ "_com")%string jids wb J -> (r < 3)%nat ->
  derivable_pt_lim (fun t => coord r (com_point (P t) i)) t0 (row_times J r 0 dq).
Proof.
  intros I HP HJ Lr. set (Q := fun t => pose_transform (P t) (mkPose (position (in_origin i)) q_clear)).
  assert (HQ : poses (n ++ "_com")%string Q).
  { intros t. unfold pose_at, st. cbn [as_added as_angles as_base]. eapply fk_added; [exact (reached_has_com sorted jsorted ops n i I)|]. exact (HP t). }
  pose proof (is_jacobian_speeds _ _ _ _ _ _ _ _ Hr Hu Hb jids Nj Hk q dq t0 Ha Hs _ IGNORE wb J Q r HJ HQ Lr ltac:(intros X; discriminate X)) as D.
  apply (dext (fun t => reported IGNORE r (Q t))); [|exact D]. intros t. destruct r as [|[|[|r]]]; try lia; reflexivity.
Qed.

Lemma bodies_moving wb r sub Fs Js : (r < 3)%nat -> incl sub ms -> Forall2 (fun (ni : string * Inertial) P => poses (fst ni) P) sub Fs ->
  Forall2 (fun ni J => is_jacobian R root jsorted s IGNORE (fst ni ++ "_com")%string jids wb J) sub Js ->
  derivable_pt_lim (fun t => rsum (fun mp : @num RA * @Vector3 RA => fst mp * coord r (snd mp)) (map (fun x => (in_mass (snd (fst x)), com_point (snd x) (snd (fst x)))) (combine sub (map (fun P => P t) Fs)))) t0
    (rsum (fun w : @num RA * @mat RA => fst w * row_times (snd w) r 0 dq) (map (fun x => (in_mass (snd (fst x)), snd x)) (combine sub Js))).
Proof.
  intros Lr Hi F. revert Js. induction F as [|[n i] P sub Fs HP F IH]; intros Js FJ; inversion FJ as [|? J ? Js' HJ FJ']; subst.
  - apply derivable_pt_lim_const.
  - cbn [map combine rsum fold_right fst snd].
    apply (derivable_pt_lim_plus (fun t => in_mass i * coord r (com_point (P t) i)) (fun t => rsum (fun mp : @num RA * @Vector3 RA => fst mp * coord r (snd mp)) (map (fun x => (in_mass (snd (fst x)), com_point (snd x) (snd (fst x)))) (combine sub (map (fun P => P t) Fs))))).
    + apply (derivable_pt_lim_scal (fun t => coord r (com_point (P t) i)) (in_mass i) t0).
      apply (body_moving n i P wb J r); auto. apply Hi. now left.
    + apply IH; auto. intros x I. apply Hi. now right.
Qed.

Lemma com_times_speeds wb m' J C r : get_com_jacobian jids wb m = (m', Ok J) -> (forall t, com_with_joints m jids (q t) (C t)) -> (r < 3)%nat ->
  derivable_pt_lim (fun t => coord r (C t)) t0 (row_times J r 0 dq).
Proof.
  intros X HC Lr. destruct (reached_Rep _ _ _ _ _ _ _ _ Hr) as [HR Hcl]. specialize (Hcl Hc).
  assert (G : Good m) by (split; auto; apply HR). pose proof Hk as Hk'. rewrite (rep_joint_count _ _ _ _ _ _ _ _ HR) in Hk'.
  destruct (get_com_jacobian_ok _ _ _ _ _ _ _ _ _ _ _ _ HR G Hk' X) as (Js & FJ & ->).
  destruct (families_moving ms (incl_refl _)) as (Fs & FF).
  assert (EC : forall t, C t = com_of ms (map (fun P => P t) Fs)).
  { intros t. destruct (HC t) as (m2 & Y). destruct (moving_reached _ _ _ _ _ _ _ _ Hr jids Nj Hk q dq t0 Hs t) as (m1 & E1 & Hr1 & Ea & _).
    destruct (reached_Rep _ _ _ _ _ _ _ _ Hr1) as [HR1 HC1]. assert (CL : clean (ops ++ [Op_set_joint_angles jids (q t)]) = true) by (unfold clean; rewrite fold_left_app; reflexivity).
    specialize (HC1 CL). assert (G1 : Good m1) by (split; auto; apply HR1). pose proof (reached_has_com sorted jsorted (ops ++ [Op_set_joint_angles jids (q t)])) as HCm.
    rewrite Ea in HR1, HCm. rewrite (bind_ok _ _ _ _ _ E1) in Y. destruct (get_com_ok _ _ _ _ _ _ _ _ _ _ HR1 G1 HCm Y) as (Ps & FP & ->).
    f_equal. apply (is_com_det _ _ _ _ _ _ _ _ _ _ HR1); auto. clear - FF. induction FF; constructor; auto. }
  apply (dext (fun t => coord r (com_of ms (map (fun P => P t) Fs)))); [intros t; now rewrite EC|].
  assert (S : forall w, In w (map (fun x => (in_mass (snd (fst x)), snd x)) (combine ms Js)) -> has_shape 3 (length jids + (if wb then 6 else 0))%nat (snd w)).
  { intros w I. apply in_map_iff in I. destruct I as ([ni J] & <- & I). cbn [snd fst]. apply in_combine_r in I. destruct (Forall2_in_r _ _ _ _ FJ I) as (ni' & _ & (HS & _)). exact HS. }
  rewrite (row_times_combination _ (fun w : @num RA * @mat RA => fst w) snd (map (fun x => (in_mass (snd (fst x)), snd x)) (combine ms Js)) (mass_sum ms)).
  2:{ intros c Lc. apply entry_mean; auto. destruct Hs as (Ld & _). rewrite Ld in Lc. lia. }
  pose proof (bodies_moving wb r ms Fs Js Lr (incl_refl _) FF FJ) as D.
  unfold Rdiv. rewrite Rmult_comm.
  match type of D with derivable_pt_lim ?f _ ?d => apply (dext (fun t => / mass_sum ms * f t)) end; [|exact (derivable_pt_lim_scal _ _ _ _ D)].
  intros t. unfold com_of, scaled_down.
  assert (W : forall v, coord r (@V3 RA (vx v / mass_sum ms) (vy v / mass_sum ms) (vz v / mass_sum ms))%num = / mass_sum ms * coord r v).
  { intros v. destruct r as [|[|r']]; cbn [coord vx vy vz]; rnum; change (@num RA) with Rdefinitions.R; unfold Rdiv; apply Rmult_comm. }
  rewrite W, weighted_coord. f_equal. assert (Z : coord r v_clear = 0) by (destruct r as [|[|r']]; cbn [coord vx vy vz v_clear]; rnum; reflexivity).
  rewrite Z. symmetry. apply Rplus_0_l.
Qed.
End Moving.
