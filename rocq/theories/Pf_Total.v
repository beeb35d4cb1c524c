(** The calls that loop over waypoints return: no undefined behaviour and no exception when
    ids and lengths are right and the scratch stack is deep enough. *)
From Coq Require Import String List Arith Lia Bool.
From Verif Require Import Base Num Pose DataStructure Urdf Kin Wrapper Spec_Robot Spec_Hist Spec_Load Spec_Jac
  Pf_Base Pf_Data Inv Pf_FK Pf_Frame Pf_Rp Rep Pf_Ops Pf_Name Pf_Reach Pf_Jac Pf_Safe Pf_Pose Pf_Wrap.
Import ListNotations.
Local Open Scope m_scope.

Section Total.
Context `{A : Arith}.
Variables (R : Robot) (root : string) (sorted : list (string * option Inertial)) (jsorted : list UJoint)
  (ms : list (string * Inertial)) (mass : num) (added : Added).
Notation Rep := (Rep R root sorted jsorted ms mass).
Hypothesis levels_ok : forall n d, levels (r_joints R) root added n d -> d <= length sorted.

Definition fitted (m : KM) : Prop := exists s, Rep s m /\ as_added s = added.

Lemma fitted_stable : stable fitted.
Proof. intros m m' Q (s & H & E). exists s. split; auto. eapply Rep_scratch; eauto. Qed.
Lemma fitted_Fit m : fitted m -> Fit m.
Proof. intros (s & H & E). split; [apply H|]. apply (rep_stack_ok _ _ _ _ _ _ _ _ H). intros n d. rewrite E. apply levels_ok. Qed.
Lemma fitted_count m : fitted m -> length (links m) = length (map fst sorted ++ map (fun a : string * string * Pose => fst (fst a)) added).
Proof. intros (s & H & E). rewrite <- E, <- (rep_names _ _ _ _ _ _ _ _ H), map_length. reflexivity. Qed.
Lemma fitted_joints m : fitted m -> length (joints m) = length jsorted.
Proof. intros (s & H & E). symmetry. eapply Forall2_len. apply (rep_joints _ _ _ _ _ _ _ _ H). Qed.
Lemma fitted_JFit jids m : (jids <> [] -> added <> []) -> (forall k, In k jids -> k < length jsorted) -> fitted m -> JFit jids m.
Proof.
  intros Ha Hk F. split; [now apply fitted_Fit|]. split.
  - intros N. destruct F as (s & H & E). apply (rep_rp _ _ _ _ _ _ _ _ H). rewrite E. auto.
  - intros k I. rewrite (fitted_joints m F). auto.
Qed.

Lemma waypoint_total {C} jids wb cl (g : nat -> C -> M KM C) (qs : list (list num)) (P : C -> Prop) :
  (forall k, In k jids -> k < length jsorted) ->
  (forall q, In q qs -> length jids <= length q /\ (wb = true -> 6 <= length q)) ->
  (forall i acc, i < length qs -> P acc -> safe fitted (g i acc) P) ->
  forall m acc, fitted m -> P acc ->
  exists m' acc', for_each (enumerate qs) acc (fun iq acc => goto_waypoint jids (snd iq) wb cl ;;; g (fst iq) acc) m = (m', Ok acc') /\ fitted m' /\ P acc'.
Proof.
  intros Hk Hq Hg.
  enough (Y : forall rest k m acc, fitted m -> P acc -> k + length rest <= length qs -> (forall q, In q rest -> In q qs) ->
    exists m' acc', for_each (combine (seq k (length rest)) rest) acc (fun iq acc => goto_waypoint jids (snd iq) wb cl ;;; g (fst iq) acc) m = (m', Ok acc') /\ fitted m' /\ P acc').
  { intros m acc F Pa. apply (Y qs 0); auto. }
  induction rest as [|q rest IH]; intros k m acc F Pa L Hin.
  - exists m, acc. auto.
  - simpl length in *. simpl seq. simpl combine. rewrite for_each_cons. cbn [fst snd].
    destruct F as (s & HR & E).
    destruct (Hq q (Hin q (or_introl eq_refl))) as [L1 L2].
    destruct (goto_total jids q wb cl m) as (m1 & G); auto.
    { intros j Ij. rewrite (wf_angles m (rep_wf _ _ _ _ _ _ _ _ HR)). rewrite <- (Forall2_len _ _ _ (rep_joints _ _ _ _ _ _ _ _ HR)). auto. }
    destruct (goto_Rep _ _ _ _ _ _ jids q wb cl s m m1 HR G) as [R1 _].
    assert (F1 : fitted m1) by (exists (at_waypoint jids wb q s); split; auto).
    destruct (Hg k acc ltac:(lia) Pa m1 F1) as (m2 & acc1 & E2 & S2 & P2).
    destruct (IH (S k) m2 acc1 (fitted_stable _ _ S2 F1) P2 ltac:(lia)) as (m3 & acc3 & E3 & F3 & P3); [intros; apply Hin; now right|].
    exists m3, acc3. split; auto. rewrite (bind_ok _ _ m m2 acc1); auto. rewrite (bind_ok _ _ _ _ _ G). exact E2.
Qed.

Lemma safe_weaken {B} (I J : KM -> Prop) (f : M KM B) (P Q : B -> Prop) : (forall m, J m -> I m) -> (forall b, P b -> Q b) -> safe I f P -> safe J f Q.
Proof. intros H HP S m Hm. destruct (S m (H m Hm)) as (m' & b & E & Q1 & Pb). exists m', b. auto. Qed.

Lemma fitted_pose e : e < length (map fst sorted ++ map (fun a : string * string * Pose => fst (fst a)) added) ->
  safe fitted (get_link_pose e) (fun _ => True).
Proof. intros L. apply safe_pose. intros m F. split; [now apply fitted_Fit|]. now rewrite (fitted_count m F). Qed.
Lemma fitted_jac e jids rt wb : (jids <> [] -> added <> []) -> (forall k, In k jids -> k < length jsorted) ->
  e < length (map fst sorted ++ map (fun a : string * string * Pose => fst (fst a)) added) ->
  safe fitted (get_jacobian e jids rt wb) (mshape (dim_jacobi rt) (length jids + if wb then 6 else 0)).
Proof.
  intros Ha Hk L. eapply safe_weaken; [| |apply jacobian_safe]; [|intros b H; exact H]. intros m F. cbv beta.
  split; [now apply fitted_JFit|]. now rewrite (fitted_count m F).
Qed.

Lemma solve_fk_total qs el jids rt wb wj uc m : fitted m -> (wj = true -> jids <> [] -> added <> []) ->
  (forall k, In k jids -> k < length jsorted) ->
  (forall e, In e el -> e < length (map fst sorted ++ map (fun a : string * string * Pose => fst (fst a)) added)) ->
  (wb = true -> qs <> []) ->
  (forall q, In q qs -> length q = length jids + if wb then 6 else 0) ->
  exists m' P J, solve_forward_kinematics qs el jids rt wb wj uc m = (m', Ok (P, J)) /\ fitted m' /\
    mshape (length qs * length el) (dim_jacobi rt) P /\ mshape (length qs * length el * dim_jacobi rt) (length jids + if wb then 6 else 0) J.
Proof.
  intros F Ha Hk He Hne Hq. unfold solve_forward_kinematics.
  rewrite (bind_ok _ _ m m tt).
  2:{ destruct wb; [|reflexivity]. destruct qs as [|q0 qs]; [now destruct (Hne eq_refl)|].
      rewrite (bind_lift_ok (vget (q0 :: qs) 0) q0 _ m eq_refl). rewrite (Hq q0 (or_introl eq_refl)).
      replace (length jids + 6 <? 6) with false by (symmetry; apply Nat.ltb_ge; lia).
      replace (length jids + 6 - 6) with (length jids) by lia. rewrite Nat.eqb_refl. reflexivity. }
  set (c := length jids + if wb then 6 else 0).
  replace (if wb then length jids + 6 else length jids) with c by (unfold c; destruct wb; lia).
  set (Q := fun PJ : mat * mat => mshape (length qs * length el) (dim_jacobi rt) (fst PJ) /\ mshape (length qs * length el * dim_jacobi rt) c (snd PJ)).
  destruct (waypoint_total jids wb (negb uc) (fun i PJ => P <- fk_poses rt i el (fst PJ) ;;
       J <- (if wj then fk_jacs rt i el jids wb (snd PJ) else ret (snd PJ)) ;; ret (P, J)) qs Q) with (m := m)
     (acc := (mat_zero (length qs * length el) (dim_jacobi rt), mat_zero (length qs * length el * dim_jacobi rt) c)) as (m' & [P J] & E & F' & [H1 H2]); auto.
  - intros q I. rewrite (Hq q I). destruct wb; lia.
  - intros i [P J] Li [HP HJ]. cbn [fst snd] in *.
    eapply (safe_bind fitted _ _ (mshape (length qs * length el) (dim_jacobi rt))); [apply fitted_stable| |].
    { apply safe_for_each; [apply fitted_stable| |auto]. intros [b e] P1 I H1. apply enumerate_in in I. destruct I as [Lb Eb]. cbn [fst snd] in *.
      eapply (safe_bind fitted _ _ (fun _ => True)); [apply fitted_stable | apply fitted_pose, He; eapply nth_error_In; eauto|]. intros p _.
      destruct (mat_set_row_safe _ _ (i * length el + b) (pose_entries rt p) 0 P1 H1) as (P2 & E2 & H2).
      { now apply split_index. } { rewrite (pose_entries_length rt p). lia. }
      eapply safe_lift; eauto. }
    intros P1 H1. eapply (safe_bind fitted _ _ (mshape (length qs * length el * dim_jacobi rt) c)); [apply fitted_stable| |].
    { destruct wj; [|now apply safe_ret]. apply safe_for_each; [apply fitted_stable| |auto]. intros [b e] J1 I HJ1. apply enumerate_in in I. destruct I as [Lb Eb]. cbn [fst snd] in *.
      eapply (safe_bind fitted _ _ (mshape (dim_jacobi rt) c)); [apply fitted_stable | apply fitted_jac; auto; apply He; eapply nth_error_In; eauto|].
      intros B [LB RB]. destruct (mat_set_block_safe _ _ B (i * (length el * dim_jacobi rt) + b * dim_jacobi rt) J1 HJ1 RB) as (J2 & E2 & H2).
      { rewrite LB. assert (i * length el + b < length qs * length el) by now apply split_index. nia. }
      eapply safe_lift; eauto. }
    intros J1 HJ1. apply safe_ret. split; auto.
  - split; apply mshape_zero.
  - exists m', P, J. auto.
Qed.

Lemma apply_forces_safe jids actions forces (wb wj : bool) com B : (wj = true -> jids <> [] -> added <> []) ->
  (forall k, In k jids -> k < length jsorted) ->
  (forall e, In e actions -> e < length (map fst sorted ++ map (fun a : string * string * Pose => fst (fst a)) added)) ->
  length actions <= length forces -> mshape 3 (length jids + if wb then 6 else 0) B ->
  safe fitted (apply_forces jids actions forces wb wj com B) (fun r : Vector3 * mat => mshape 3 (length jids + if wb then 6 else 0) (snd r)).
Proof.
  intros Ha Hk He Lf HB. unfold apply_forces. destruct actions as [|a0 al] eqn:Ea; [now apply safe_ret|]. rewrite <- Ea in *.
  set (c := length jids + if wb then 6 else 0) in *.
  eapply (safe_bind fitted _ _ (fun r : num * Vector3 * mat => mshape 3 c (snd r))); [apply fitted_stable| |].
  - apply safe_for_each; [apply fitted_stable| |auto]. intros [b e] [[fs cm] B1] I H1. revert H1. cbn [snd]. intros H1. apply enumerate_in in I. destruct I as [Lb Eb]. cbn [fst snd] in *.
    intros m Hm. rewrite bind_get. destruct (lt_nth_error forces b ltac:(lia)) as (f & Ef). apply vget_ok in Ef.
    rewrite (bind_lift_ok _ _ _ _ Ef). cbv zeta.
    generalize (div f (total_mass m)). intros fo.
    match goal with |- exists m' b, ?F m = _ /\ _ => enough (X : safe fitted F (fun r : num * Vector3 * mat => mshape 3 c (snd r))) by exact (X m Hm) end. clear m Hm.
    eapply (safe_bind fitted _ _ (fun _ => True)); [apply fitted_stable | apply fitted_pose, He; eapply nth_error_In; eauto|]. intros p _.
    eapply (safe_bind fitted _ _ (mshape 3 c)); [apply fitted_stable| |].
    + destruct wj; [|now apply safe_ret].
      eapply (safe_bind fitted _ _ (mshape (dim_jacobi IGNORE) c)); [apply fitted_stable | apply fitted_jac; auto; apply He; eapply nth_error_In; eauto|].
      intros J HJ. apply safe_ret. apply mshape_zip; auto. now apply mshape_map.
    + intros B2 H2. apply safe_ret. exact H2.
  - intros [[fs cm] B1] H1. cbn [snd] in H1. apply safe_ret. cbn [snd]. destruct wj; auto. now apply mshape_map.
Qed.

Lemma solve_com_total qs jids actions forces (wb wj : bool) m : fitted m -> (wj = true -> jids <> [] -> added <> []) ->
  (forall k, In k jids -> k < length jsorted) ->
  (forall e, In e actions -> e < length (map fst sorted ++ map (fun a : string * string * Pose => fst (fst a)) added)) ->
  length actions <= length forces -> (forall q, In q qs -> length q = length jids + if wb then 6 else 0) ->
  exists m' P J, solve_com_forward_kinematics qs jids actions forces wb wj m = (m', Ok (P, J)) /\ fitted m' /\ mshape (length qs) 3 P /\ mshape (3 * length qs) (length jids + if wb then 6 else 0) J.
Proof.
  intros F Ha Hk He Lf Hq. unfold solve_com_forward_kinematics. set (c := length jids + if wb then 6 else 0) in *. set (n := length qs) in *.
  set (Q := fun PJ : mat * mat => mshape n 3 (fst PJ) /\ mshape (3 * n) c (snd PJ)).
  destruct (waypoint_total jids wb false (fun i acc => com <- get_com ;;
          B <- (if wj then get_com_jacobian jids wb else ret (mat_zero 3 c)) ;;
          r <- apply_forces jids actions forces wb wj com B ;;
          P <- lift (mat_set_row i 0 (v_list (fst r)) (fst acc)) ;;
          J <- lift (mat_set_block (3 * i) (snd r) (snd acc)) ;; ret (P, J)) qs Q) with (m := m)
     (acc := (mat_zero n 3, mat_zero (3 * n) c)) as (m' & [P J] & E & F' & [H1 H2]); auto.
  - intros q I. rewrite (Hq q I). unfold c. destruct wb; lia.
  - intros i [P J] Li [HP HJ]. cbn [fst snd] in *.
    eapply (safe_bind fitted _ _ (fun _ => True)); [apply fitted_stable | eapply safe_weaken; [apply fitted_Fit | | apply com_safe]; auto|]. intros com _.
    eapply (safe_bind fitted _ _ (mshape 3 c)); [apply fitted_stable| |].
    { destruct wj; [|apply safe_ret, mshape_zero]. eapply safe_weaken; [| |apply com_jacobian_safe]; [|intros b H; exact H]. intros m1 F1. apply fitted_JFit; auto. }
    intros B HB. eapply (safe_bind fitted _ _ (fun r : Vector3 * mat => mshape 3 c (snd r))); [apply fitted_stable | apply apply_forces_safe; auto|].
    intros [cm B1] [LB RB]. cbn [fst snd] in *.
    destruct (mat_set_row_safe _ _ i (v_list cm) 0 P HP Li) as (P2 & E2 & H2); [simpl; lia|].
    destruct (mat_set_block_safe _ _ B1 (3 * i) J HJ RB) as (J2 & E3 & H3); [rewrite LB; unfold n in *; lia|].
    eapply (safe_bind fitted _ _ (mshape n 3)); [apply fitted_stable | eapply safe_lift; eauto|]. intros P3 HP3.
    eapply (safe_bind fitted _ _ (mshape (3 * n) c)); [apply fitted_stable | eapply safe_lift; eauto|]. intros J3 HJ3.
    apply safe_ret. split; auto.
  - split; apply mshape_zero.
  - exists m', P, J. auto.
Qed.

Lemma inertia_total q jids m : fitted m -> (forall k, In k jids -> k < length jsorted) -> length jids <= length q ->
  exists m' I, compute_total_inertia_matrix q jids m = (m', Ok I) /\ fitted m'.
Proof.
  intros (s & HR & E) Hk L. unfold compute_total_inertia_matrix.
  assert (G : exists m1, goto_waypoint jids q false false m = (m1, Ok tt)).
  { apply goto_total; auto; [|discriminate]. intros j Ij. rewrite (wf_angles m (rep_wf _ _ _ _ _ _ _ _ HR)).
    rewrite <- (Forall2_len _ _ _ (rep_joints _ _ _ _ _ _ _ _ HR)). auto. }
  destruct G as (m1 & G). destruct (goto_Rep _ _ _ _ _ _ jids q false false s m m1 HR G) as [R1 _].
  assert (N : set_joint_angles_nc jids q m = (m1, Ok tt)).
  { unfold goto_waypoint in G. apply bind_inv_ok in G. destruct G as (m2 & [] & G1 & G2). unfold ret, bind in G2. inversion G2; subst. exact G1. }
  rewrite (bind_ok _ _ _ _ _ N).
  assert (F1 : fitted m1) by (exists (at_waypoint jids false q s); split; auto).
  destruct (inertia_safe m1 (fitted_Fit m1 F1)) as (m2 & I & E2 & S2 & _). exists m2, I. split; auto. eapply fitted_stable; eauto.
Qed.

Lemma sqdists_total qs ids1 ids2 jids (wb wg uc : bool) m : fitted m -> (wg = true -> jids <> [] -> added <> []) ->
  (forall k, In k jids -> k < length jsorted) ->
  (forall e, In e ids1 \/ In e ids2 -> e < length (map fst sorted ++ map (fun a : string * string * Pose => fst (fst a)) added)) ->
  length ids1 <= length ids2 -> (forall q, In q qs -> length q = length jids + if wb then 6 else 0) ->
  exists m' D G, compute_inter_link_squared_dists qs ids1 ids2 jids wb wg uc m = (m', Ok (D, G)) /\ fitted m' /\ length D = length ids1 * length qs.
Proof.
  intros F Ha Hk He Ll Hq. unfold compute_inter_link_squared_dists. set (c := length jids + if wb then 6 else 0) in *.
  set (w := length ids1) in *. set (n := length qs) in *.
  set (Q := fun DG : list num * mat => length (fst DG) = w * n /\ (wg = true -> length (snd DG) = w * n)).
  destruct (waypoint_total jids wb (negb uc) (fun i acc => for_each (enumerate ids1) acc (fun jl acc =>
         let head := i * w + fst jl in
         id2 <- lift (vget ids2 (fst jl)) ;;
         p1 <- get_link_pose (snd jl) ;;
         p2 <- get_link_pose id2 ;;
         let diff := v_sub (position p1) (position p2) in
         sd <- lift (vset (fst acc) head (sq_norm diff)) ;;
         if wg then
           jac1 <- get_jacobian (snd jl) jids IGNORE wb ;;
           jac2 <- get_jacobian id2 jids IGNORE wb ;;
           g <- lift (vset (snd acc) head (grad_row c jac1 jac2 diff)) ;;
           ret (sd, g)
         else ret (sd, snd acc))) qs Q) with (m := m)
     (acc := (repeat n0 (w * n), if wg then mat_zero (w * n) c else mat_zero 1 1)) as (m' & [D G] & E & F' & [H1 H2]); auto.
  - intros q I. rewrite (Hq q I). unfold c. destruct wb; lia.
  - intros i acc Li Hacc. apply safe_for_each; [apply fitted_stable| |auto]. intros [b e] [D1 G1] I [HD HG]. apply enumerate_in in I. destruct I as [Lb Eb].
    cbn [fst snd] in *. cbv zeta. assert (Lx : i * w + b < n * w) by now apply split_index.
    destruct (lt_nth_error ids2 b ltac:(lia)) as (e2 & Ee2).
    eapply (safe_bind fitted _ _ (fun x => x = e2)); [apply fitted_stable | eapply safe_lift; [apply vget_ok; exact Ee2 | reflexivity]|]. intros x ->.
    assert (Le : e < length (map fst sorted ++ map (fun a : string * string * Pose => fst (fst a)) added)) by (apply He; left; eapply nth_error_In; eauto).
    assert (Le2 : e2 < length (map fst sorted ++ map (fun a : string * string * Pose => fst (fst a)) added)) by (apply He; right; eapply nth_error_In; eauto).
    eapply (safe_bind fitted _ _ (fun _ => True)); [apply fitted_stable | now apply fitted_pose|]. intros p1 _.
    eapply (safe_bind fitted _ _ (fun _ => True)); [apply fitted_stable | now apply fitted_pose|]. intros p2 _.
    eapply (safe_bind fitted _ _ (fun D => length D = w * n)); [apply fitted_stable | eapply safe_lift; [apply vset_lt; lia | rewrite list_set_length; auto]|]. intros D2 HD2.
    destruct wg; [|apply safe_ret; split; auto; discriminate].
    eapply (safe_bind fitted _ _ (mshape (dim_jacobi IGNORE) c)); [apply fitted_stable | apply fitted_jac; auto|]. intros J1 _.
    eapply (safe_bind fitted _ _ (mshape (dim_jacobi IGNORE) c)); [apply fitted_stable | apply fitted_jac; auto|]. intros J2 _.
    specialize (HG eq_refl).
    eapply (safe_bind fitted _ _ (fun D => length D = w * n)); [apply fitted_stable | eapply safe_lift; [apply vset_lt; lia | rewrite list_set_length; auto]|]. intros G2 HG2.
    apply safe_ret. split; auto.
  - split; cbn [fst snd]; [apply repeat_length|]. intros ->. unfold mat_zero. apply repeat_length.
  - exists m', D, G. auto.
Qed.
End Total.
