(** C33, C34, C35, C20, C38: calls that take many waypoints. *)
From Coq Require Import String List Arith Lia Bool Permutation Reals Lra.
From Verif Require Import Base Num Pose DataStructure Urdf Kin Wrapper Spec_Robot Spec_Hist Spec_Load Spec_Jac Spec_Mass
  Pf_Base Pf_Data Inv Pf_FK Pf_Frame Pf_Rp Rep Pf_Ops Pf_Name Pf_Reach Pf_Jac Pf_Safe Pf_Pose Pf_Local Pf_Hist Pf_Wrap Pf_Mass Pf_Wrap2 Pf_Total
  Pf_Stale RealArith Pf_Real Ex_Robot Ex_Slider.
Import ListNotations.
Local Open Scope m_scope.

(** What a call of solve_fk must report for waypoint [a] and link [b]. *)
Definition fk_report `{A : Arith} (R : Robot) root jsorted (s : AState) (names : list string) (qs : list (list num)) (elinks jids : list nat)
           (rt : RotationType) (wb wj : bool) (P J : mat) : Prop :=
  length P = length qs * length elinks /\
  forall a b q e n, nth_error qs a = Some q -> nth_error elinks b = Some e -> nth_error names e = Some n ->
    (exists E, pose_at R root jsorted (at_waypoint jids wb q s) n E /\
               nth_error P (a * length elinks + b) = Some (link_row rt E)) /\
    (wj = true -> is_jacobian R root jsorted (at_waypoint jids wb q s) rt n jids wb
                    (firstn (jac_rows rt) (skipn ((a * length elinks + b) * jac_rows rt) J))).

Lemma fk_values `{A : Arith} tinyxml text R root sorted jsorted ops m qs elinks jids rt wb wj uc m' P J :
  reached tinyxml text R root sorted jsorted ops m -> (wb || negb uc)%bool = true ->
  (forall k, In k jids -> k < length (get_joint_names m)) ->
  solve_forward_kinematics qs elinks jids rt wb wj uc m = (m', Ok (P, J)) ->
  fk_report R root jsorted (after sorted jsorted ops) (get_link_names m) qs elinks jids rt wb wj P J.
Proof.
  intros Hr Hc Hk X. destruct (reached_Rep _ _ _ _ _ _ _ _ Hr) as [HR _]. set (s := after sorted jsorted ops) in *.
  rewrite (rep_joint_count _ _ _ _ _ _ _ _ HR) in Hk. unfold fk_report. rewrite (rep_all_links _ _ _ _ _ _ _ _ HR).
  destruct (solve_fk_ok _ _ _ _ _ _ qs elinks jids rt wb wj uc s m m' P J HR Hc Hk X) as ((ps & -> & Lp & Hp) & HJ & _).
  rewrite map_length. split; auto. intros a b q e n Eq Ee En.
  pose proof (nth_error_lt _ _ _ Eq) as La. pose proof (nth_error_lt _ _ _ Ee) as Lb.
  assert (Li : a * length elinks + b < length qs * length elinks) by now apply split_index. split.
  - destruct (lt_nth_error ps (a * length elinks + b)) as (p & Ep); [lia|].
    destruct (Hp a b p La Lb Ep) as (q' & e' & Eq' & Ee' & n' & En' & HP). assert (q' = q) by congruence. assert (e' = e) by congruence. subst.
    assert (n' = n) by (unfold all_links in *; cbn [as_added at_waypoint] in En'; congruence). subst n'.
    exists p. split; auto. rewrite nth_error_map', Ep. reflexivity.
  - intros Hw. destruct (HJ Hw) as (Bs & -> & LB & Hd & HB).
    destruct (lt_nth_error Bs (a * length elinks + b)) as (B & EB); [lia|].
    destruct (HB a b B La Lb EB) as (q' & e' & Eq' & Ee' & n' & En' & HP). assert (q' = q) by congruence. assert (e' = e) by congruence. subst.
    assert (n' = n) by (unfold all_links in *; cbn [as_added at_waypoint] in En'; congruence). subst n'.
    rewrite <- (app_nil_r (concat Bs)). rewrite dim_rows in Hd. rewrite (concat_block Bs (jac_rows rt) Hd _ B [] EB). exact HP.
Qed.

Lemma reached_fitted `{A : Arith} tinyxml text R root sorted jsorted ops m :
  reached tinyxml text R root sorted jsorted ops m ->
  fitted R root sorted jsorted (massive sorted) (mass_sum (massive sorted)) (as_added (after sorted jsorted ops)) m /\
  length sorted = length (r_links R).
Proof.
  intros Hr. destruct (reached_Rep _ _ _ _ _ _ _ _ Hr) as [HR _]. split; [eexists; split; [exact HR | reflexivity]|].
  destruct Hr as (_ & O & _). apply (Permutation_length (ord_links _ _ _ O)).
Qed.

(** C33.  After any history (also one that leaves stale poses in the cache), solve_fk with
    use_cache = false reports every waypoint's poses and Jacobians; and it does return for
    valid ids and sizes, when no link is deeper than the document has links and, if Jacobians
    are requested, the relevance table exists (C17). *)
Theorem C33_solve_fk_each_waypoint :
  forall (A : Arith) tinyxml text R root sorted jsorted ops m,
    reached tinyxml text R root sorted jsorted ops m ->
    let s := after sorted jsorted ops in
    forall qs elinks jids rt wb wj, (forall k, In k jids -> k < length (get_joint_names m)) ->
      (forall m' P J, solve_forward_kinematics qs elinks jids rt wb wj false m = (m', Ok (P, J)) ->
         fk_report R root jsorted s (get_link_names m) qs elinks jids rt wb wj P J) /\
      ((forall n d, levels (r_joints R) root (as_added s) n d -> d <= length (r_links R)) ->
       (wj = true -> jids <> [] -> as_added s <> []) ->
       (forall e, In e elinks -> e < length (get_link_names m)) ->
       (wb = true -> qs <> []) -> (forall q, In q qs -> length q = length jids + if wb then 6 else 0) ->
       exists m' P J, solve_forward_kinematics qs elinks jids rt wb wj false m = (m', Ok (P, J)) /\
         has_shape (length qs * length elinks) (jac_rows rt) P /\
         has_shape (length qs * length elinks * jac_rows rt) (length jids + if wb then 6 else 0) J).
Proof.
  intros A tinyxml text R root sorted jsorted ops m Hr s qs elinks jids rt wb wj Hk. split.
  - intros m' P J X. eapply fk_values; eauto. now rewrite orb_true_r.
  - intros Hl Ha He Hn Hq. destruct (reached_fitted _ _ _ _ _ _ _ _ Hr) as [F Ls].
    destruct (reached_Rep _ _ _ _ _ _ _ _ Hr) as [HR _]. rewrite (rep_joint_count _ _ _ _ _ _ _ _ HR) in Hk. rewrite (rep_all_links _ _ _ _ _ _ _ _ HR) in He.
    destruct (solve_fk_total R root sorted jsorted (massive sorted) (mass_sum (massive sorted)) (as_added s)) with (qs := qs) (el := elinks) (jids := jids) (rt := rt) (wb := wb) (wj := wj) (uc := false) (m := m)
      as (m' & P & J & E & _ & H1 & H2); auto.
    { intros n d H. rewrite Ls. eapply Hl; eauto. }
    exists m', P, J. rewrite !dim_rows in *. auto.
Qed.
Print Assumptions C33_solve_fk_each_waypoint.

(** two waypoints, two links, Jacobians, after a history that leaves stale poses in the
    cache *)
Definition ex_stale : list op := [Op_get_link_pose 3; Op_set_joint_angle 0 n1].
Example C33_example : exists m, reached ex_tinyxml ex_text ex_R "base" ex_sorted ex_jsorted ex_stale m /\ clean ex_stale = false /\
  (forall k, In k [0; 1] -> k < length (get_joint_names m)) /\
  exists m' PJ, solve_forward_kinematics [[n1; n0]; [n2; nhalf]] [3; 1] [0; 1] RPY false true false m = (m', Ok PJ).
Proof.
  assert (X : exists m, run ex_stale ex_m0 = Some m) by (apply is_some_ex; vm_compute; reflexivity).
  destruct X as (m & E). exists m. split; [exact (ex_reached _ _ E)|]. split; [reflexivity|]. split.
  - destruct (reached_Rep _ _ _ _ _ _ _ _ (ex_reached _ _ E)) as [HR _]. rewrite (rep_joint_count _ _ _ _ _ _ _ _ HR).
    intros k [<-|[<-|[]]]; simpl; lia.
  - apply (observe_answer ex_stale (solve_forward_kinematics [[n1; n0]; [n2; nhalf]] [3; 1] [0; 1] RPY false true false) m E). vm_compute. reflexivity.
Qed.

(** C34, the part that holds: with a base in the waypoints the cache flag does not matter. *)
Theorem C34_solve_fk_cached_partial :
  forall (A : Arith) tinyxml text R root sorted jsorted ops m,
    reached tinyxml text R root sorted jsorted ops m ->
    forall qs elinks jids rt wj m' P J, (forall k, In k jids -> k < length (get_joint_names m)) ->
      solve_forward_kinematics qs elinks jids rt true wj true m = (m', Ok (P, J)) ->
      fk_report R root jsorted (after sorted jsorted ops) (get_link_names m) qs elinks jids rt true wj P J.
Proof. intros A tinyxml text R root sorted jsorted ops m Hr qs elinks jids rt wj m' P J Hk X. eapply fk_values; eauto. Qed.
Print Assumptions C34_solve_fk_cached_partial.

Example C34_example : exists m, reached ex_tinyxml ex_text ex_R "base" ex_sorted ex_jsorted ex_stale m /\
  exists m' PJ, solve_forward_kinematics [[n1; n0; n1; n0; n0; n0; n0; nhalf]; [n1; n0; n1; n1; n0; n0; n0; nhalf]] [3; 1] [0; 1] RPY true true true m = (m', Ok PJ).
Proof.
  assert (X : exists m, run ex_stale ex_m0 = Some m) by (apply is_some_ex; vm_compute; reflexivity).
  destruct X as (m & E). exists m. split; [exact (ex_reached _ _ E)|].
  apply (observe_answer ex_stale (solve_forward_kinematics [[n1; n0; n1; n0; n0; n0; n0; nhalf]; [n1; n0; n1; n1; n0; n0; n0; nhalf]] [3; 1] [0; 1] RPY true true true) m E).
  vm_compute. reflexivity.
Qed.

(** C34, refuted: on the slider, after a pose query (a clean history), solve_fk at
    displacement 1 with use_cache = true and no base reports the car where it was. *)
Lemma stale_fk `{A : Arith} i P a m : get_cache i (tcache m) = Ok (Some P) -> 0 < length (joint_angles m) ->
  solve_forward_kinematics [[a]] [i] [0] IGNORE false false true m =
  (set_angles (list_set (joint_angles m) 0 a) m, Ok ([[vx (position P); vy (position P); vz (position P)]], mat_zero 3 1)).
Proof.
  intros E L. unfold solve_forward_kinematics, enumerate. cbn [length seq combine]. unfold bind at 1, ret at 1.
  rewrite for_each_cons. cbn [fst snd negb].
  assert (G : goto_waypoint [0] [a] false false m = (set_angles (list_set (joint_angles m) 0 a) m, Ok tt)).
  { unfold goto_waypoint. rewrite (bind_ok _ _ _ _ _ (set_nc_total [0] [a] m ltac:(intros j [<-|[]]; auto) ltac:(simpl; lia))). reflexivity. }
  rewrite bind_assoc, (bind_ok _ _ _ _ _ G).
  set (m1 := set_angles _ m). assert (E1 : get_cache i (tcache m1) = Ok (Some P)) by exact E. clearbody m1. clear - E1.
  assert (F : fk_poses IGNORE 0 [i] (mat_zero 1 3) m1 = (m1, Ok [[vx (position P); vy (position P); vz (position P)]])).
  { unfold fk_poses, enumerate. cbn [length seq combine]. rewrite for_each_cons. cbn [fst snd].
    rewrite !bind_assoc, (bind_ok _ _ _ _ _ (pose_hit i P m1 E1)). reflexivity. }
  cbn [fst snd]. change (mat_zero (1 * 1) (dim_jacobi IGNORE)) with (mat_zero 1 3). rewrite bind_assoc, (bind_ok _ _ _ _ _ F). reflexivity.
Qed.

Theorem C34_solve_fk_cached_refuted :
  exists tinyxml text R root sorted jsorted ops m q e n m' P J,
    @reached RA tinyxml text R root sorted jsorted ops m /\ clean ops = true /\
    solve_forward_kinematics [q] [e] [0] IGNORE false false true m = (m', Ok (P, J)) /\
    nth_error (get_link_names m) e = Some n /\
    exists E, pose_at R root jsorted (at_waypoint [0] false q (after sorted jsorted ops)) n E /\
      forall E', pose_at R root jsorted (at_waypoint [0] false q (after sorted jsorted ops)) n E' ->
        E' = E /\ nth_error P 0 <> Some (link_row IGNORE E').
Proof.
  set (ops := [Op_get_link_pose 1]).
  pose (f := fun m : @KM RA => match get_cache 1 (tcache m) with Ok (Some P) => if Nat.ltb 0 (length (joint_angles m)) then Some P else None | _ => None end).
  assert (X : exists m, run ops sl_m0 = Some m /\ exists P, f m = Some P).
  { assert (Y : exists mp, match run ops sl_m0 with Some m => match f m with Some P => Some (m, P) | None => None end | None => None end = Some mp)
      by (apply is_some_ex; vm_compute; reflexivity).
    destruct Y as (mp & Y). destruct (run ops sl_m0) as [m|]; [|discriminate Y]. exists m. split; [reflexivity|]. destruct (f m) as [P|]; [|discriminate Y]. eauto. }
  destruct X as (m & E & P & Ef). unfold f in Ef.
  destruct (get_cache 1 (tcache m)) as [[P0|]| | |] eqn:Ec; try discriminate Ef.
  destruct (Nat.ltb_spec 0 (length (joint_angles m))) as [La|]; [|discriminate Ef]. inversion Ef; subst P0. clear Ef f.
  pose proof (sl_reached _ _ E) as Hr. destruct (reached_Rep _ _ _ _ _ _ _ _ Hr) as [HR HC]. specialize (HC eq_refl).
  assert (Ea : after sl_sorted sl_jsorted ops = sl_s n0) by (unfold after; rewrite sl_initial; reflexivity). rewrite Ea in HR.
  assert (En : nth_error (get_link_names m) 1 = Some "car"%string) by (rewrite (rep_all_links _ _ _ _ _ _ _ _ HR); reflexivity).
  assert (HP : P = mkPose (V3 n0 0%R 0%R) q_clear).
  { apply (sl_det n0 "car"%string); [|apply sl_car]. rewrite (rep_all_links _ _ _ _ _ _ _ _ HR) in En.
    exact (rep_pose_of' _ _ _ _ _ _ _ _ HR 1 "car"%string P En (HC 1 P Ec)). }
  exists sl_tinyxml, ex_text, sl_R, "base"%string, sl_sorted, sl_jsorted, ops, m, [n1], 1, "car"%string.
  eexists. eexists. eexists. split; [exact Hr|]. split; [reflexivity|]. split; [exact (stale_fk 1 P n1 m Ec La)|]. split; [exact En|].
  rewrite Ea, sl_at. exists (@mkPose RA (@V3 RA n1 0%R 0%R) q_clear). split; [apply sl_car|]. intros E' HE'. split; [exact (sl_det _ _ _ _ HE' (sl_car (@n1 RA)))|].
  rewrite (sl_det _ _ _ _ HE' (sl_car (@n1 RA))), HP. cbn [nth_error link_row position vx vy vz app]. intros H. inversion H as [H0].
  rnumin H0. lra.
Qed.
Print Assumptions C34_solve_fk_cached_refuted.

(** C35.  Whatever the flags: the listed joints (the last value given for each) and the base
    are at the last waypoint, everything else is as before. *)
Lemma fold_waypoints `{A : Arith} jids wb qs : forall s,
  as_added (fold_left (fun s q => at_waypoint jids wb q s) qs s) = as_added s /\
  length (as_angles (fold_left (fun s q => at_waypoint jids wb q s) qs s)) = length (as_angles s) /\
  (forall k, ~ In k jids -> nth_error (as_angles (fold_left (fun s q => at_waypoint jids wb q s) qs s)) k = nth_error (as_angles s) k) /\
  (wb = false -> as_base (fold_left (fun s q => at_waypoint jids wb q s) qs s) = as_base s).
Proof.
  induction qs as [|q qs IH]; intros s; cbn [fold_left]; [repeat split; auto|].
  destruct (IH (at_waypoint jids wb q s)) as (H1 & H2 & H3 & H4). rewrite H1, H2. cbn [at_waypoint as_added as_angles]. rewrite assign_length.
  split; [reflexivity|]. split; [reflexivity|]. split.
  - intros k N. rewrite H3 by auto. apply assign_other, N.
  - intros ->. rewrite H4 by auto. reflexivity.
Qed.

Theorem C35_solve_fk_ends_at_last_waypoint :
  forall (A : Arith) tinyxml text R root sorted jsorted ops m,
    reached tinyxml text R root sorted jsorted ops m ->
    forall (qs : list (list num)) (q : list num) elinks (jids : list nat) rt (wb wj uc : bool) m' P J, (forall k, In k jids -> k < length (get_joint_names m)) ->
      length q = length jids + (if wb then 6 else 0) ->
      solve_forward_kinematics (qs ++ [q]) elinks jids rt wb wj uc m = (m', Ok (P, J)) ->
      get_link_names m' = get_link_names m /\ get_joint_names m' = get_joint_names m /\
      (forall k, k < length (get_joint_names m) -> ~ In k jids -> angle_of k m' = angle_of k m) /\
      (forall pre k post a, jids = pre ++ k :: post -> ~ In k post -> nth_error q (length pre) = Some a -> angle_of k m' = Ok [a]) /\
      (wb = false -> base_pose m' = base_pose m) /\
      (wb = true -> forall x y z r p w, skipn (length jids) q = [x; y; z; r; p; w] -> base_pose m' = mkPose (V3 x y z) (setFromRPY r p w)).
Proof.
  intros A tinyxml text R root sorted jsorted ops m Hr qs q elinks jids rt wb wj uc m' P J Hk Lq X.
  set (o := Op_solve_fk (qs ++ [q]) elinks jids rt wb wj uc).
  assert (Ex : exec o m = (m', Ok tt)) by (unfold o; cbn [exec]; unfold drop; rewrite (bind_ok _ _ _ _ _ X); reflexivity).
  assert (Hr' : reached tinyxml text R root sorted jsorted (ops ++ [o]) m').
  { apply (reached_run _ _ _ _ _ _ _ _ _ _ Hr). cbn [run]. rewrite Ex. reflexivity. }
  destruct (reached_Rep _ _ _ _ _ _ _ _ Hr) as [HR _]. destruct (reached_Rep _ _ _ _ _ _ _ _ Hr') as [HR' _].
  rewrite after_app in HR'. set (s := after sorted jsorted ops) in *.
  assert (Es : abs_run (map fst sorted) [o] s = at_waypoint jids wb q (fold_left (fun s q => at_waypoint jids wb q s) qs s)).
  { unfold o, abs_run. cbn [fold_left abs_step].
    assert (Y : fold_left (fun s q => at_waypoint jids wb q s) (qs ++ [q]) s = at_waypoint jids wb q (fold_left (fun s q => at_waypoint jids wb q s) qs s))
      by now rewrite fold_left_app.
    destruct wb; [|exact Y]. destruct (qs ++ [q]) as [|q0 l] eqn:El; [destruct qs; discriminate|].
    unfold solve_forward_kinematics in X. rewrite bind_assoc in X. cbn [vget nth_error] in X.
    destruct (Nat.ltb (length q0) 6 || negb (Nat.eqb (length jids) (length q0 - 6)))%bool eqn:Eb; [|exact Y].
    exfalso. rewrite (bind_lift_ok (vget (q0 :: l) 0) q0 _ _ eq_refl) in X. rewrite Eb in X. discriminate X. }
  rewrite Es in HR'. set (s1 := fold_left _ qs s) in *. destruct (fold_waypoints jids wb qs s) as (A1 & A2 & A3 & A4). fold s1 in A1, A2, A3, A4.
  pose proof (rep_wf _ _ _ _ _ _ _ _ HR) as W. pose proof (rep_wf _ _ _ _ _ _ _ _ HR') as W'.
  assert (N1 : get_link_names m' = get_link_names m).
  { rewrite (rep_all_links _ _ _ _ _ _ _ _ HR), (rep_all_links _ _ _ _ _ _ _ _ HR'). unfold all_links. cbn [at_waypoint as_added]. now rewrite A1. }
  assert (N2 : get_joint_names m' = get_joint_names m).
  { transitivity (map uj_name jsorted); [symmetry; apply (jnames_nodup _ _ _ _ _ _ _ _ HR') | apply (jnames_nodup _ _ _ _ _ _ _ _ HR)]. }
  split; [exact N1|]. split; [exact N2|].
  assert (La : length (get_joint_names m) = length (joint_angles m)).
  { unfold get_joint_names. rewrite map_length. symmetry. apply (wf_angles m W). }
  assert (La' : length (joint_angles m') = length (joint_angles m)).
  { rewrite (rep_angles _ _ _ _ _ _ _ _ HR), (rep_angles _ _ _ _ _ _ _ _ HR'). cbn [at_waypoint as_angles]. now rewrite assign_length. }
  assert (Ang : joint_angles m' = assign jids q (as_angles s1)) by apply (rep_angles _ _ _ _ _ _ _ _ HR').
  split; [|split; [|split]].
  - intros k Lk Nk. unfold angle_of. rewrite !get_angles_spec by (intros j [<-|[]]; lia). cbn [snd map]. f_equal. f_equal.
    enough (Z : nth_error (joint_angles m') k = nth_error (joint_angles m) k).
    { rewrite (nth_error_nth' _ n0) in Z by lia. rewrite (nth_error_nth' (joint_angles m) n0) in Z by lia. congruence. }
    rewrite Ang, assign_other, A3 by auto. now rewrite (rep_angles _ _ _ _ _ _ _ _ HR).
  - intros pre k post a E Np Ea. assert (Lk : k < length (get_joint_names m)) by (apply Hk; rewrite E; apply in_or_app; simpl; auto).
    unfold angle_of. rewrite !get_angles_spec by (intros j [<-|[]]; lia). cbn [snd map]. f_equal. f_equal.
    enough (Z : nth_error (joint_angles m') k = Some a) by now apply nth_error_nth.
    rewrite Ang. rewrite (assign_last_le jids pre k post q (as_angles s1) E Np); [exact Ea | lia |].
    rewrite A2, <- (rep_angles _ _ _ _ _ _ _ _ HR). lia.
  - intros ->. rewrite (rep_base _ _ _ _ _ _ _ _ HR), (rep_base _ _ _ _ _ _ _ _ HR'). cbn [at_waypoint as_base]. auto.
  - intros -> x y z r p w Eq. rewrite (rep_base _ _ _ _ _ _ _ _ HR'). cbn [at_waypoint as_base].
    replace (length q - 6) with (length jids) by lia. rewrite Eq. reflexivity.
Qed.
Print Assumptions C35_solve_fk_ends_at_last_waypoint.

(** a base and a repeated joint id *)
Example C35_example : exists m, reached ex_tinyxml ex_text ex_R "base" ex_sorted ex_jsorted ex_stale m /\
  (forall k, In k [0; 0] -> k < length (get_joint_names m)) /\
  exists m' PJ, solve_forward_kinematics ([[n0; n0; n0; n0; n0; n0; n0; n0]] ++ [[n1; n2; n1; n1; n0; n0; n0; nhalf]]) [3; 1] [0; 0] RPY true true true m = (m', Ok PJ).
Proof.
  assert (X : exists m, run ex_stale ex_m0 = Some m) by (apply is_some_ex; vm_compute; reflexivity).
  destruct X as (m & E). exists m. split; [exact (ex_reached _ _ E)|]. split.
  - destruct (reached_Rep _ _ _ _ _ _ _ _ (ex_reached _ _ E)) as [HR _]. rewrite (rep_joint_count _ _ _ _ _ _ _ _ HR).
    intros k [<-|[<-|[]]]; simpl; lia.
  - apply (observe_answer ex_stale (solve_forward_kinematics ([[n0; n0; n0; n0; n0; n0; n0; n0]] ++ [[n1; n2; n1; n1; n0; n0; n0; nhalf]]) [3; 1] [0; 0] RPY true true true) m E).
    vm_compute. reflexivity.
Qed.

(** C20, the part that holds: with a base in the waypoints.  Row [a] is the centre of mass at
    waypoint [a] (with the action forces of the call, none in the usual case), block [a] of
    the second matrix its Jacobian; and the call returns for valid ids and sizes. *)
Definition com_report `{A : Arith} (R : Robot) root (sorted : list (string * option Inertial)) jsorted (s : AState) (names : list string)
           (qs : list (list num)) (jids actions : list nat) (forces : list num) (wb wj : bool) (P J : mat) : Prop :=
  let ms := massive sorted in
  length P = length qs /\
  forall a q, nth_error qs a = Some q ->
    let s' := at_waypoint jids wb q s in
    (exists com ps, is_com R root jsorted ms s' com /\
       Forall2 (fun e p => exists n, nth_error names e = Some n /\ pose_at R root jsorted s' n p) actions ps /\
       let c := forced_point (mass_sum ms) com (combine forces (map position ps)) in
       nth_error P a = Some [vx c; vy c; vz c]) /\
    (wj = true -> exists Jc Js, is_com_jacobian R root jsorted ms s' jids wb Jc /\
       Forall2 (fun e J => exists n, nth_error names e = Some n /\ is_jacobian R root jsorted s' IGNORE n jids wb J) actions Js /\
       firstn 3 (skipn (a * 3) J) = forced_mat (mass_sum ms) Jc (combine forces Js)).

Theorem C20_solve_com_fk_with_base_partial :
  forall (A : Arith) tinyxml text R root sorted jsorted ops m,
    reached tinyxml text R root sorted jsorted ops m ->
    let s := after sorted jsorted ops in
    forall qs jids actions forces wj, (forall k, In k jids -> k < length (get_joint_names m)) ->
      (forall m' P J, solve_com_forward_kinematics qs jids actions forces true wj m = (m', Ok (P, J)) ->
         com_report R root sorted jsorted s (get_link_names m) qs jids actions forces true wj P J) /\
      ((forall n d, levels (r_joints R) root (as_added s) n d -> d <= length (r_links R)) ->
       (wj = true -> jids <> [] -> as_added s <> []) ->
       (forall e, In e actions -> e < length (get_link_names m)) ->
       length actions <= length forces -> (forall q, In q qs -> length q = length jids + 6) ->
       exists m' P J, solve_com_forward_kinematics qs jids actions forces true wj m = (m', Ok (P, J)) /\
         has_shape (length qs) 3 P /\ has_shape (3 * length qs) (length jids + 6) J).
Proof.
  intros A tinyxml text R root sorted jsorted ops m Hr s qs jids actions forces wj Hk.
  destruct (reached_Rep _ _ _ _ _ _ _ _ Hr) as [HR _]. fold s in HR. rewrite (rep_joint_count _ _ _ _ _ _ _ _ HR) in Hk.
  rewrite (rep_all_links _ _ _ _ _ _ _ _ HR). split.
  - intros m' P J X.
    destruct (solve_com_ok _ _ _ _ _ _ qs jids actions forces wj s m m' P J HR (reached_has_com _ _ _) Hk X) as ((cs & -> & Lc & Hc) & HJ).
    split; [rewrite map_length; exact Lc|]. intros a q Eq s'. pose proof (nth_error_lt _ _ _ Eq) as La. split.
    + destruct (lt_nth_error cs a) as (c & Ec); [lia|]. destruct (Hc a q c Eq Ec) as (com & ps & H1 & H2 & ->).
      exists com, ps. split; [exact H1|]. split; [exact H2|]. intros c0. rewrite nth_error_map', Ec. reflexivity.
    + intros Hw. destruct (HJ Hw) as (Bs & -> & LB & Hd & HB). destruct (lt_nth_error Bs a) as (B & EB); [lia|].
      destruct (HB a q B Eq EB) as (J0 & Js & H1 & H2 & H3). exists J0, Js. split; [exact H1|]. split; [exact H2|].
      rewrite <- (app_nil_r (concat Bs)), (concat_block Bs 3 Hd a B [] EB). exact H3.
  - intros Hl Ha He Hf Hq. destruct (reached_fitted _ _ _ _ _ _ _ _ Hr) as [F Ls].
    destruct (solve_com_total R root sorted jsorted (massive sorted) (mass_sum (massive sorted)) (as_added s)) with (qs := qs) (jids := jids) (actions := actions)
      (forces := forces) (wb := true) (wj := wj) (m := m) as (m' & P & J & E & _ & H1 & H2); auto.
    { intros n d H. rewrite Ls. eapply Hl; eauto. }
    exists m', P, J. auto.
Qed.
Print Assumptions C20_solve_com_fk_with_base_partial.

(** two waypoints and an action force, after a history that leaves stale poses in the cache *)
Example C20_example : exists m, reached ex_tinyxml ex_text ex_R "base" ex_sorted ex_jsorted ex_stale m /\
  (forall k, In k [0; 1] -> k < length (get_joint_names m)) /\
  exists m' PJ, solve_com_forward_kinematics [[n1; n0; n1; n0; n0; n0; n0; nhalf]; [n1; n0; n1; n1; n0; n0; n0; nhalf]] [0; 1] [3] [n2] true true m = (m', Ok PJ).
Proof.
  assert (X : exists m, run ex_stale ex_m0 = Some m) by (apply is_some_ex; vm_compute; reflexivity).
  destruct X as (m & E). exists m. split; [exact (ex_reached _ _ E)|]. split.
  - destruct (reached_Rep _ _ _ _ _ _ _ _ (ex_reached _ _ E)) as [HR _]. rewrite (rep_joint_count _ _ _ _ _ _ _ _ HR).
    intros k [<-|[<-|[]]]; simpl; lia.
  - apply (observe_answer ex_stale (solve_com_forward_kinematics [[n1; n0; n1; n0; n0; n0; n0; nhalf]; [n1; n0; n1; n1; n0; n0; n0; nhalf]] [0; 1] [3] [n2] true true) m E).
    vm_compute. reflexivity.
Qed.

(** C20, refuted: without a base, on the slider and after a clean history, the row of the
    second waypoint is the centre of mass of the first; the same holds for a single
    waypoint after get_com. *)
Lemma stale_com `{A : Arith} a m : all_hit m = true -> 0 < length (joint_angles m) ->
  exists c, get_com m = (m, Ok c) /\
    solve_com_forward_kinematics [[a]] [0] [] [] false false m =
    (set_angles (list_set (joint_angles m) 0 a) m, Ok ([[vx c; vy c; vz c]], mat_zero 3 1)).
Proof.
  intros H L. destruct (com_stale m (list_set (joint_angles m) 0 a) H) as (c & E1 & E2). exists c. split; [exact E1|].
  assert (G : goto_waypoint [0] [a] false false m = (set_angles (list_set (joint_angles m) 0 a) m, Ok tt)).
  { unfold goto_waypoint. rewrite (bind_ok _ _ _ _ _ (set_nc_total [0] [a] m ltac:(intros j [<-|[]]; auto) ltac:(simpl; lia))). reflexivity. }
  unfold solve_com_forward_kinematics, enumerate. cbn [length seq combine]. rewrite for_each_cons. cbn [fst snd].
  rewrite bind_assoc, (bind_ok _ _ _ _ _ G), bind_assoc, (bind_ok _ _ _ _ _ E2). reflexivity.
Qed.

Theorem C20_solve_com_fk_refuted :
  exists tinyxml text R root sorted jsorted ops m q m' P J,
    @reached RA tinyxml text R root sorted jsorted ops m /\ clean ops = true /\
    solve_com_forward_kinematics [q] [0] [] [] false false m = (m', Ok (P, J)) /\
    exists c, is_com R root jsorted (massive sorted) (at_waypoint [0] false q (after sorted jsorted ops)) c /\
      forall c', is_com R root jsorted (massive sorted) (at_waypoint [0] false q (after sorted jsorted ops)) c' ->
        c' = c /\ nth_error P 0 <> Some [vx c'; vy c'; vz c'].
Proof.
  set (ops := [Op_get_com]).
  assert (X : exists m, run ops sl_m0 = Some m /\ all_hit m = true /\ 0 < length (joint_angles m)).
  { assert (Y : match run ops sl_m0 with Some m => (all_hit m && Nat.ltb 0 (length (joint_angles m)))%bool | None => false end = true) by (vm_compute; reflexivity).
    destruct (run ops sl_m0) as [m|]; [|discriminate Y]. apply andb_prop in Y. destruct Y as [Y1 Y2]. apply Nat.ltb_lt in Y2. exists m. auto. }
  destruct X as (m & E & Eh & La). pose proof (sl_reached _ _ E) as Hr. destruct (reached_Rep _ _ _ _ _ _ _ _ Hr) as [HR HC]. specialize (HC eq_refl).
  assert (Ea : after sl_sorted sl_jsorted ops = sl_s n0) by (unfold after; rewrite sl_initial; reflexivity).
  destruct (stale_com n1 m Eh La) as (c & Ec & Es).
  assert (Hc : is_com sl_R "base" sl_jsorted (massive sl_sorted) (sl_s n0) c).
  { rewrite <- Ea. eapply get_com_ok; eauto; [split; auto; apply HR | apply reached_has_com]. }
  pose proof (sl_com _ _ Hc) as Ev.
  assert (Hx : exists c1, is_com sl_R "base" sl_jsorted (massive sl_sorted) (sl_s n1) c1).
  { exists (com_of (massive sl_sorted) [pose_clear; @mkPose RA (@V3 RA (@n1 RA) 0%R 0%R) q_clear]). eexists. split; [|reflexivity].
    unfold massive, sl_sorted. cbn [flat_map snd fst app]. constructor; [apply sl_base|]. constructor; [apply sl_car | constructor]. }
  destruct Hx as (c1 & Hc1).
  exists sl_tinyxml, ex_text, sl_R, "base"%string, sl_sorted, sl_jsorted, ops, m, [n1]. eexists. eexists. eexists.
  split; [exact Hr|]. split; [reflexivity|]. split; [exact Es|]. rewrite Ea, sl_at. exists c1. split; [exact Hc1|].
  intros c' Hc'. rewrite (sl_com _ _ Hc'), (sl_com _ _ Hc1), Ev. split; [reflexivity|]. cbn [nth_error vx vy vz]. intros Z. inversion Z as [Z0].
  rnumin Z0. lra.
Qed.
Print Assumptions C20_solve_com_fk_refuted.

(** C38.  After any history, with use_cache = false (or a base in the waypoints). *)
Definition squared_distance `{A : Arith} (p q : Vector3) : num :=
  ((vx p - vx q) * (vx p - vx q) + (vy p - vy q) * (vy p - vy q) + (vz p - vz q) * (vz p - vz q))%num.

Theorem C38_inter_link_squared_distances :
  forall (A : Arith) tinyxml text R root sorted jsorted ops m,
    reached tinyxml text R root sorted jsorted ops m ->
    let s := after sorted jsorted ops in
    forall (qs : list (list num)) (ids1 ids2 jids : list nat) (wb wg uc : bool), (forall k, In k jids -> k < length (get_joint_names m)) ->
      (forall m' D G, (wb || negb uc)%bool = true ->
         compute_inter_link_squared_dists qs ids1 ids2 jids wb wg uc m = (m', Ok (D, G)) ->
         length D = length qs * length ids1 /\
         forall a b q e1 e2 n1 n2, nth_error qs a = Some q -> nth_error ids1 b = Some e1 -> nth_error ids2 b = Some e2 ->
           nth_error (get_link_names m) e1 = Some n1 -> nth_error (get_link_names m) e2 = Some n2 ->
           exists P1 P2, pose_at R root jsorted (at_waypoint jids wb q s) n1 P1 /\ pose_at R root jsorted (at_waypoint jids wb q s) n2 P2 /\
             nth_error D (a * length ids1 + b) = Some (squared_distance (position P1) (position P2))) /\
      ((forall n d, levels (r_joints R) root (as_added s) n d -> d <= length (r_links R)) ->
       (wg = true -> jids <> [] -> as_added s <> []) ->
       (forall e, In e ids1 \/ In e ids2 -> e < length (get_link_names m)) -> length ids1 <= length ids2 ->
       (forall q, In q qs -> length q = length jids + if wb then 6 else 0) ->
       exists m' D G, compute_inter_link_squared_dists qs ids1 ids2 jids wb wg uc m = (m', Ok (D, G))).
Proof.
  intros A tinyxml text R root sorted jsorted ops m Hr s qs ids1 ids2 jids wb wg uc Hk.
  destruct (reached_Rep _ _ _ _ _ _ _ _ Hr) as [HR _]. fold s in HR. rewrite (rep_joint_count _ _ _ _ _ _ _ _ HR) in Hk.
  rewrite (rep_all_links _ _ _ _ _ _ _ _ HR). split.
  - intros m' D G Hc X. destruct (sqdists_ok _ _ _ _ _ _ qs ids1 ids2 jids wb wg uc s m m' D G HR Hc Hk X) as (L & H & _). split; [exact L|].
    intros a b q e1 e2 x1 x2 Eq E1 E2 N1 N2. destruct (H a b q e1 Eq E1) as (e2' & d & E2' & Ed & P1 & P2 & (y1 & Y1 & H1) & (y2 & Y2 & H2) & ->).
    assert (e2' = e2) by congruence. subst e2'. assert (y1 = x1) by (unfold all_links in *; cbn [at_waypoint as_added] in Y1; congruence).
    assert (y2 = x2) by (unfold all_links in *; cbn [at_waypoint as_added] in Y2; congruence). subst. exists P1, P2. split; [exact H1|]. split; [exact H2|]. exact Ed.
  - intros Hl Ha He Hf Hq. destruct (reached_fitted _ _ _ _ _ _ _ _ Hr) as [F Ls].
    destruct (sqdists_total R root sorted jsorted (massive sorted) (mass_sum (massive sorted)) (as_added s)) with (qs := qs) (ids1 := ids1) (ids2 := ids2) (jids := jids)
      (wb := wb) (wg := wg) (uc := uc) (m := m) as (m' & D & G & E & _); auto.
    { intros n d H. rewrite Ls. eapply Hl; eauto. }
    exists m', D, G. exact E.
Qed.
Print Assumptions C38_inter_link_squared_distances.

(** ... and in exact arithmetic never negative, and the same for the swapped pair *)
Theorem C38_squared_distance_symmetric : forall (p q : @Vector3 RA),
  (0 <= squared_distance p q)%R /\ squared_distance p q = squared_distance q p /\
  (squared_distance p q = 0%R <-> p = q).
Proof.
  intros p q. unfold squared_distance. rnum. destruct p as [a b c], q as [x y z]. cbn [vx vy vz]. repeat split.
  - pose proof (Rle_0_sqr (a - x)). pose proof (Rle_0_sqr (b - y)). pose proof (Rle_0_sqr (c - z)). unfold Rsqr in *. lra.
  - ring.
  - intros H. pose proof (Rle_0_sqr (a - x)). pose proof (Rle_0_sqr (b - y)). pose proof (Rle_0_sqr (c - z)). unfold Rsqr in *.
    assert (X : forall t : R, (t * t = 0 -> t = 0)%R) by (intros t Ht; destruct (Rmult_integral _ _ Ht); auto).
    f_equal; apply Rminus_diag_uniq; apply X; lra.
  - intros H. inversion H; subst. ring.
Qed.
Print Assumptions C38_squared_distance_symmetric.

Example C38_example : exists m, reached ex_tinyxml ex_text ex_R "base" ex_sorted ex_jsorted ex_stale m /\
  (forall k, In k [0; 1] -> k < length (get_joint_names m)) /\
  exists m' DG, compute_inter_link_squared_dists [[n1; n0]; [n2; nhalf]] [3; 1] [0; 4] [0; 1] false true false m = (m', Ok DG).
Proof.
  assert (X : exists m, run ex_stale ex_m0 = Some m) by (apply is_some_ex; vm_compute; reflexivity).
  destruct X as (m & E). exists m. split; [exact (ex_reached _ _ E)|]. split.
  - destruct (reached_Rep _ _ _ _ _ _ _ _ (ex_reached _ _ E)) as [HR _]. rewrite (rep_joint_count _ _ _ _ _ _ _ _ HR).
    intros k [<-|[<-|[]]]; simpl; lia.
  - apply (observe_answer ex_stale (compute_inter_link_squared_dists [[n1; n0]; [n2; nhalf]] [3; 1] [0; 4] [0; 1] false true false) m E). vm_compute. reflexivity.
Qed.
