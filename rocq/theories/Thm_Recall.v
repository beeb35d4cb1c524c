(** C34, C20: what batch calls without a base answer when they trust the cache. *)
From Coq Require Import String List Arith Lia Bool Permutation Reals Lra.
From Verif Require Import Base Num Pose DataStructure Urdf Kin Wrapper Spec_Robot Spec_Hist Spec_Load Spec_Jac Spec_Mass
  Pf_Base Pf_Data Inv Pf_FK Pf_Frame Pf_Rp Rep Pf_Ops Pf_Name Pf_Reach Pf_Jac Pf_Safe Pf_Pose Pf_Local Pf_Hist Pf_Wrap Pf_Mass Pf_Wrap2 Pf_Total
  Pf_Stale Pf_Recall Ex_Robot Thm_Fk.
Import ListNotations.
Local Open Scope m_scope.

Lemma cleared_none `{A : Arith} m i P : WF m -> get_cache i (tcache (set_tcache (cache_clear (tcache m)) m)) <> Ok (Some P).
Proof. intros W. cbn [tcache set_tcache]. apply get_cache_cleared. apply (wf_cache m W). Qed.

(** C34, what remains for a fixed base and use_cache = true: right after clear_cache the call answers every waypoint
    as if it were the first.  So one waypoint is answered as C33 says, but the later waypoints of a batch are ignored
    (C34_solve_fk_cached_refuted is about a cache that was filled before). *)
Theorem C34_first_waypoint_repeated_partial :
  forall (A : Arith) tinyxml text R root sorted jsorted ops m,
    reached tinyxml text R root sorted jsorted ops m ->
    forall q0 qs elinks jids rt wj m' P J, (forall k, In k jids -> k < length (get_joint_names m)) ->
      (clear_cache ;;; solve_forward_kinematics (q0 :: qs) elinks jids rt false wj true) m = (m', Ok (P, J)) ->
      fk_report R root jsorted (after sorted jsorted ops) (get_link_names m) (repeat q0 (length (q0 :: qs))) elinks jids rt false wj P J.
Proof.
  intros A tinyxml text R root sorted jsorted ops m Hr q0 qs elinks jids rt wj m' P J Hk X.
  destruct (reached_Rep _ _ _ _ _ _ _ _ Hr) as [HR _]. set (s := after sorted jsorted ops) in *.
  apply bind_inv_ok in X. destruct X as (mc & [] & X0 & X). unfold clear_cache in X0. rewrite bind_get in X0. inversion X0; subst mc. clear X0.
  rewrite (rep_joint_count _ _ _ _ _ _ _ _ HR) in Hk. unfold fk_report. rewrite (rep_all_links _ _ _ _ _ _ _ _ HR).
  destruct (fk_repeats _ _ _ _ _ _ q0 qs elinks jids rt wj s _ m' P J (Rep_clear _ _ _ _ _ _ _ _ HR) (fun i P => cleared_none m i P (rep_wf _ _ _ _ _ _ _ _ HR)) Hk X) as ((ps & -> & Lp & Hp) & HJ & _).
  change (length (q0 :: qs)) with (S (length qs)). set (w := repeat q0 (S (length qs))) in *.
  rewrite map_length. split; auto. intros a b q e n Eq Ee En.
  pose proof (nth_error_lt _ _ _ Eq) as La. pose proof (nth_error_lt _ _ _ Ee) as Lb.
  assert (Li : a * length elinks + b < length w * length elinks) by now apply split_index. split.
  - destruct (lt_nth_error ps (a * length elinks + b)) as (p & Ep); [lia|].
    destruct (Hp a b p La Lb Ep) as (q' & e' & Eq' & Ee' & n' & En' & HP). assert (q' = q) by congruence. assert (e' = e) by congruence. subst.
    assert (n' = n) by (unfold all_links in *; cbn [as_added at_waypoint] in En'; congruence). subst n'.
    exists p. split; auto. rewrite nth_error_map', Ep. reflexivity.
  - intros Hw. destruct (HJ Hw) as (Bs & -> & LB & Hd & HB).
    destruct (lt_nth_error Bs (a * length elinks + b)) as (B & EB); [lia|].
    destruct (HB a b B La Lb EB) as (q' & e' & Eq' & Ee' & n' & En' & HP). assert (q' = q) by congruence. assert (e' = e) by congruence. subst.
    assert (n' = n) by (unfold all_links in *; cbn [as_added at_waypoint] in En'; congruence). subst n'.
    rewrite <- (app_nil_r (concat Bs)). rewrite dim_rows in Hd. rewrite (concat_block Bs (jac_rows rt) Hd _ B [] EB). exact HP.
Qed.
Print Assumptions C34_first_waypoint_repeated_partial.

(** C20, what remains for a fixed base: the same for the centre of mass, with and without action forces. *)
Theorem C20_first_waypoint_repeated_partial :
  forall (A : Arith) tinyxml text R root sorted jsorted ops m,
    reached tinyxml text R root sorted jsorted ops m ->
    forall q0 qs jids actions forces wj m' P J, (forall k, In k jids -> k < length (get_joint_names m)) ->
      (clear_cache ;;; solve_com_forward_kinematics (q0 :: qs) jids actions forces false wj) m = (m', Ok (P, J)) ->
      com_report R root sorted jsorted (after sorted jsorted ops) (get_link_names m) (repeat q0 (length (q0 :: qs))) jids actions forces false wj P J.
Proof.
  intros A tinyxml text R root sorted jsorted ops m Hr q0 qs jids actions forces wj m' P J Hk X.
  destruct (reached_Rep _ _ _ _ _ _ _ _ Hr) as [HR _]. set (s := after sorted jsorted ops) in *.
  apply bind_inv_ok in X. destruct X as (mc & [] & X0 & X). unfold clear_cache in X0. rewrite bind_get in X0. inversion X0; subst mc. clear X0.
  rewrite (rep_joint_count _ _ _ _ _ _ _ _ HR) in Hk. unfold com_report. rewrite (rep_all_links _ _ _ _ _ _ _ _ HR).
  destruct (com_repeats _ _ _ _ _ _ q0 qs jids actions forces wj s _ m' P J (Rep_clear _ _ _ _ _ _ _ _ HR) (fun i P => cleared_none m i P (rep_wf _ _ _ _ _ _ _ _ HR)) (reached_has_com _ _ _) Hk X) as ((cs & -> & Lc & Hc) & HJ).
  change (length (q0 :: qs)) with (S (length qs)). set (w := repeat q0 (S (length qs))) in *.
  split; [rewrite map_length; exact Lc|]. intros a q Eq. cbv zeta. pose proof (nth_error_lt _ _ _ Eq) as La. split.
  - destruct (lt_nth_error cs a) as (c & Ec); [lia|]. destruct (Hc a q c Eq Ec) as (com & ps & H1 & H2 & ->).
    exists com, ps. split; [exact H1|]. split; [exact H2|]. rewrite nth_error_map', Ec. reflexivity.
  - intros Hw. destruct (HJ Hw) as (Bs & -> & LB & Hd & HB). destruct (lt_nth_error Bs a) as (B & EB); [lia|].
    destruct (HB a q B Eq EB) as (J0 & Js & H1 & H2 & H3). exists J0, Js. split; [exact H1|]. split; [exact H2|].
    rewrite <- (app_nil_r (concat Bs)), (concat_block Bs 3 Hd a B [] EB). exact H3.
Qed.
Print Assumptions C20_first_waypoint_repeated_partial.

(** two different waypoints of the example robot, after a history that leaves stale poses in the cache *)
Example C34_C20_repeated_example : exists m, reached ex_tinyxml ex_text ex_R "base" ex_sorted ex_jsorted ex_stale m /\
  (forall k, In k [0; 1] -> k < length (get_joint_names m)) /\
  (exists m' PJ, (clear_cache ;;; solve_forward_kinematics [[n1; n0]; [n2; n1]] [3; 1; 0] [0; 1] RPY false true true) m = (m', Ok PJ)) /\
  exists m' PJ, (clear_cache ;;; solve_com_forward_kinematics [[n1; n0]; [n2; n1]] [0; 1] [3] [n2] false true) m = (m', Ok PJ).
Proof.
  assert (X : exists m, run ex_stale ex_m0 = Some m) by (apply is_some_ex; vm_compute; reflexivity).
  destruct X as (m & E). exists m. split; [exact (ex_reached _ _ E)|]. split.
  { destruct (reached_Rep _ _ _ _ _ _ _ _ (ex_reached _ _ E)) as [HR _]. rewrite (rep_joint_count _ _ _ _ _ _ _ _ HR). intros k [<-|[<-|[]]]; simpl; lia. }
  split; [apply (observe_answer ex_stale (clear_cache ;;; solve_forward_kinematics [[n1; n0]; [n2; n1]] [3; 1; 0] [0; 1] RPY false true true) m E) |
          apply (observe_answer ex_stale (clear_cache ;;; solve_com_forward_kinematics [[n1; n0]; [n2; n1]] [0; 1] [3] [n2] false true) m E)]; vm_compute; reflexivity.
Qed.
