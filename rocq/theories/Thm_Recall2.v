(** C121: what compute_inter_link_squared_dists answers when it trusts the cache. *)
From Coq Require Import String List Arith Lia Bool Permutation Reals Lra.
From Verif Require Import Base Num Pose DataStructure Urdf Kin Wrapper RealArith Spec_Robot Spec_Hist Spec_Load Spec_Jac Spec_Mass
  Pf_Base Pf_Data Inv Pf_FK Pf_Frame Pf_Rp Rep Pf_Ops Pf_Name Pf_Reach Pf_Jac Pf_Safe Pf_Pose Pf_Local Pf_Hist Pf_Wrap Pf_Mass Pf_Wrap2 Pf_Total
  Pf_Stale Pf_Real Pf_Batch Pf_Recall Pf_Recall2 Ex_Robot Ex_Slider Thm_Fk Thm_Recall.
Import ListNotations.
Local Open Scope m_scope.

(** C121, the parts that hold, in any arithmetic.  With the base in the waypoints, caching changes no number of the
    answer.  For a fixed base, a cached call right after clear_cache answers, number for number, what the call without
    caching answers when every waypoint is replaced by the first: a single waypoint is answered rightly. *)
Theorem C121_cached_distances_partial :
  forall (A : Arith) tinyxml text R root sorted jsorted ops m,
    reached tinyxml text R root sorted jsorted ops m ->
    forall ids1 ids2 jids wg, (forall k, In k jids -> k < length (get_joint_names m)) ->
      (forall qs m1 m2 D G D' G', (forall q, In q qs -> length q = length jids + 6) ->
         compute_inter_link_squared_dists qs ids1 ids2 jids true wg true m = (m1, Ok (D, G)) ->
         compute_inter_link_squared_dists qs ids1 ids2 jids true wg false m = (m2, Ok (D', G')) ->
         D = D' /\ (wg = true -> G = G')) /\
      (forall q0 qs m1 m2 D G D' G', length q0 = length jids ->
         (clear_cache ;;; compute_inter_link_squared_dists (q0 :: qs) ids1 ids2 jids false wg true) m = (m1, Ok (D, G)) ->
         compute_inter_link_squared_dists (repeat q0 (length (q0 :: qs))) ids1 ids2 jids false wg false m = (m2, Ok (D', G')) ->
         D = D' /\ (wg = true -> G = G')).
Proof.
  intros A tinyxml text R root sorted jsorted ops m Hr ids1 ids2 jids wg Hk.
  destruct (reached_Rep _ _ _ _ _ _ _ _ Hr) as [HR _]. set (s := after sorted jsorted ops) in *. rewrite (rep_joint_count _ _ _ _ _ _ _ _ HR) in Hk.
  assert (Main : forall (wb : bool) w (D D' : list num) (G G' : mat), (forall q, In q w -> length q = length jids + (if wb then 6 else 0)) ->
    let ok := fun D G => length D = length w * length ids1 /\
      (forall a b q e1, nth_error w a = Some q -> nth_error ids1 b = Some e1 ->
         exists e2 d, nth_error ids2 b = Some e2 /\ nth_error D (a * length ids1 + b) = Some d /\ sqdist_at R root sorted jsorted (at_waypoint jids wb q s) e1 e2 d) /\
      (wg = true -> length G = length w * length ids1 /\ forall a b q e1, nth_error w a = Some q -> nth_error ids1 b = Some e1 ->
         exists e2 g, nth_error ids2 b = Some e2 /\ nth_error G (a * length ids1 + b) = Some g /\ grad_at R root sorted jsorted (at_waypoint jids wb q s) jids wb e1 e2 g) in
    ok D G -> ok D' G' -> D = D' /\ (wg = true -> G = G')).
  { intros wb w D D' G G' Lq ok (LD & HD & HG) (LD' & HD' & HG'). split.
    - rewrite <- (app_nil_r D'). apply (split_rows (length ids1) (length w) 0); auto; try lia.
      intros a b x y La Lb Ex Ey. destruct (lt_nth_error w a La) as (q & Eq). destruct (lt_nth_error ids1 b Lb) as (e1 & Ee).
      destruct (HD a b q e1 Eq Ee) as (e2 & d & F & Fd & H). destruct (HD' a b q e1 Eq Ee) as (e2' & d' & F' & Fd' & H').
      assert (e2' = e2) by congruence. assert (d = x) by congruence. assert (d' = y) by congruence. subst.
      destruct (waypoint_Rep _ _ _ _ _ _ _ _ Hr jids wb q Hk (Lq q (nth_error_In _ _ Eq))) as (mq & HRq). exact (sqdist_det _ _ _ _ _ _ _ _ HRq e1 e2 x y H H').
    - intros W. destruct (HG W) as (LG & Hg). destruct (HG' W) as (LG' & Hg').
      rewrite <- (app_nil_r G'). apply (split_rows (length ids1) (length w) 0); auto; try lia.
      intros a b x y La Lb Ex Ey. destruct (lt_nth_error w a La) as (q & Eq). destruct (lt_nth_error ids1 b Lb) as (e1 & Ee).
      destruct (Hg a b q e1 Eq Ee) as (e2 & d & F & Fd & H). destruct (Hg' a b q e1 Eq Ee) as (e2' & d' & F' & Fd' & H').
      assert (e2' = e2) by congruence. assert (d = x) by congruence. assert (d' = y) by congruence. subst.
      destruct (waypoint_Rep _ _ _ _ _ _ _ _ Hr jids wb q Hk (Lq q (nth_error_In _ _ Eq))) as (mq & HRq). exact (grad_det _ _ _ _ _ _ _ _ HRq jids wb e1 e2 x y Hk H H'). }
  split.
  - intros qs m1 m2 D G D' G' Lq X X'. apply (Main true qs); [exact Lq | exact (sqdists_ok _ _ _ _ _ _ qs ids1 ids2 jids true wg true _ _ _ _ _ HR eq_refl Hk X) | exact (sqdists_ok _ _ _ _ _ _ qs ids1 ids2 jids true wg false _ _ _ _ _ HR eq_refl Hk X')].
  - intros q0 qs m1 m2 D G D' G' Lq X X'. apply bind_inv_ok in X. destruct X as (mc & [] & X0 & X). unfold clear_cache in X0. rewrite bind_get in X0. inversion X0; subst mc. clear X0.
    apply (Main false (repeat q0 (length (q0 :: qs)))); [|exact (dists_repeat _ _ _ _ _ _ _ _ _ _ _ _ _ _ _ _ _ (Rep_clear _ _ _ _ _ _ _ _ HR) (fun i P => cleared_none m i P (rep_wf _ _ _ _ _ _ _ _ HR)) Hk X) | exact (sqdists_ok _ _ _ _ _ _ (repeat q0 (length (q0 :: qs))) ids1 ids2 jids false wg false _ _ _ _ _ HR eq_refl Hk X')].
    intros q I. apply repeat_spec in I. subst. lia.
Qed.
Print Assumptions C121_cached_distances_partial.

(** the example robot after a history that leaves stale poses in the cache *)
Example C121_example : exists m, reached ex_tinyxml ex_text ex_R "base" ex_sorted ex_jsorted ex_stale m /\
  (forall k, In k [0; 1] -> k < length (get_joint_names m)) /\
  (forall uc, exists m' DG, compute_inter_link_squared_dists [[n1; n0; n1; n0; n0; n0; n0; nhalf]; [n1; n0; n1; n1; n0; n0; n0; nhalf]] [3; 1] [0; 4] [0; 1] true true uc m = (m', Ok DG)) /\
  (exists m' DG, (clear_cache ;;; compute_inter_link_squared_dists [[n1; n0]; [n2; nhalf]] [3; 1] [0; 4] [0; 1] false true true) m = (m', Ok DG)) /\
  exists m' DG, compute_inter_link_squared_dists (repeat [n1; n0] 2) [3; 1] [0; 4] [0; 1] false true false m = (m', Ok DG).
Proof.
  assert (X : exists m, run ex_stale ex_m0 = Some m) by (apply is_some_ex; vm_compute; reflexivity).
  destruct X as (m & E). exists m. split; [exact (ex_reached _ _ E)|]. split.
  { destruct (reached_Rep _ _ _ _ _ _ _ _ (ex_reached _ _ E)) as [HR _]. rewrite (rep_joint_count _ _ _ _ _ _ _ _ HR). intros k [<-|[<-|[]]]; simpl; lia. }
  split; [intros uc; apply (observe_answer ex_stale (compute_inter_link_squared_dists [[n1; n0; n1; n0; n0; n0; n0; nhalf]; [n1; n0; n1; n1; n0; n0; n0; nhalf]] [3; 1] [0; 4] [0; 1] true true uc) m E); destruct uc; vm_compute; reflexivity|].
  split; [apply (observe_answer ex_stale (clear_cache ;;; compute_inter_link_squared_dists [[n1; n0]; [n2; nhalf]] [3; 1] [0; 4] [0; 1] false true true) m E) |
          apply (observe_answer ex_stale (compute_inter_link_squared_dists (repeat [n1; n0] 2) [3; 1] [0; 4] [0; 1] false true false) m E)]; vm_compute; reflexivity.
Qed.

(** C121, refuted for a fixed base: on the slider, right after clear_cache, the car's squared
    distance from the base at displacements 0 and 1 is 0 and 1 without caching, and 0 and 0 with it. *)
Theorem C121_cached_distances_refuted :
  exists tinyxml text R root sorted jsorted m m1 m2 G G',
    @reached RA tinyxml text R root sorted jsorted [] m /\
    (clear_cache ;;; @compute_inter_link_squared_dists RA [[0%R]; [1%R]] [1] [0] [0] false false true) m = (m1, Ok ([0%R; 0%R], G)) /\
    @compute_inter_link_squared_dists RA [[0%R]; [1%R]] [1] [0] [0] false false false m = (m2, Ok ([0%R; 1%R], G')).
Proof.
  pose (f := fun m : @KM RA => is_some (answer ((clear_cache ;;; @compute_inter_link_squared_dists RA [[0%R]; [1%R]] [1] [0] [0] false false true) m))).
  pose (g := fun m : @KM RA => is_some (answer (@compute_inter_link_squared_dists RA [[0%R]; [1%R]] [1] [0] [0] false false false m))).
  assert (X : exists m, reached sl_tinyxml ex_text sl_R "base"%string sl_sorted sl_jsorted [] m /\ f m = true /\ g m = true).
  { exists sl_m0. split; [apply sl_reached; reflexivity|]. split; vm_compute; reflexivity. }
  destruct X as (m & Hr & X1 & X2).
  assert (X : (exists m1 DG, (clear_cache ;;; @compute_inter_link_squared_dists RA [[0%R]; [1%R]] [1] [0] [0] false false true) m = (m1, Ok DG)) /\
              exists m1 DG, @compute_inter_link_squared_dists RA [[0%R]; [1%R]] [1] [0] [0] false false false m = (m1, Ok DG)).
  { unfold f, g in *. destruct ((clear_cache ;;; _) m) as [m1 [DG| | |]]; try discriminate X1. destruct (compute_inter_link_squared_dists _ _ _ _ _ _ _ m) as [m2 [DG'| | |]]; try discriminate X2.
    split; eauto. }
  clear f g X1 X2.
  destruct (reached_Rep _ _ _ _ _ _ _ _ Hr) as [HR _]. change (after sl_sorted sl_jsorted []) with (initial sl_sorted sl_jsorted) in HR. rewrite sl_initial in HR.
  assert (Hk : forall k, In k [0] -> k < length sl_jsorted) by (intros k [<-|[]]; simpl; lia).
  assert (Val : forall b d, sqdist_at sl_R "base"%string sl_sorted sl_jsorted (at_waypoint [0] false [b] (sl_s n0)) 1 0 d -> d = (b * b)%R).
  { intros b d (p1 & p2 & (x1 & N1 & H1) & (x2 & N2 & H2) & ->). rewrite sl_at in *. inversion N1; subst x1. inversion N2; subst x2.
    rewrite (sl_det b _ _ _ H1 (sl_car b)), (sl_det b _ _ _ H2 (sl_base b)). unfold sq_norm, v_sub, pose_clear, v_clear. cbn [position vx vy vz]. rnum. ring. }
  assert (Two : forall (D : list R) x y, length D = 2 -> nth_error D 0 = Some x -> nth_error D 1 = Some y -> D = [x; y]).
  { intros [|u [|v [|t D]]] x y L Ex Ey; try discriminate L. inversion Ex; inversion Ey; subst. reflexivity. }
  destruct X as [(m1 & [D G] & E1) (m2 & [D' G'] & E2)].
  assert (V : D = [0%R; 0%R] /\ D' = [0%R; 1%R]).
  { apply bind_inv_ok in E1. destruct E1 as (mc & [] & X0 & E1). unfold clear_cache in X0. rewrite bind_get in X0. inversion X0; subst mc. clear X0.
    destruct (@dists_repeat RA _ _ _ _ _ _ [0%R] [[1%R]] [1] [0] [0] false _ _ _ _ _ (Rep_clear _ _ _ _ _ _ _ _ HR) (fun i P => cleared_none m i P (rep_wf _ _ _ _ _ _ _ _ HR)) Hk E1) as (L & H & _).
    destruct (@sqdists_ok RA _ _ _ _ _ _ [[0%R]; [1%R]] [1] [0] [0] false false false _ _ _ _ _ HR eq_refl Hk E2) as (L' & H' & _). clear E1 E2.
    destruct (H 0 0 [0%R] 1 eq_refl eq_refl) as (e & d & Ee & Ed & Hd). destruct (H 1 0 [0%R] 1 eq_refl eq_refl) as (e' & d' & Ee' & Ed' & Hd').
    destruct (H' 0 0 [0%R] 1 eq_refl eq_refl) as (f & c & Ef & Ec & Hc). destruct (H' 1 0 [1%R] 1 eq_refl eq_refl) as (f' & c' & Ef' & Ec' & Hc').
    cbn in Ee, Ee', Ef, Ef'. injection Ee as <-. injection Ee' as <-. injection Ef as <-. injection Ef' as <-. apply Val in Hd, Hd', Hc, Hc'.
    rewrite (Two D _ _ L Ed Ed'), (Two D' _ _ L' Ec Ec'), Hd, Hd', Hc, Hc'. split; (f_equal; [ring | f_equal; ring]). }
  destruct V as [-> ->].
  exists sl_tinyxml, ex_text, sl_R, "base"%string, sl_sorted, sl_jsorted, m, m1, m2, G, G'. split; [exact Hr|]. split; [exact E1 | exact E2].
Qed.
Print Assumptions C121_cached_distances_refuted.
