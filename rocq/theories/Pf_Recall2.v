(** The distances of a fixed base with a trusted cache (lemmas for C121), as Pf_Recall.v for poses. *)
From Coq Require Import String List Arith Lia Bool.
From Verif Require Import Base Num Pose DataStructure Urdf Kin Wrapper Spec_Robot Spec_Hist Spec_Load Spec_Jac Spec_Mass
  Pf_Base Pf_Data Inv Pf_FK Pf_Frame Pf_Rp Rep Pf_Ops Pf_Reach Pf_Jac Pf_Pose Pf_Local Pf_Hist Pf_Wrap Pf_Mass Pf_Wrap2 Pf_Stale Pf_Recall.
Import ListNotations.
Local Open Scope m_scope.

Section Recall2.
Context `{A : Arith}.

Lemma asked_lift_bind {B C} (r : res B) (g : B -> M KM C) mg : asked (bind (lift r) g) mg -> exists a, r = Ok a /\ asked (g a) mg.
Proof.
  intros (ma & mb & b & W & E & Rb). apply bind_inv_ok in E. destruct E as (m1 & a & E1 & E2). apply lift_inv in E1. destruct E1 as [-> ->].
  exists a. split; auto. exists ma, mb, b. auto.
Qed.
Lemma settled_lift_bind {B C} (r : res B) (g : B -> M KM C) mg : (forall a, r = Ok a -> settled (g a) mg) -> settled (bind (lift r) g) mg.
Proof.
  intros H m1 m2 m3 b W1 W2 R1 R2 E. apply bind_inv_ok in E. destruct E as (m4 & a & E1 & E2). apply lift_inv in E1. destruct E1 as [-> ->].
  destruct (H a eq_refl _ _ _ _ W1 W2 R1 R2 E2) as (m1' & X & Y). exists m1'. rewrite (bind_lift_ok _ _ _ _ eq_refl). auto.
Qed.

Definition pair_body (w nj : nat) ids2 jids (wg : bool) (i : nat) (jl : nat * nat) (acc : list num * mat) : M KM (list num * mat) :=
  let head := i * w + fst jl in
  id2 <- lift (vget ids2 (fst jl)) ;;
  p1 <- get_link_pose (snd jl) ;;
  p2 <- get_link_pose id2 ;;
  let diff := v_sub (position p1) (position p2) in
  sd <- lift (vset (fst acc) head (sq_norm diff)) ;;
  if wg then
    jac1 <- get_jacobian (snd jl) jids IGNORE false ;;
    jac2 <- get_jacobian id2 jids IGNORE false ;;
    g <- lift (vset (snd acc) head (grad_row nj jac1 jac2 diff)) ;;
    ret (sd, g)
  else ret (sd, snd acc).
Definition dist_body (w nj : nat) ids1 ids2 jids (wg : bool) (i : nat) (acc : list num * mat) : M KM (list num * mat) :=
  for_each (enumerate ids1) acc (pair_body w nj ids2 jids wg i).

Ltac statics := let m0 := fresh in let m1 := fresh in intros m0 m1 (?E1 & ?E2 & ?E3 & ?E4 & ?E5 & ?E6 & ?E7); rewrite ?E1, ?E2, ?E3, ?E4, ?E5, ?E6, ?E7; reflexivity.
Ltac rgo :=
  lazymatch goal with
  | |- replayed (bind get _) => apply replayed_get; [statics | intros; rgo]
  | |- replayed (bind _ _) => apply replayed_bind; [rgo | intros; rgo]
  | |- replayed (ret _) => apply replayed_ret
  | |- replayed (lift _) => apply replayed_lift
  | |- replayed (get_link_pose _) => apply replayed_pose
  | |- replayed (get_jacobian _ _ _ _) => apply replayed_jacobian
  | |- replayed (if ?b then _ else _) => destruct b; rgo
  | |- _ => auto
  end.

Lemma replayed_pair w nj ids2 jids wg i jl acc : replayed (pair_body w nj ids2 jids wg i jl acc).
Proof. unfold pair_body. cbv zeta. rgo. Qed.
Lemma settled_pair w nj ids2 jids wg i jl acc i' acc' mg : asked (pair_body w nj ids2 jids wg i jl acc) mg -> settled (pair_body w nj ids2 jids wg i' jl acc') mg.
Proof.
  unfold pair_body. cbv zeta. intros Ha. apply asked_lift_bind in Ha. destruct Ha as (e2 & E2 & Ha).
  apply asked_bind in Ha; [|rgo|intros; rgo]. destruct Ha as (H1 & p1 & Ha).
  apply asked_bind in Ha; [|rgo|intros; rgo]. destruct Ha as (H2 & p2 & Ha). apply asked_lift_bind in Ha. destruct Ha as (sd & _ & Ha).
  apply settled_lift_bind. intros e2' E2'. assert (e2' = e2) by congruence. subst e2'.
  apply settled_bind; [apply asked_settled; [rgo|exact H1]|]. intros p1'. apply settled_bind; [apply asked_settled; [rgo|exact H2]|]. intros p2'.
  apply settled_bind; [apply settled_lift|]. intros sd'. destruct wg; [|apply settled_ret].
  apply asked_bind in Ha; [|rgo|intros; rgo]. destruct Ha as (H3 & J1 & Ha).
  apply asked_bind in Ha; [|rgo|intros; rgo]. destruct Ha as (H4 & J2 & _).
  apply settled_bind; [apply asked_settled; [rgo|exact H3]|]. intros J1'. apply settled_bind; [apply asked_settled; [rgo|exact H4]|]. intros J2'.
  apply settled_bind; [apply settled_lift|]. intros; apply settled_ret.
Qed.
Lemma query_dist_body w nj ids1 ids2 jids wg i acc : query (dist_body w nj ids1 ids2 jids wg i acc).
Proof. unfold dist_body, pair_body. cbv zeta. qgo; apply query_get_jacobian. Qed.
Lemma settled_dist_body w nj ids1 ids2 jids wg i acc i' acc' mg : asked (dist_body w nj ids1 ids2 jids wg i acc) mg -> settled (dist_body w nj ids1 ids2 jids wg i' acc') mg.
Proof.
  intros Ha. unfold dist_body in *. apply settled_for_each. intros jl c I.
  destruct (asked_for_each _ (fun b c => replayed_pair _ _ _ _ _ _ b c) _ _ _ Ha _ I) as (c0 & Hc). exact (settled_pair _ _ _ _ _ _ _ _ _ _ _ Hc).
Qed.

Section Repeat2.
Context (R : Robot) (root : string) (sorted : list (string * option Inertial)) (jsorted : list UJoint) (ms : list (string * Inertial)) (mass : num).
Notation Rep := (Rep R root sorted jsorted ms mass).
Notation sqdist_at := (sqdist_at R root sorted jsorted).
Notation grad_at := (grad_at R root sorted jsorted).
Notation sq_loop := (sq_loop R root sorted jsorted ms mass).

Lemma dists_repeat q0 qs0 ids1 ids2 jids wg s m m' D Gr : let qs := repeat q0 (S (length qs0)) in let wb := false in
  Rep s m -> (forall i P, get_cache i (tcache m) <> Ok (Some P)) -> (forall k, In k jids -> k < length jsorted) ->
  compute_inter_link_squared_dists (q0 :: qs0) ids1 ids2 jids false wg true m = (m', Ok (D, Gr)) ->
  length D = length qs * length ids1 /\
  (forall a b q e1, nth_error qs a = Some q -> nth_error ids1 b = Some e1 ->
     exists e2 d, nth_error ids2 b = Some e2 /\ nth_error D (a * length ids1 + b) = Some d /\ sqdist_at (at_waypoint jids wb q s) e1 e2 d) /\
  (wg = true -> length Gr = length qs * length ids1 /\ forall a b q e1, nth_error qs a = Some q -> nth_error ids1 b = Some e1 ->
     exists e2 g, nth_error ids2 b = Some e2 /\ nth_error Gr (a * length ids1 + b) = Some g /\ grad_at (at_waypoint jids wb q s) jids wb e1 e2 g).
Proof.
  intros qs wb HR Hcl Hk E. unfold compute_inter_link_squared_dists in E.
  change (length (q0 :: qs0)) with (S (length qs0)) in E. assert (Ln : S (length qs0) = length qs) by (unfold qs; now rewrite repeat_length). rewrite Ln in E.
  assert (At : forall i, i < S (length qs0) -> nth_error qs i = Some q0) by (intros i Li; unfold qs; now apply nth_error_repeat). clearbody qs.
  set (w := length ids1) in *. set (n := length qs) in *.
  set (nj := length jids + if wb then 6 else 0) in *.
  set (okd := fun a b d => exists q e1 e2, nth_error qs a = Some q /\ nth_error ids1 b = Some e1 /\ nth_error ids2 b = Some e2 /\ sqdist_at (at_waypoint jids wb q s) e1 e2 d).
  set (okg := fun a b g => exists q e1 e2, nth_error qs a = Some q /\ nth_error ids1 b = Some e1 /\ nth_error ids2 b = Some e2 /\ grad_at (at_waypoint jids wb q s) jids wb e1 e2 g).
  set (Inv := fun (i : nat) (DG : list num * mat) =>
    (exists ds rest, fst DG = ds ++ rest /\ length rest = (n - i) * w /\ length ds = i * w /\
       forall a b d, a < i -> b < w -> nth_error ds (a * w + b) = Some d -> okd a b d) /\
    (wg = true -> exists gs rest, snd DG = gs ++ rest /\ length rest = (n - i) * w /\ length gs = i * w /\
       forall a b g, a < i -> b < w -> nth_error gs (a * w + b) = Some g -> okg a b g)).
  assert (X : Inv n (D, Gr)).
  { rewrite <- Ln. apply (waypoint_repeat R root sorted jsorted ms mass jids (dist_body w nj ids1 ids2 jids wg) q0 qs0 s Inv) with (m := m) (m' := m') (acc := (repeat n0 (w * n), if wg then mat_zero (w * n) nj else mat_zero 1 1)); auto.
    - intros. apply query_dist_body.
    - intros i acc i' acc' mg. apply settled_dist_body.
    - intros i [D0 G0] DG' m1 m2 R1 G1 Li0 ((ds & rest & ED & Lr & Ld & Hd) & HG) X. cbn [fst snd] in *. set (q := q0).
      assert (Eq : nth_error qs i = Some q) by (unfold q; now apply At). unfold dist_body, pair_body in X.
      assert (Li : i < n) by (eapply nth_error_lt; eauto). subst D0. unfold enumerate in X.
      assert (HG' : exists gs grest, G0 = gs ++ grest /\ (wg = true -> length gs = i * w + 0 /\ length grest = (n - i) * w /\
          forall a b g, a < i -> b < w -> nth_error gs (a * w + b) = Some g -> okg a b g)).
      { destruct wg; [destruct (HG eq_refl) as (gs & gr & -> & L1 & L2 & H); exists gs, gr; split; auto; intros _; split; [lia|auto] |
          exists [], G0; split; auto; discriminate]. }
      destruct HG' as (gs & grest & -> & HG').
      destruct (sq_loop ids2 jids wb wg (at_waypoint jids wb q s) (i * w) nj Hk eq_refl ids1 0 m1 m2 ds rest gs grest DG' R1 G1) as (ds1 & gs1 & L1 & F1 & L1' & D1 & F0 & H1).
      { lia. } { intros Hw. apply (HG' Hw). } { exact X. }
      fold w in L1, F1, L1', H1. split.
      + exists (ds ++ ds1), (skipn w rest). split; auto. split; [rewrite skipn_length, Lr; replace (n - i) with (S (n - S i)) by lia; simpl; lia|].
        apply grid_grow; auto. intros b d Lb Ed. destruct (lt_nth_error ids1 b Lb) as (e1 & Ee). destruct (D1 b e1 Ee) as (e2 & d' & E2 & Ed' & H).
        assert (d' = d) by congruence. subst d'. exists q, e1, e2. auto.
      + intros Hw. destruct (HG' Hw) as (Lg & Lgr & Hg). destruct (H1 Hw) as (L2 & F2 & L2' & D2).
        exists (gs ++ gs1), (skipn w grest). split; auto. split; [rewrite skipn_length, Lgr; replace (n - i) with (S (n - S i)) by lia; simpl; lia|].
        apply grid_grow; auto; [lia|]. intros b d Lb Ed. destruct (lt_nth_error ids1 b Lb) as (e1 & Ee). destruct (D2 b e1 Ee) as (e2 & d' & E2 & Ed' & H).
        assert (d' = d) by congruence. subst d'. exists q, e1, e2. auto.
    - split; cbn [fst snd].
      + exists [], (repeat n0 (w * n)). split; auto. rewrite repeat_length. split; [lia|]. split; auto. intros; lia.
      + intros ->. exists [], (mat_zero (w * n) nj). split; auto. unfold mat_zero. rewrite repeat_length. split; [lia|]. split; auto. intros; lia. }
  destruct X as ((ds & rest & ED & Lr & Ld & Hd) & HG). cbn [fst snd] in *. rewrite Nat.sub_diag in *. simpl in Lr.
  destruct rest; [|discriminate]. rewrite app_nil_r in ED. subst ds. split; auto. split.
  - intros a b q e1 Eq Ee. pose proof (nth_error_lt _ _ _ Eq) as La. pose proof (nth_error_lt _ _ _ Ee) as Lb.
    destruct (lt_nth_error D (a * w + b)) as (d & Ed); [rewrite Ld; now apply split_index|].
    destruct (Hd a b d La Lb Ed) as (q' & e1' & e2 & X1 & X2 & X3 & X4). assert (q' = q) by congruence. assert (e1' = e1) by congruence. subst. exists e2, d. auto.
  - intros Hw. destruct (HG Hw) as (gs & gr & EG & Lg & Lgs & Hg). destruct gr; [|discriminate]. rewrite app_nil_r in EG. subst gs. split; auto.
    intros a b q e1 Eq Ee. pose proof (nth_error_lt _ _ _ Eq) as La. pose proof (nth_error_lt _ _ _ Ee) as Lb.
    destruct (lt_nth_error Gr (a * w + b)) as (d & Ed); [rewrite Lgs; now apply split_index|].
    destruct (Hg a b d La Lb Ed) as (q' & e1' & e2 & X1 & X2 & X3 & X4). assert (q' = q) by congruence. assert (e1' = e1) by congruence. subst. exists e2, d. auto.
Qed.

End Repeat2.
End Recall2.
