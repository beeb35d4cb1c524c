(** Centre of mass and inertia queries meet their specification. *)
From Coq Require Import String List Arith Lia Bool.
From Verif Require Import Base Num Pose DataStructure Urdf Kin Wrapper Spec_Robot Spec_Hist Spec_Load Spec_Jac Spec_Mass
  Pf_Base Pf_Data Inv Pf_FK Pf_Frame Pf_Rp Rep Pf_Ops Pf_Name Pf_Reach Pf_Jac Pf_Safe Pf_Pose Pf_Local Pf_Wrap Pf_Hist.
Import ListNotations.
Local Open Scope m_scope.

Section MassPf.
Context `{A : Arith}.
Variables (R : Robot) (root : string) (sorted : list (string * option Inertial)) (jsorted : list UJoint)
          (ms : list (string * Inertial)) (mass : num).
Notation Rep := (Rep R root sorted jsorted ms mass).

(** every massive link has its centre-of-mass link *)
Definition has_com (s : AState) : Prop :=
  forall n i, In (n, i) ms -> In ((n ++ "_com")%string, n, mkPose (position (in_origin i)) q_clear) (as_added s).

Lemma has_com_waypoint jids wb q s : has_com s -> has_com (at_waypoint jids wb q s).
Proof. intros H n i I. exact (H n i I). Qed.

(** ** Loops over the centre-of-mass links *)
Lemma com_loop {C Y} (body : nat -> C -> M KM C) (g : C -> Inertial -> Y -> C) (Q : string * Inertial -> Y -> Prop) s :
  (forall id acc, query (body id acc)) ->
  (forall id acc m1 m2 acc' ni l, In ni ms -> Rep s m1 -> Good m1 -> nth_error (links m1) id = Some l -> l_id l = id ->
     nth_error (all_links sorted s) id = Some (fst ni ++ "_com")%string -> l_inertial l = Some (reset_origin (snd ni)) ->
     body id acc m1 = (m2, Ok acc') -> exists y, Q ni y /\ acc' = g acc (snd ni) y) ->
  forall m m' acc acc', Rep s m -> Good m ->
  for_each (com_dummy_links m) acc body m = (m', Ok acc') ->
  (Rep s m' /\ Good m') /\ exists ys, Forall2 Q ms ys /\ acc' = fold_left (fun acc x => g acc (snd (fst x)) (snd x)) (combine ms ys) acc.
Proof.
  intros Hq Hb m m' acc acc' HR G E. pose proof (rep_com _ _ _ _ _ _ _ _ HR) as F.
  assert (F' : Forall2 (fun id ni => exists l, nth_error (links m) id = Some l /\ l_id l = id /\
            nth_error (all_links sorted s) id = Some (fst ni ++ "_com")%string /\ l_inertial l = Some (reset_origin (snd ni))) (com_dummy_links m) ms).
  { eapply Forall2_impl'; [|exact F]. intros id ni (l & ine & E1 & E2 & E3 & ->). exists l. split; auto. split; [apply (wf_ids m (proj1 G) id l E1)|].
    split; auto. rewrite <- E2. exact (rep_link_inv _ _ _ _ _ _ _ _ HR id l E1). }
  clear F. set (ls := links m) in *.
  enough (X : forall ids sub, Forall2 (fun id ni => exists l, nth_error ls id = Some l /\ l_id l = id /\
            nth_error (all_links sorted s) id = Some (fst ni ++ "_com")%string /\ l_inertial l = Some (reset_origin (snd ni))) ids sub ->
     incl sub ms -> forall m1 acc, links m1 = ls -> Rep s m1 -> Good m1 -> for_each ids acc body m1 = (m', Ok acc') ->
     (Rep s m' /\ Good m') /\ exists ys, Forall2 Q sub ys /\ acc' = fold_left (fun acc x => g acc (snd (fst x)) (snd x)) (combine sub ys) acc).
  { apply (X _ _ F' (incl_refl _) m acc eq_refl HR G E). }
  clear E HR G F' acc. induction 1 as [|id ni ids sub (l & E1 & E2 & E3 & E4) F IH]; intros Hs m1 acc El HR G E.
  - simpl in E. inversion E; subst. split; auto. exists []. split; [constructor|reflexivity].
  - rewrite for_each_cons in E. apply bind_inv_ok in E. destruct E as (m2 & acc1 & Eb & E).
    destruct (query_keeps R root sorted jsorted ms mass _ _ _ _ _ (Hq id acc) HR G Eb) as [R2 G2].
    destruct (Hb id acc m1 m2 acc1 ni l) as (y & Qy & ->); auto; [apply Hs; now left | now rewrite El|].
    assert (El2 : links m2 = ls).
    { destruct (Hq id acc m1) as [(st & c & Es & _) _]. rewrite Eb in Es. cbn [fst] in Es. now subst m2. }
    destruct (IH (fun x I => Hs x (or_intror I)) m2 _ El2 R2 G2 E) as (X & ys & FQ & ->). split; auto.
    exists (y :: ys). split; [now constructor | reflexivity].
Qed.

Lemma com_pose s m n i e p : Rep s m -> has_com s -> In (n, i) ms -> nth_error (all_links sorted s) e = Some (n ++ "_com")%string ->
  named_pose R root sorted jsorted s e p ->
  exists P, pose_at R root jsorted s n P /\ p = pose_transform P (mkPose (position (in_origin i)) q_clear).
Proof.
  intros HR Hc I E (n' & En & Hp). assert (n' = (n ++ "_com")%string) by congruence. subst n'.
  pose proof (Hc n i I) as Ia.
  assert (In1 : In n (all_links sorted s)).
  { destruct (nm_added _ _ _ _ (rep_named _ _ _ _ _ _ _ _ HR) _ _ _ Ia) as (k & l & q & lq & E1 & E2 & E3 & E4 & E5 & E6).
    rewrite <- E5. eapply nth_error_In. exact (rep_link_inv _ _ _ _ _ _ _ _ HR q lq E4). }
  destruct (rep_pose_ex _ _ _ _ _ _ _ _ HR n In1) as (P & HP). exists P. split; auto.
  apply (rep_pose_det _ _ _ _ _ _ _ _ HR _ _ _ Hp). unfold pose_at. eapply fk_added; eauto.
Qed.

Lemma Forall2_combine_map {B C D} (P : B -> C -> Prop) (f : B * C -> D) l l' : Forall2 P l l' -> length (map f (combine l l')) = length l.
Proof. intros F. rewrite map_length, combine_length, <- (Forall2_len _ _ _ F). apply Nat.min_id. Qed.

Lemma fold_left_map' {B C D} (f : D -> C -> D) (h : B -> C) l : forall acc, fold_left f (map h l) acc = fold_left (fun acc b => f acc (h b)) l acc.
Proof. induction l; intros; simpl; auto. Qed.

Lemma fold_left_pair {B C D} (f : C -> B -> C) (g : D -> B -> D) l : forall c d,
  fold_left (fun cd b => (f (fst cd) b, g (snd cd) b)) l (c, d) = (fold_left f l c, fold_left g l d).
Proof. induction l; intros; simpl; auto. Qed.

Lemma mass_fold {Y} (ys : list Y) : forall (sub : list (string * Inertial)) acc, length ys = length sub ->
  fold_left (fun acc x => add acc (in_mass (snd (fst x)))) (combine sub ys) acc = fold_left (fun acc ni => add acc (in_mass (snd ni))) sub acc.
Proof. induction ys as [|y ys IH]; intros [|ni sub] acc L; simpl in *; try lia; auto. Qed.

Lemma fold_left_ext {B C} (f g : C -> B -> C) l : (forall c b, f c b = g c b) -> forall c, fold_left f l c = fold_left g l c.
Proof. intros H. induction l; intros; simpl; auto. now rewrite H, IHl. Qed.

Lemma get_com_ok s m m' c : Rep s m -> Good m -> has_com s -> get_com m = (m', Ok c) -> is_com R root jsorted ms s c.
Proof.
  intros HR G Hc E. unfold get_com in E. rewrite bind_get in E. apply bind_inv_ok in E. destruct E as (m1 & [com mt] & E & E1).
  inversion E1; subst m1 c. clear E1.
  destruct (com_loop (fun id acc => let '(com, mass_total) := acc in
         m <- get ;; lk <- lift (vget (links m) id) ;; ine <- lift (deref (l_inertial lk)) ;; tf <- get_link_pose (l_id lk) ;;
         ret (V3 (add (vx com) (mul (in_mass ine) (vx (position tf)))) (add (vy com) (mul (in_mass ine) (vy (position tf))))
                 (add (vz com) (mul (in_mass ine) (vz (position tf)))), add mass_total (in_mass ine)))
     (fun acc i (P : Pose) => (V3 (add (vx (fst acc)) (mul (in_mass i) (vx (com_point P i)))) (add (vy (fst acc)) (mul (in_mass i) (vy (com_point P i))))
                 (add (vz (fst acc)) (mul (in_mass i) (vz (com_point P i)))), add (snd acc) (in_mass i)))
     (fun ni P => pose_at R root jsorted s (fst ni) P) s) with (m := m) (m' := m') (acc := (v_clear, n0)) (acc' := (com, mt)) as (_ & Ps & F & Eq); auto.
  - intros id [c0 t0]. qgo.
  - intros id [c0 t0] m1 m2 acc' [n i] l Ini R1 G1 El Eid En Ei X. rewrite bind_get in X.
    rewrite (bind_lift_ok _ _ _ _ (proj2 (vget_ok _ _ _) El)) in X. rewrite Ei in X. unfold deref at 1 in X. rewrite (bind_lift_ok _ _ _ _ eq_refl) in X.
    rewrite Eid in X. apply bind_inv_ok in X. destruct X as (m3 & tf & X1 & X2). inversion X2; subst m3 acc'. clear X2.
    cbn [fst snd] in *.
    destruct (com_pose s m1 n i id tf R1 Hc Ini En (get_link_pose_named _ _ _ _ _ _ _ _ _ _ _ R1 G1 X1)) as (P & HP & ->).
    exists P. split; auto.
  - exists Ps. split; auto. rewrite (fold_left_pair (fun c x => V3 (add (vx c) (mul (in_mass (snd (fst x))) (vx (com_point (snd x) (snd (fst x))))))
        (add (vy c) (mul (in_mass (snd (fst x))) (vy (com_point (snd x) (snd (fst x)))))) (add (vz c) (mul (in_mass (snd (fst x))) (vz (com_point (snd x) (snd (fst x)))))))
        (fun d x => add d (in_mass (snd (fst x))))) in Eq. inversion Eq; subst com mt. clear Eq.
    unfold com_of, scaled_down, weighted_sum, mass_sum. rewrite fold_left_map'. cbn [fst snd].
    rewrite <- (mass_fold Ps ms) by (symmetry; eapply Forall2_len; eauto). reflexivity.
Qed.

Lemma get_com_jacobian_ok s m m' jids wb J : Rep s m -> Good m -> (forall k, In k jids -> k < length jsorted) ->
  get_com_jacobian jids wb m = (m', Ok J) -> is_com_jacobian R root jsorted ms s jids wb J.
Proof.
  intros HR G Hk E. unfold get_com_jacobian in E. rewrite bind_get in E. apply bind_inv_ok in E. destruct E as (m1 & [J1 mt] & E & E1).
  inversion E1; subst m1 J. clear E1.
  destruct (com_loop (fun id acc => let '(J, mass_total) := acc in
         m <- get ;; lk <- lift (vget (links m) id) ;; ine <- lift (deref (l_inertial lk)) ;;
         jac <- get_jacobian (l_id lk) jids IGNORE wb ;;
         ret (mat_zip add J (mat_map (mul (in_mass ine)) jac), add mass_total (in_mass ine)))
     (fun acc i (J : mat) => (mat_zip add (fst acc) (mat_map (mul (in_mass i)) J), add (snd acc) (in_mass i)))
     (fun ni J => is_jacobian R root jsorted s IGNORE (fst ni ++ "_com")%string jids wb J) s)
     with (m := m) (m' := m') (acc := (mat_zero 3 (length jids + if wb then 6 else 0), n0)) (acc' := (J1, mt)) as (_ & Js & F & Eq); auto.
  - intros id [c0 t0]. qgo; apply query_get_jacobian.
  - intros id [c0 t0] m1 m2 acc' [n i] l Ini R1 G1 El Eid En Ei X. rewrite bind_get in X.
    rewrite (bind_lift_ok _ _ _ _ (proj2 (vget_ok _ _ _) El)) in X. rewrite Ei in X. unfold deref at 1 in X. rewrite (bind_lift_ok _ _ _ _ eq_refl) in X.
    rewrite Eid in X. apply bind_inv_ok in X. destruct X as (m3 & jac & X1 & X2). inversion X2; subst m3 acc'. clear X2.
    cbn [fst snd] in *. destruct (jacobian_is _ _ _ _ _ _ _ _ _ _ _ _ _ _ R1 G1 Hk X1) as (n' & En' & HJ).
    assert (n' = (n ++ "_com")%string) by congruence. subst n'. exists jac. auto.
  - exists Js. split; auto. rewrite (fold_left_pair (fun c x => mat_zip add c (mat_map (mul (in_mass (snd (fst x)))) (snd x)))
        (fun d x => add d (in_mass (snd (fst x))))) in Eq. inversion Eq; subst J1 mt. clear Eq.
    unfold mean_mat, mass_sum. rewrite fold_left_map'. cbn [fst snd].
    rewrite <- (mass_fold Js ms) by (symmetry; eapply Forall2_len; eauto). reflexivity.
Qed.

Lemma is_com_det s m Ps Ps' : Rep s m -> Forall2 (fun ni P => pose_at R root jsorted s (fst ni) P) ms Ps ->
  Forall2 (fun ni P => pose_at R root jsorted s (fst ni) P) ms Ps' -> Ps' = Ps.
Proof.
  intros HR. pose proof (rep_pose_det _ _ _ _ _ _ _ _ HR) as D. clear HR. intros F. revert Ps'. induction F as [|ni P l Ps HP F IH]; intros Ps' F'; inversion F' as [|? P' ? Ps1 HP' F1]; subst; auto.
  f_equal; [|auto]. exact (D _ _ _ HP' HP).
Qed.

Lemma get_inertia_ok s m m' I : Rep s m -> Good m -> has_com s -> get_total_inertia_matrix m = (m', Ok I) -> is_inertia R root jsorted ms s I.
Proof.
  intros HR G Hc E. unfold get_total_inertia_matrix in E. apply bind_inv_ok in E. destruct E as (m1 & com & E1 & E).
  destruct (get_com_ok s m m1 com HR G Hc E1) as (Ps & F & ->).
  destruct (query_keeps R root sorted jsorted ms mass _ _ _ _ _ query_get_com HR G E1) as [R1 G1]. rewrite bind_get in E.
  destruct (com_loop (fun id acc => m <- get ;; lk <- lift (vget (links m) id) ;;
    match l_inertial lk with
    | None => ret acc
    | Some ine => tf <- get_link_pose (l_id lk) ;;
        let v := v_sub (position tf) (com_of ms Ps) in let R := rot_mat (rotation tf) in
        ret (mat_zip add acc (mat_zip add (mat3_mul (mat3_mul R (inertia_mat ine)) (transpose3 R)) (trans_term (in_mass ine) v)))
    end)
     (fun acc i (P : Pose) => mat_zip add acc (inertia_about (com_of ms Ps) P i))
     (fun ni P => pose_at R root jsorted s (fst ni) P) s) with (m := m1) (m' := m') (acc := mat_zero 3 3) (acc' := I) as (_ & Ps' & F' & Eq); auto.
  - intros id c0. cbv zeta. qgo.
  - intros id c0 m2 m3 acc' [n i] l Ini R2 G2 El Eid En Ei X. rewrite bind_get in X.
    rewrite (bind_lift_ok _ _ _ _ (proj2 (vget_ok _ _ _) El)) in X. rewrite Ei in X.
    rewrite Eid in X. apply bind_inv_ok in X. destruct X as (m4 & tf & X1 & X2). inversion X2; subst m4 acc'. clear X2.
    cbn [fst snd] in *.
    destruct (com_pose s m2 n i id tf R2 Hc Ini En (get_link_pose_named _ _ _ _ _ _ _ _ _ _ _ R2 G2 X1)) as (P & HP & ->).
    exists P. split; auto.
  - exists Ps. split; auto. rewrite (is_com_det s m1 Ps Ps' R1 F F') in Eq. exact Eq.
Qed.
End MassPf.

Lemma reached_has_com `{A : Arith} sorted jsorted ops : has_com (massive sorted) (after sorted jsorted ops).
Proof.
  intros n i I. destruct (abs_run_added (map fst sorted) ops (initial sorted jsorted)) as (ex & E). unfold after. rewrite E.
  apply in_or_app. left. simpl. unfold massive in I. unfold com_links. apply in_flat_map in I. destruct I as ([n' o] & I & H).
  apply in_flat_map. exists (n', o). split; auto. cbn [fst snd] in *. destruct o as [i'|]; [|easy]. destruct H as [H|[]]. inversion H; subst. now left.
Qed.
