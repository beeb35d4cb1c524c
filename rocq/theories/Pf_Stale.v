(** What queries do when the poses they need are cached: they never look at the joint
    angles. *)
From Coq Require Import String List Arith Lia Bool.
From Verif Require Import Base Num Pose DataStructure Urdf Kin Wrapper Spec_Robot Spec_Hist Pf_Base.
Import ListNotations.
Local Open Scope m_scope.

Section Stale.
Context `{A : Arith}.

Lemma pose_hit i P m : get_cache i (tcache m) = Ok (Some P) -> get_link_pose i m = (m, Ok P).
Proof. intros E. unfold get_link_pose. rewrite bind_get. unfold bind, lift. rewrite E. reflexivity. Qed.

(** cached pose and inertial data of one centre-of-mass link *)
Definition com_hit (m : KM) (id : nat) : option (Pose * Inertial) :=
  match nth_error (links m) id with
  | Some l => match get_cache (l_id l) (tcache m), l_inertial l with
              | Ok (Some P), Some ine => Some (P, ine)
              | _, _ => None
              end
  | None => None
  end.
Definition all_hit (m : KM) : bool := forallb (fun id => match com_hit m id with Some _ => true | None => false end) (com_dummy_links m).

Lemma hit_read m id v : match com_hit m id with Some _ => true | None => false end = true ->
  exists l P ine, com_hit m id = Some (P, ine) /\ nth_error (links m) id = Some l /\ l_inertial l = Some ine /\
    get_link_pose (l_id l) (set_angles v m) = (set_angles v m, Ok P) /\ get_link_pose (l_id l) m = (m, Ok P).
Proof.
  unfold com_hit. destruct (nth_error (links m) id) as [l|]; [|discriminate].
  destruct (get_cache (l_id l) (tcache m)) as [[P|]| | |] eqn:Ec; try discriminate. destruct (l_inertial l) as [ine|] eqn:Ei; [|discriminate].
  intros _. exists l, P, ine. repeat split; auto; now apply pose_hit.
Qed.

(** a loop over centre-of-mass links whose poses are cached does not depend on the angles *)
Lemma loop_hit {C} (body : nat -> C -> M KM C) m v :
  (forall id acc, match com_hit m id with Some _ => true | None => false end = true ->
     exists acc', body id acc m = (m, Ok acc') /\ body id acc (set_angles v m) = (set_angles v m, Ok acc')) ->
  forall ids acc, forallb (fun id => match com_hit m id with Some _ => true | None => false end) ids = true ->
  exists acc', for_each ids acc body m = (m, Ok acc') /\ for_each ids acc body (set_angles v m) = (set_angles v m, Ok acc').
Proof.
  intros H. induction ids as [|id ids IH]; intros acc E; [exists acc; auto|].
  simpl in E. apply andb_true_iff in E. destruct E as [E1 E2]. destruct (H id acc E1) as (acc' & X1 & X2).
  destruct (IH acc' E2) as (acc'' & Y1 & Y2). exists acc''. rewrite !for_each_cons. rewrite (bind_ok _ _ _ _ _ X1), (bind_ok _ _ _ _ _ X2). auto.
Qed.

Lemma com_stale m v : all_hit m = true -> exists c, get_com m = (m, Ok c) /\ get_com (set_angles v m) = (set_angles v m, Ok c).
Proof.
  intros H. unfold get_com. rewrite !bind_get.
  destruct (loop_hit (fun id acc =>
         let '(com, mass_total) := acc in
         m <- get ;; lk <- lift (vget (links m) id) ;; ine <- lift (deref (l_inertial lk)) ;;
         tf <- get_link_pose (l_id lk) ;;
         ret (V3 (add (vx com) (mul (in_mass ine) (vx (position tf)))) (add (vy com) (mul (in_mass ine) (vy (position tf))))
                 (add (vz com) (mul (in_mass ine) (vz (position tf)))), add mass_total (in_mass ine))) m v) with (ids := com_dummy_links m) (acc := (v_clear, n0))
    as ([c t] & X1 & X2); auto.
  - intros id [com t] Hh. destruct (hit_read m id v Hh) as (l & P & ine & _ & El & Ei & Ep' & Ep).
    eexists. rewrite !bind_get. rewrite !(bind_lift_ok (vget _ id) l) by (apply vget_ok; exact El).
    rewrite !(bind_lift_ok (deref _) ine) by (rewrite Ei; reflexivity).
    rewrite (bind_ok _ _ _ _ _ Ep), (bind_ok _ _ _ _ _ Ep'). split; reflexivity.
  - eexists. change (com_dummy_links (set_angles v m)) with (com_dummy_links m).
    rewrite (bind_ok _ _ _ _ _ X1), (bind_ok _ _ _ _ _ X2). split; reflexivity.
Qed.

Lemma inertia_stale m v : all_hit m = true ->
  exists I, get_total_inertia_matrix m = (m, Ok I) /\ get_total_inertia_matrix (set_angles v m) = (set_angles v m, Ok I).
Proof.
  intros H. destruct (com_stale m v H) as (com & C1 & C2). unfold get_total_inertia_matrix.
  rewrite (bind_ok _ _ _ _ _ C1), (bind_ok _ _ _ _ _ C2), !bind_get. change (com_dummy_links (set_angles v m)) with (com_dummy_links m).
  apply loop_hit; auto. intros id acc Hh. destruct (hit_read m id v Hh) as (l & P & ine & _ & El & Ei & Ep' & Ep).
  eexists. rewrite !bind_get. rewrite !(bind_lift_ok (vget _ id) l) by (apply vget_ok; exact El). rewrite Ei.
  rewrite (bind_ok _ _ _ _ _ Ep), (bind_ok _ _ _ _ _ Ep'). split; reflexivity.
Qed.
End Stale.
