(** C61: several threads calling get_link_pose on one model. *)
From Coq Require Import String List Arith Lia Reals Lra.
From Verif Require Import Base Num Pose DataStructure Urdf Kin Wrapper Conc Spec_Robot Spec_Hist Spec_Load Decimal RealArith
  Pf_Base Pf_Data Inv Pf_FK Rep Pf_Reach Pf_Pose Pf_Hist Pf_Stale Pf_Conc Pf_Real Ex_Robot Thm_Pose Thm_Mimic.
Import ListNotations.
Local Open Scope nat_scope.

(** C61, a first part that holds: calls that do not overlap (for instance because the callers
    hold a lock) get the answers of the same calls made one after the other. *)
Theorem C61_calls_one_at_a_time_partial :
  forall (A : Arith) m ts k i q ans m' P,
    nth_error ts k = Some (mkT None (i :: q) ans) -> get_link_pose i m = (m', Ok P) ->
    exists n, schedule (repeat k n) m ts = Ok (m', list_set ts k (mkT None q (ans ++ [P]))).
Proof. intros. eapply solo_call; eauto. Qed.
Print Assumptions C61_calls_one_at_a_time_partial.

(** C61, a second part: when the poses of the links asked for have been queried before (and
    the root link is not among them), any number of threads under any schedule get the right
    answers in the right order, the model is left unchanged, and a thread is finished after
    three steps per call. *)
Section Remembered.
Context `{A : Arith}.

Lemma queried_cached ids : forall m0 m, Good m0 -> run (map Op_get_link_pose ids) m0 = Some m ->
  Query m0 m /\ (forall i, is_cached (tcache m0) i -> is_cached (tcache m) i) /\
  (forall i, In i ids -> i < length (links m0) /\ ((exists l, nth_error (links m0) i = Some l /\ l_parent l <> None) -> is_cached (tcache m) i)).
Proof.
  induction ids as [|i ids IH]; intros m0 m G E.
  - inversion E; subst. split; [now apply Query_refl|]. split; auto. intros i [].
  - cbn [map run exec] in E. unfold drop in E. destruct (Nat.lt_ge_cases i (length (links m0))) as [L|L].
    2:{ unfold bind in E. rewrite (get_link_pose_oob m0 i (proj1 G) L) in E. discriminate E. }
    destruct (get_link_pose_good m0 i G L) as [(m1 & P & E1 & HP & Q1)|(E1 & _)].
    2:{ unfold bind in E. rewrite E1 in E. discriminate E. }
    rewrite (bind_ok _ _ _ _ _ E1) in E. cbn [ret] in E. destruct (IH m1 m (proj1 (proj2 Q1)) E) as (Q2 & H1 & H2).
    destruct (query_caches m0 i m1 P (proj1 G) E1) as (C1 & C2). split; [eapply Query_trans; eauto|]. split; [auto|].
    assert (El : links m1 = links m0) by (destruct Q1 as ((s & c & ->) & _); reflexivity).
    intros j [<-|I]; [split; [exact L|]; intros X; apply H1, C2, X|]. rewrite <- El. now apply H2.
Qed.

End Remembered.

Theorem C61_remembered_poses_partial :
  forall (A : Arith) tinyxml text R root sorted jsorted ops m0 ids m,
    reached tinyxml text R root sorted jsorted ops m0 -> clean ops = true ->
    run (map Op_get_link_pose ids) m0 = Some m ->
    forall (qs : list (list nat)) (s : list nat),
      (forall q i, In q qs -> In i q -> In i ids /\ nth_error (get_link_names m) i <> Some root) ->
      exists ts, schedule s m (map caller qs) = Ok (m, ts) /\
        forall k q, nth_error qs k = Some q ->
          exists t, nth_error ts k = Some t /\
            Forall2 (fun i P => exists n, nth_error (get_link_names m) i = Some n /\ pose_at R root jsorted (after sorted jsorted ops) n P)
                    (firstn (length (t_answers t)) q) (t_answers t) /\
            (3 * length q <= count_occ Nat.eq_dec s k -> finished t /\ length (t_answers t) = length q).
Proof.
  intros A tinyxml text R root sorted jsorted ops m0 ids m Hr Hc E qs s Hq.
  destruct (reached_Rep _ _ _ _ _ _ _ _ Hr) as [HR HC]. specialize (HC Hc).
  assert (G0 : Good m0) by (split; auto; apply HR).
  destruct (queried_cached ids m0 m G0 E) as (Q & _ & Hi).
  assert (El : links m = links m0) by (destruct Q as ((? & ? & ->) & _); reflexivity).
  assert (En : get_link_names m = all_links sorted (after sorted jsorted ops)) by (rewrite <- (rep_all_links _ _ _ _ _ _ _ _ HR); unfold get_link_names; now rewrite El).
  set (f := fun i => match get_cache i (tcache m) with Ok (Some P) => P | _ => pose_clear end).
  assert (Hf : forall q i, In q qs -> In i q -> get_cache i (tcache m) = Ok (Some (f i))).
  { intros q i Iq Ii. destruct (Hq q i Iq Ii) as (I & N). destruct (Hi i I) as (L & X).
    destruct (nth_error (links m0) i) as [l|] eqn:Ei; [|apply nth_error_None in Ei; lia].
    destruct X as (P & HP).
    - exists l. split; auto. intros Hp. apply N. rewrite En, (rep_link_inv _ _ _ _ _ _ _ _ HR i l Ei). f_equal.
      destruct (nm_kind _ _ _ _ (rep_named _ _ _ _ _ _ _ _ HR) i l Ei) as [(_ & H)|[(? & ? & _ & _ & H & _)|(? & ? & _ & H)]]; [exact H| |];
        destruct H as (l' & p & lp & E1 & _ & E2 & _); congruence.
    - unfold f. now rewrite HP. }
  destruct (reading_schedule m f s qs (map caller qs)) as (ts & Es & F & Hl).
  { clear - Hf. induction qs as [|q qs IH]; constructor; [apply reading_caller; intros i I; apply (Hf q); simpl; auto | apply IH; intros; eapply Hf; simpl; eauto]. }
  exists ts. split; [exact Es|]. intros k q Ek.
  assert (X : exists t, nth_error ts k = Some t /\ reading m f q t).
  { clear - F Ek. revert k Ek. induction F as [|q0 t0 qs ts H F IH]; intros [|k] Ek; try discriminate; cbn in *; [inversion Ek; subst; eauto | eauto]. }
  destruct X as (t & Et & Rt). exists t. split; [exact Et|].
  destruct (reading_prefix m f q t Rt) as (rest & Ea). split.
  - assert (Y : t_answers t = map f (firstn (length (t_answers t)) q)).
    { rewrite <- firstn_map, Ea, firstn_app, Nat.sub_diag, firstn_all, firstn_O. now rewrite app_nil_r. }
    rewrite Y at 2. assert (Z : forall i, In i (firstn (length (t_answers t)) q) -> In i q).
    { intros i I. rewrite <- (firstn_skipn (length (t_answers t)) q). apply in_or_app. now left. }
    revert Z. generalize (firstn (length (t_answers t)) q). intros l Z. induction l as [|i l IH]; cbn [map]; constructor; [|apply IH; intros; apply Z; simpl; auto].
    assert (Iq : In q qs) by (eapply nth_error_In; eauto). assert (Ii : In i q) by (apply Z; simpl; auto).
    destruct (Hq q i Iq Ii) as (I & N). destruct (Hi i I) as (L & _).
    destruct (nth_error (links m0) i) as [l0|] eqn:Ei; [|apply nth_error_None in Ei; lia]. exists (l_name l0).
    rewrite En. split; [exact (rep_link_inv _ _ _ _ _ _ _ _ HR i l0 Ei)|].
    apply (rep_pose_of _ _ _ _ _ _ _ _ HR i l0 _ Ei). pose proof (proj2 (proj1 (proj2 Q)) i (f i) (Hf q i Iq Ii)) as HP.
    now apply (same_config_PoseOf m0 m i (f i) (proj1 Q)) in HP.
  - intros L. assert (E0 : nth_error (map caller qs) k = Some (caller q)) by (rewrite nth_error_map, Ek; reflexivity).
    pose proof (Hl k _ _ E0 Et) as Hlt. destruct (left_finished m f q t Rt) as (H1 & H2).
    + rewrite Hlt. unfold left, turns_of. cbn. lia.
    + split; [exact H1|]. rewrite H2. apply map_length.
Qed.
Print Assumptions C61_remembered_poses_partial.

(** two threads on the arm with revolute, prismatic and fixed joints *)
Example C61_remembered_example : exists m0 m, reached ex_tinyxml ex_text ex_R "base" ex_sorted ex_jsorted ex_ops m0 /\ clean ex_ops = true /\
  run (map Op_get_link_pose [3; 6; 2]) m0 = Some m /\
  (forall q i, In q [[3; 2]; [6; 3]] -> In i q -> In i [3; 6; 2] /\ nth_error (get_link_names m) i <> Some "base"%string).
Proof.
  destruct ex_run as (m0 & E0).
  assert (X : exists m, run (ex_ops ++ map Op_get_link_pose [3; 6; 2]) ex_m0 = Some m) by (apply is_some_ex; vm_compute; reflexivity).
  destruct X as (m & E). pose proof (ex_reached _ _ E) as Hr. destruct (reached_Rep _ _ _ _ _ _ _ _ Hr) as [HR _]. rewrite run_app, E0 in E. exists m0, m. split; [exact (ex_reached _ _ E0)|]. split; [reflexivity|].
  split; [exact E|]. rewrite (rep_all_links _ _ _ _ _ _ _ _ HR). unfold all_links. rewrite after_app, ex_after.
  intros q i [<-|[<-|[]]] [<-|[<-|[]]]; (split; [simpl; auto 10 | cbn; discriminate]).
Qed.

(** C61 is false in general.  On the telescope with its first joint at 1, one thread asks for
    the top link while another asks for the middle link: *)
Definition tele_ops : list op := [@Op_set_joint_angles RA [0] [1%R]].
Definition tele : KM := match run tele_ops mk_m0 with Some m => m | None => mk_m0 end.
Lemma tele_run : run tele_ops mk_m0 = Some tele.
Proof.
  assert (X : exists m, run tele_ops mk_m0 = Some m) by (apply is_some_ex; vm_compute; reflexivity). destruct X as (m & E). unfold tele. now rewrite E.
Qed.
Lemma tele_reached : reached mk_tinyxml ex_text mk_R "base" mk_sorted mk_jsorted tele_ops tele.
Proof. exact (mk_reached _ _ tele_run). Qed.
Lemma tele_after : after mk_sorted mk_jsorted tele_ops = mkAS [] [1%R; n0] pose_clear.
Proof. reflexivity. Qed.
Lemma tele_pose n P : pose_at mk_R "base" mk_jsorted (after mk_sorted mk_jsorted tele_ops) n P -> n <> "base"%string -> vx (position P) <> @n0 RA.
Proof.
  rewrite tele_after. unfold pose_at. cbn [as_added as_angles as_base]. intros H N. apply mk_fk in H.
  assert (Qj : by_name (jnames mk_jsorted) [1%R; n0] "j" = 1%R) by (unfold jnames, mk_jsorted; cbn [map]; rewrite mk_nj, mk_nk; reflexivity).
  assert (Qk : by_name (jnames mk_jsorted) [1%R; n0] "k" = n0) by (unfold jnames, mk_jsorted; cbn [map]; rewrite mk_nj, mk_nk; reflexivity).
  rewrite Qj, Qk in H. rewrite H. cbn [position vx].
  intros E. rnumin E. revert E.
  repeat (match goal with |- context [match ?s with EmptyString => _ | String _ _ => _ end] => destruct s as [|[[] [] [] [] [] [] [] []] s]; try congruence end); lra.
Qed.

(** the outcome of a schedule of two threads that both finish with one answer *)
Definition outcome (r : res (@KM RA * list thread)) : option (@Pose RA * @Pose RA) :=
  match r with
  | Ok (_, [t0; t1]) =>
      match t_pc t0, t_todo t0, t_answers t0, t_pc t1, t_todo t1, t_answers t1 with
      | None, [], [P0], None, [], [P1] => Some (P0, P1)
      | _, _, _, _, _, _ => None
      end
  | _ => None
  end.
Lemma outcome_inv r P0 P1 : outcome r = Some (P0, P1) ->
  exists m', r = Ok (m', [mkT None [] [P0]; mkT None [] [P1]]).
Proof.
  unfold outcome. destruct r as [[m' ts]| | |]; try discriminate. destruct ts as [|t0 [|t1 [|]]]; try discriminate.
  destruct t0 as [[?|] [|] [|? [|]]], t1 as [[?|] [|] [|? [|]]]; try discriminate. cbn. intros [= -> ->]. eauto.
Qed.

(** the first thread has pushed both relative poses; the second one resets the stack; the
    first one finds it empty and returns the base pose as the pose of the top link *)
Definition reset_schedule : list nat := repeat 0 10 ++ repeat 1 3 ++ repeat 0 2 ++ repeat 1 12.
(** the first thread has marked the middle link as cached but not yet stored its pose; the
    second one takes what was stored there before *)
Definition mark_schedule : list nat := repeat 0 12 ++ repeat 1 3 ++ repeat 0 3.

Theorem C61_concurrent_queries_refuted :
  exists tinyxml text R root sorted jsorted ops m,
    @reached RA tinyxml text R root sorted jsorted ops m /\ clean ops = true /\
    (exists s m' i0 i1 n0 P0 P1,
       schedule s m [caller [i0]; caller [i1]] = Ok (m', [mkT None [] [P0]; mkT None [] [P1]]) /\
       nth_error (get_link_names m) i0 = Some n0 /\
       (exists P, pose_at R root jsorted (after sorted jsorted ops) n0 P) /\
       ~ pose_at R root jsorted (after sorted jsorted ops) n0 P0) /\
    (exists s m' i n P0 P1,
       schedule s m [caller [i]; caller [i]] = Ok (m', [mkT None [] [P0]; mkT None [] [P1]]) /\
       nth_error (get_link_names m) i = Some n /\
       (exists P, pose_at R root jsorted (after sorted jsorted ops) n P) /\ ~ pose_at R root jsorted (after sorted jsorted ops) n P1).
Proof.
  exists mk_tinyxml, ex_text, mk_R, "base"%string, mk_sorted, mk_jsorted, tele_ops, tele.
  pose proof tele_reached as Hr. split; [exact Hr|]. split; [reflexivity|].
  destruct (C01_link_pose_is_chain_product _ _ _ _ _ _ _ _ _ Hr eq_refl) as (En & Hex & _).
  assert (Al : all_links mk_sorted (after mk_sorted mk_jsorted tele_ops) = ["base"; "mid"; "top"]%string) by (rewrite tele_after; reflexivity).
  split.
  - assert (X : option_map (fun PP => vx (position (fst PP))) (outcome (schedule reset_schedule tele [caller [2]; caller [1]])) = Some (@n0 RA)) by (vm_compute; reflexivity).
    destruct (outcome (schedule reset_schedule tele [caller [2]; caller [1]])) as [[P0 P1]|] eqn:Eo; [|discriminate X].
    cbn [option_map fst] in X. apply outcome_inv in Eo. destruct Eo as (m' & Es). exists reset_schedule, m', 2, 1, "top"%string, P0, P1.
    split; [exact Es|]. split; [rewrite En, Al; reflexivity|]. split; [destruct (Hex "top"%string) as (P & HP & _); [rewrite Al; simpl; auto | eauto]|].
    intros HP. apply (tele_pose _ _ HP); [discriminate|]. congruence.
  - assert (X : option_map (fun PP => vx (position (snd PP))) (outcome (schedule mark_schedule tele [caller [1]; caller [1]])) = Some (@n0 RA)) by (vm_compute; reflexivity).
    destruct (outcome (schedule mark_schedule tele [caller [1]; caller [1]])) as [[P0 P1]|] eqn:Eo; [|discriminate X].
    cbn [option_map snd] in X. apply outcome_inv in Eo. destruct Eo as (m' & Es). exists mark_schedule, m', 1, "mid"%string, P0, P1.
    split; [exact Es|]. split; [rewrite En, Al; reflexivity|]. split.
    + destruct (Hex "mid"%string) as (P & HP & _); [rewrite Al; simpl; auto | eauto].
    + intros HP. apply (tele_pose _ _ HP); [discriminate|]. congruence.
Qed.
Print Assumptions C61_concurrent_queries_refuted.
