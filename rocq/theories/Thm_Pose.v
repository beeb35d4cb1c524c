(** C01, C03, C04, C05, C08: poses of links. *)
From Coq Require Import String List Arith Lia Bool Permutation.
From Verif Require Import Base Num Pose DataStructure Urdf Kin Wrapper Spec_Robot Spec_Hist Spec_Load Spec_Jac
  Pf_Base Pf_Data Inv Pf_FK Pf_Frame Pf_Rp Rep Pf_Ops Pf_Name Pf_Reach Pf_Jac Pf_Safe Pf_Pose Pf_Local RealArith Ex_Robot.
Import ListNotations.
Local Open Scope m_scope.

Lemma reached_length `{A : Arith} R sorted jsorted : ordered R sorted jsorted -> length sorted = length (r_links R).
Proof. intros O. apply Permutation_length, O. Qed.

Lemma NoDup_app_disj {B} (l l' : list B) x : NoDup (l ++ l') -> In x l -> In x l' -> False.
Proof.
  induction l as [|a l IH]; simpl; intros ND I I'; [tauto|]. inversion ND; subst.
  destruct I as [->|I]; [|now apply IH]. apply H1. apply in_or_app. now right.
Qed.

(** C01.  Every link has exactly one pose by the URDF semantics; whatever get_link_pose
    returns is that pose; and it does return when the link is at most as many joints below
    the root as the document has links. *)
Theorem C01_link_pose_is_chain_product :
  forall (A : Arith) tinyxml text R root sorted jsorted ops m,
    reached tinyxml text R root sorted jsorted ops m -> clean ops = true ->
    let s := after sorted jsorted ops in
    get_link_names m = all_links sorted s /\
    (forall n, In n (all_links sorted s) -> exists! P, pose_at R root jsorted s n P) /\
    (forall i n, nth_error (all_links sorted s) i = Some n ->
       (forall m' P, get_link_pose i m = (m', Ok P) -> pose_at R root jsorted s n P) /\
       (forall d, levels (r_joints R) root (as_added s) n d -> d <= length (r_links R) ->
          exists m' P, get_link_pose i m = (m', Ok P))).
Proof.
  intros A tinyxml text R root sorted jsorted ops m Hr Hc s.
  destruct (reached_Rep _ _ _ _ _ _ _ _ Hr) as [HR HC]. fold s in HR. specialize (HC Hc).
  assert (G : Good m) by (split; auto; apply HR).
  split; [exact (rep_all_links _ _ _ _ _ _ _ _ HR)|]. split.
  - intros n I. destruct (rep_pose_ex _ _ _ _ _ _ _ _ HR n I) as (P & HP). exists P. split; auto.
    intros P' HP'. exact (rep_pose_det _ _ _ _ _ _ _ _ HR n P P' HP HP').
  - intros i n E. split.
    + intros m' P X. destruct (get_link_pose_ok m i m' P G X) as [HP _]. exact (rep_pose_of' _ _ _ _ _ _ _ _ HR i n P E HP).
    + intros d L B. apply (rep_levels _ _ _ _ _ _ _ _ HR i n d E) in L.
      destruct (get_link_pose_safe m i d (proj1 G) L) as [X|(_ & X)]; auto.
      rewrite (rep_cap_links _ _ _ _ _ _ _ _ HR), (reached_length R sorted jsorted (proj1 (proj2 Hr))) in X. lia.
Qed.
Print Assumptions C01_link_pose_is_chain_product.

(** the hypotheses are met by a robot with revolute, prismatic and fixed joints after moving
    joints and base, queries, add_new_link and solve_fk; the camera link is 4 joints deep *)
Example C01_example :
  exists m, reached ex_tinyxml ex_text ex_R "base" ex_sorted ex_jsorted ex_ops m /\ clean ex_ops = true /\
    nth_error (all_links ex_sorted (after ex_sorted ex_jsorted ex_ops)) 6 = Some "camera"%string /\
    (exists m' P, get_link_pose 6 m = (m', Ok P)) /\
    levels (r_joints ex_R) "base" (as_added (after ex_sorted ex_jsorted ex_ops)) "camera" 4.
Proof.
  destruct ex_run as (m & E). exists m. split; [exact (ex_reached _ _ E)|]. split; [reflexivity|]. split; [reflexivity|]. split.
  - apply (observe_answer ex_ops (get_link_pose 6) m E). vm_compute. reflexivity.
  - assert (Ic : exists T, In ("camera"%string, "tool"%string, T) (as_added (after ex_sorted ex_jsorted ex_ops))).
    { apply (in_fst ("camera"%string, "tool"%string) _ [("l1_com", "l1"); ("l2_com", "l2"); ("camera", "tool")]%string); [vm_compute; reflexivity|].
      simpl; auto. }
    destruct Ic as (T & Ic). eapply levels_added; [exact Ic|].
    assert (I : forall k, k < 3 -> In (ex_j k) (r_joints ex_R)).
    { intros k L. rewrite ex_joints. destruct k as [|[|[|k]]]; [left | right; left | right; right; left | lia]; reflexivity. }
    replace "tool"%string with (uj_child (ex_j 2)) by apply ex_child. apply levels_joint; [apply I; lia|].
    rewrite ex_parent. cbn [nth]. replace "l2"%string with (uj_child (ex_j 0)) by apply ex_child. apply levels_joint; [apply I; lia|].
    rewrite ex_parent. cbn [nth]. replace "l1"%string with (uj_child (ex_j 1)) by apply ex_child. apply levels_joint; [apply I; lia|].
    rewrite ex_parent. constructor.
Qed.

(** C03.  If a query gives [P] on the model with its cache emptied, it gives the same [P]
    on the model as it is; and two clean histories that end in the same configuration get
    the same answers to pose and Jacobian queries.  Equality is on the nose, for any
    arithmetic. *)
Theorem C03_cache_transparency :
  forall (A : Arith) tinyxml text R root sorted jsorted ops m,
    reached tinyxml text R root sorted jsorted ops m -> clean ops = true ->
    (forall i m' P, bind clear_cache (fun _ => get_link_pose i) m = (m', Ok P) ->
       exists m'', get_link_pose i m = (m'', Ok P)) /\
    (forall ops2 m2, reached tinyxml text R root sorted jsorted ops2 m2 -> clean ops2 = true ->
       after sorted jsorted ops2 = after sorted jsorted ops ->
       (forall i m' m2' P P2, get_link_pose i m = (m', Ok P) -> get_link_pose i m2 = (m2', Ok P2) -> P2 = P) /\
       (forall i jids rt wb m' m2' J J2, (forall k, In k jids -> k < length jsorted) ->
          get_jacobian i jids rt wb m = (m', Ok J) -> get_jacobian i jids rt wb m2 = (m2', Ok J2) -> J2 = J)).
Proof.
  intros A tinyxml text R root sorted jsorted ops m Hr Hc.
  destruct (reached_Rep _ _ _ _ _ _ _ _ Hr) as [HR HC]. specialize (HC Hc).
  assert (G : Good m) by (split; auto; apply HR). split.
  - intros i m' P X. unfold clear_cache in X. rewrite bind_assoc, bind_get, bind_put in X.
    set (mc := set_tcache (cache_clear (tcache m)) m) in *.
    assert (Gc : Good mc) by (split; [apply WF_clear, HR | apply CacheOK_clear, HR]).
    destruct (get_link_pose_ok mc i m' P Gc X) as [HP _].
    assert (Li : i < length (links m)) by exact (pose_of_lt _ _ _ _ _ HP).
    destruct (wf_tree m (proj1 G) i Li) as (d & D).
    assert (Ld : d <= length (stack_data (tstack m))).
    { apply (get_link_pose_blank mc i d m' P (proj1 Gc)); auto.
      intros k Lk. apply get_cache_blank; [apply (wf_cache m (proj1 G))|]. rewrite (proj2 (wf_cache m (proj1 G))). exact Lk. }
    destruct (get_link_pose_cases m i d (proj1 G) (proj2 G) D) as [(s & c & P' & E & HP' & _)|[(E & H)|(P' & E & HP')]]; [|lia|];
      eexists; rewrite E; f_equal; f_equal; eapply pose_of_det; [exact HP' | exact HP | exact HP' | exact HP].
  - intros ops2 m2 Hr2 Hc2 Ea. destruct (reached_Rep _ _ _ _ _ _ _ _ Hr2) as [HR2 HC2]. specialize (HC2 Hc2).
    rewrite Ea in HR2. assert (G2 : Good m2) by (split; auto; apply HR2). split.
    + intros i m' m2' P P2 X X2. destruct (get_link_pose_ok m i m' P G X) as [HP _]. destruct (get_link_pose_ok m2 i m2' P2 G2 X2) as [HP2 _].
      destruct (lt_nth_error _ _ (pose_of_lt _ _ _ _ _ HP)) as (l & El).
      pose proof (rep_link_inv _ _ _ _ _ _ _ _ HR i l El) as En.
      exact (rep_pose_det _ _ _ _ _ _ _ _ HR _ _ _ (rep_pose_of' _ _ _ _ _ _ _ _ HR2 i _ P2 En HP2) (rep_pose_of' _ _ _ _ _ _ _ _ HR i _ P En HP)).
    + intros i jids rt wb m' m2' J J2 Hk X X2. exact (jacobian_det _ _ _ _ _ _ _ _ _ _ _ _ _ _ _ _ _ HR HR2 G G2 Hk X X2).
Qed.
Print Assumptions C03_cache_transparency.

(** two different histories that end in the same configuration *)
Example C03_example :
  let ops2 := [Op_add_new_link "camera" 3 (V3 n0 n0 n1) v_clear; Op_get_link_pose 6;
               Op_set_base_pose (mkPose (V3 n1 n0 n0) q_clear); Op_set_joint_angles [1; 0]%nat [n0; n1]; Op_get_link_pose 6] in
  after ex_sorted ex_jsorted ops2 = after ex_sorted ex_jsorted ex_ops /\ clean ops2 = true /\
  exists m2, reached ex_tinyxml ex_text ex_R "base" ex_sorted ex_jsorted ops2 m2.
Proof.
  intros ops2. split; [rewrite !ex_after; reflexivity|]. split; [reflexivity|].
  assert (X : exists m, run ops2 ex_m0 = Some m) by (apply is_some_ex; vm_compute; reflexivity).
  destruct X as (m & E). exists m. exact (ex_reached _ _ E).
Qed.

(** C04.  On any object at all, whatever the outcome, a query changes nothing but the
    cached poses and the scratch stack. *)
Definition only_scratch_changed `{A : Arith} (m m' : KM) : Prop :=
  root_link_id m' = root_link_id m /\ links m' = links m /\ link_ids m' = link_ids m /\
  com_dummy_links m' = com_dummy_links m /\ joints m' = joints m /\ joint_ids m' = joint_ids m /\
  joint_angles m' = joint_angles m /\ base_pose m' = base_pose m /\ rptable m' = rptable m /\
  num_dof m' = num_dof m /\ total_mass m' = total_mass m.

Theorem C04_queries_do_not_change_configuration :
  forall (A : Arith) (m : KM),
    (forall i, only_scratch_changed m (fst (get_link_pose i m))) /\
    (forall i jids rt wb, only_scratch_changed m (fst (get_jacobian i jids rt wb m))) /\
    only_scratch_changed m (fst (get_com m)) /\
    (forall jids wb, only_scratch_changed m (fst (get_com_jacobian jids wb m))) /\
    only_scratch_changed m (fst (get_total_inertia_matrix m)) /\
    (forall jids, fst (get_joint_angles jids m) = m) /\ (forall names, fst (get_link_ids names m) = m) /\
    (forall names, fst (get_joint_ids names m) = m) /\ (forall jids, fst (get_joint_position_limits jids m) = m) /\
    fst (w_get_base_pose m) = m /\ fst (w_get_root_link_name m) = m.
Proof.
  intros A m.
  assert (X : forall m', scratch_only m m' -> only_scratch_changed m m').
  { intros m' (s & c & -> & _). repeat split. }
  repeat split; intros; try reflexivity; try (apply X; first [apply query_get_link_pose | apply query_get_jacobian | apply query_get_com
     | apply query_get_com_jacobian | apply query_get_total_inertia_matrix]).
  - unfold w_get_root_link_name. rewrite bind_get. unfold bind, lift. destruct (vget (links m) (root_link_id m)); reflexivity.
Qed.
Print Assumptions C04_queries_do_not_change_configuration.

(** a query that does change the cache *)
Definition fills_cache `{A : Arith} (i : nat) (m : KM) : option unit :=
  match get_link_pose i m with
  | (m', Ok P) => match get_cache i (tcache m), get_cache i (tcache m') with Ok None, Ok (Some P') => Some tt | _, _ => None end
  | _ => None
  end.
Lemma fills_cache_ok `{A : Arith} i m : is_some (fills_cache i m) = true ->
  exists m' P P', get_link_pose i m = (m', Ok P) /\ get_cache i (tcache m) = Ok None /\ get_cache i (tcache m') = Ok (Some P').
Proof.
  unfold fills_cache. destruct (get_link_pose i m) as [m' [P|e|u|]]; try discriminate.
  destruct (get_cache i (tcache m)) as [[P0|]|e|u|]; try discriminate.
  destruct (get_cache i (tcache m')) as [[P'|]|e|u|] eqn:E; try discriminate. intros _. exists m', P, P'. auto.
Qed.
Example C04_example : exists m' P P', get_link_pose 3 ex_m0 = (m', Ok P) /\
  get_cache 3 (tcache ex_m0) = Ok None /\ get_cache 3 (tcache m') = Ok (Some P').
Proof. apply fills_cache_ok. vm_compute. reflexivity. Qed.

(** C05.  Setting the angles of some joints does not move a link that has none of them
    between itself and the root. *)
Theorem C05_joint_motion_is_local :
  forall (A : Arith) tinyxml text R root sorted jsorted ops m,
    reached tinyxml text R root sorted jsorted ops m -> clean ops = true ->
    forall i n jids angles m1 m2 m3 P P',
      nth_error (get_link_names m) i = Some n ->
      (forall k j, In k jids -> nth_error jsorted k = Some j -> ~ carries (r_joints R) (as_added (after sorted jsorted ops)) j n) ->
      get_link_pose i m = (m1, Ok P) ->
      set_joint_angles jids angles m1 = (m2, Ok tt) ->
      get_link_pose i m2 = (m3, Ok P') ->
      P' = P.
Proof.
  intros A tinyxml text R root sorted jsorted ops m Hr Hc i n jids angles m1 m2 m3 P P' En Hj X1 X2 X3.
  destruct (reached_Rep _ _ _ _ _ _ _ _ Hr) as [HR HC]. specialize (HC Hc). set (s := after sorted jsorted ops) in *.
  assert (G : Good m) by (split; auto; apply HR).
  rewrite (rep_all_links _ _ _ _ _ _ _ _ HR) in En.
  destruct (get_link_pose_ok m i m1 P G X1) as [HP Q1]. apply (rep_pose_of' _ _ _ _ _ _ _ _ HR i n P En) in HP.
  assert (R1 : Rep R root sorted jsorted (massive sorted) (mass_sum (massive sorted)) s m1).
  { apply (Rep_scratch _ _ _ _ _ _ s m m1 HR). pose proof (get_link_pose_frame i m) as F. now rewrite X1 in F. }
  destruct (exec_Rep _ _ _ _ _ _ (Op_set_joint_angles jids angles) s m1 m2 (Ok tt) R1 X2 I) as [R2 C2].
  specialize (C2 true (fun _ => proj2 (proj1 (proj2 Q1))) eq_refl).
  assert (G2 : Good m2) by (split; auto; apply R2).
  destruct (get_link_pose_ok m2 i m3 P' G2 X3) as [HP' _].
  apply (rep_pose_of' _ _ _ _ _ _ _ _ R2 i n P' En) in HP'.
  destruct Hr as (L & O & _). pose proof (ld_tree _ _ _ _ L) as T.
  apply (rep_pose_det _ _ _ _ _ _ _ _ R2 n P' P HP').
  apply set_angles_local; auto.
  - unfold jnames. apply (jnames_nodup _ _ _ _ _ _ _ _ HR).
  - intros. apply T.
  - intros j Ij. now apply (ord_joints _ _ _ O).
Qed.
Print Assumptions C05_joint_motion_is_local.

(** in the example robot, joint j2 (id 1) is not above link l1 (id 1) *)
Example C05_example : nth_error ex_jsorted 1 = Some (ex_j 0) /\ nth_error (get_link_names ex_m0) 1 = Some "l1"%string /\
  ~ carries (r_joints ex_R) (as_added (after ex_sorted ex_jsorted [])) (ex_j 0) "l1".
Proof.
  split; [reflexivity|]. split; [vm_compute; reflexivity|].
  apply (not_carries _ _ _ ["l1"; "base"]%string _ [("l1_com", "l1"); ("l2_com", "l2")]%string _ ex_edges);
    [rewrite ex_after | | | rewrite ex_child |]; reflexivity.
Qed.

(** C08, the part that holds.  After any history of calls (stale cache or not), a pose
    query for a link that has at most as many joints above it as the document has links
    succeeds; the only other outcome is an access outside the scratch stack.  If every
    added link was attached to a link of the document, all pose queries succeed. *)
Theorem C08_pose_memory_safety_partial :
  forall (A : Arith) tinyxml text R root sorted jsorted ops m,
    reached tinyxml text R root sorted jsorted ops m ->
    (forall i n d, nth_error (get_link_names m) i = Some n ->
       levels (r_joints R) root (as_added (after sorted jsorted ops)) n d ->
       (exists m' P, get_link_pose i m = (m', Ok P)) \/
       (get_link_pose i m = (m, UB OutOfBounds) /\ length (r_links R) < d)) /\
    ((forall x p T, In (x, p, T) (as_added (after sorted jsorted ops)) -> In p (link_names R)) ->
       forall i, i < length (get_link_names m) -> exists m' P, get_link_pose i m = (m', Ok P)).
Proof.
  intros A tinyxml text R root sorted jsorted ops m Hr.
  destruct (reached_Rep _ _ _ _ _ _ _ _ Hr) as [HR _]. destruct Hr as (L & O & _).
  assert (Ls : length sorted = length (r_links R)) by apply (Permutation_length (ord_links _ _ _ O)).
  rewrite (rep_all_links _ _ _ _ _ _ _ _ HR). split.
  - intros i n d En Hl. apply (rep_levels _ _ _ _ _ _ _ _ HR i n d En) in Hl.
    destruct (get_link_pose_safe m i d (rep_wf _ _ _ _ _ _ _ _ HR) Hl) as [H|[H H']]; [now left | right].
    rewrite (rep_cap_links _ _ _ _ _ _ _ _ HR) in H'. split; [exact H | lia].
  - intros Hp i Li. destruct (lt_nth_error _ _ Li) as (n & En).
    pose proof (rep_wf _ _ _ _ _ _ _ _ HR) as W.
    destruct (rep_link _ _ _ _ _ _ _ _ HR i n En) as (l & El & _).
    destruct (wf_tree m W i (nth_error_lt _ _ _ El)) as (d & D).
    destruct (get_link_pose_safe m i d W D) as [H|[_ H]]; [exact H | exfalso].
    apply (rep_levels _ _ _ _ _ _ _ _ HR i n d En) in D.
    rewrite (rep_cap_links _ _ _ _ _ _ _ _ HR) in H.
    enough (d <= length (r_links R)) by lia.
    eapply levels_added_bound; [exact (ld_tree _ _ _ _ L) | | exact D].
    intros x p T I. split; [|eapply Hp; eauto].
    pose proof (rep_all_nodup _ _ _ _ _ _ _ _ HR) as ND. unfold all_links in ND.
    intros Ix. apply (in_map (fun a => fst (fst a))) in I. cbn [fst] in I.
    assert (Ix' : In x (map fst sorted)).
    { apply in_map_iff in Ix. destruct Ix as (l0 & <- & Ix). apply in_map.
      apply (Permutation_in _ (Permutation_sym (ord_links _ _ _ O))). exact Ix. }
    exact (NoDup_app_disj _ _ x ND Ix' I).
Qed.
Print Assumptions C08_pose_memory_safety_partial.

(** the camera of the example has 4 levels, the document 4 links, and all added links
    attach to links of the document *)
Example C08_example : exists m, reached ex_tinyxml ex_text ex_R "base" ex_sorted ex_jsorted ex_ops m /\
  forall x p T, In (x, p, T) (as_added (after ex_sorted ex_jsorted ex_ops)) -> In p (link_names ex_R).
Proof.
  destruct ex_run as (m & E). exists m. split; [exact (ex_reached _ _ E)|].
  intros x p T I. rewrite ex_links. apply (in_map fst) in I.
  assert (N : map fst (as_added (after ex_sorted ex_jsorted ex_ops)) = [("l1_com", "l1"); ("l2_com", "l2"); ("camera", "tool")]%string)
    by (rewrite ex_after; reflexivity).
  rewrite N in I. cbn [fst] in I. simpl. destruct I as [I|[I|[I|[]]]]; inversion I; tauto.
Qed.

(** C08, refuted in general: add a link below the tool and another one below that, then ask
    for the pose of the last one. *)
Theorem C08_pose_memory_safety_refuted :
  exists tinyxml text R root sorted jsorted ops m i,
    @reached RA tinyxml text R root sorted jsorted ops m /\ i < length (get_link_names m) /\
    snd (get_link_pose i m) = UB OutOfBounds.
Proof.
  set (ops := [Op_add_new_link "c1" 3 v_clear v_clear; Op_add_new_link "c2" 6 v_clear v_clear]).
  assert (X : exists m, run ops ex_m0 = Some m) by (apply is_some_ex; vm_compute; reflexivity).
  destruct X as (m & E).
  exists ex_tinyxml, ex_text, ex_R, "base"%string, ex_sorted, ex_jsorted, ops, m, 7%nat.
  split; [exact (ex_reached _ _ E)|].
  pose (f := fun m : KM => match snd (get_link_pose 7 m) with UB OutOfBounds => if Nat.ltb 7 (length (get_link_names m)) then Some tt else None | _ => None end).
  assert (Y : exists b, f m = Some b) by (apply (observe_ok ops f m E); vm_compute; reflexivity).
  destruct Y as (b & Y). clear E. unfold f in Y. split.
  - destruct (Nat.ltb_spec 7 (length (get_link_names m))); auto. destruct (snd _) as [| |[]|]; discriminate.
  - destruct (snd _) as [P|e|[]|]; try discriminate. reflexivity.
Qed.
Print Assumptions C08_pose_memory_safety_refuted.
