(** Memory safety of the queries, whatever the cached poses are. *)
From Coq Require Import String List Arith Lia Bool.
From Verif Require Import Base Num Pose DataStructure Urdf Kin Wrapper Pf_Base Pf_Data Inv Pf_FK Pf_Frame Pf_Rp Pf_Jac.
Import ListNotations.
Local Open Scope m_scope.

Section Safe.
Context `{A : Arith}.

Lemma walk_up_safe m : WF m ->
  forall fuel h d stk, Depth (links m) h d -> stack_wf stk ->
  length (stack_data stk) - stack_idx stk < fuel ->
  (forall x, In x (stack_list stk) -> fst x < length (links m)) ->
  (exists stk' tf, walk_up fuel m h stk = Ok (stk', tf) /\ stack_wf stk' /\
      forall x, In x (stack_list stk') -> fst x < length (links m)) \/
  (walk_up fuel m h stk = UB OutOfBounds /\ length (stack_data stk) < stack_idx stk + d).
Proof.
  intros W. induction fuel as [|fuel IH]; intros h d stk D SW F In0; [lia|].
  destruct D as [h l E1 E2 | h l p d E1 E2 D].
  - left. exists stk, (base_pose m). cbn [walk_up]. unfold vget. rewrite E1. cbn [rbind]. rewrite E2. auto.
  - cbn [walk_up]. rewrite (proj2 (vget_ok _ _ _) E1). cbn [rbind]. rewrite E2.
    rewrite (wf_ids m W h l E1).
    destruct (wf_cache m W) as [CW CS].
    assert (Lh : h < length (links m)) by (eapply nth_error_lt; eauto).
    destruct (get_cache_lt (tcache m) h CW ltac:(lia)) as (o & Eo). rewrite Eo. cbn [rbind].
    destruct o as [tf|]; [left; exists stk, tf; auto|].
    destruct (wf_joint m W h l p E1 E2) as (j & Ej & Hj).
    destruct (tf_plink_total m h j (wf_angles m W) Hj) as (t & Et).
    rewrite Ej. cbn [deref rbind]. rewrite Et. cbn [rbind].
    destruct (Nat.lt_ge_cases (stack_idx stk) (length (stack_data stk))) as [Ls|Ls].
    + destruct (stack_push_total stk (h, t) Ls) as (stk1 & Es). rewrite Es. cbn [rbind].
      destruct (stack_push_ok stk (h, t) stk1 Es SW) as (SW1 & SL1 & SD1 & _ & SI1).
      destruct (IH p d stk1 D SW1 ltac:(lia)) as [R | (R1 & R2)]; [| now left |].
      * intros x I. rewrite SL1 in I. apply in_app_or in I. destruct I as [I|[<-|[]]]; auto.
      * right. split; auto. lia.
    + right. rewrite stack_push_full by auto. split; auto. lia.
Qed.

Lemma unwind_safe m : forall path n stk c tf, stack_wf stk -> stack_list stk = path ->
  length path <= n -> cache_wf c -> cache_size c = length (links m) ->
  (forall x, In x path -> fst x < length (links m)) ->
  exists stk' c' P, unwind n stk c tf = Ok (stk', c', P).
Proof.
  intros path. induction path as [|[k t] path IH] using rev_ind; intros n stk c tf SW SL Ln CW CS In0.
  - exists stk, c, tf. assert (E : stack_empty stk = true) by (apply stack_empty_list; auto).
    destruct n; simpl; rewrite E; auto.
  - rewrite app_length in Ln. simpl in Ln. destruct n as [|n]; [lia|].
    destruct (stack_top_pop stk path (k, t) SW SL) as (E1 & stk1 & E2 & SW1 & SL1 & SD1 & _).
    cbn [unwind].
    assert (E : stack_empty stk = false).
    { destruct (stack_empty stk) eqn:E; auto. apply stack_empty_list in E; auto. rewrite SL in E.
      destruct path; discriminate. }
    rewrite E, E1. cbn [rbind]. rewrite E2. cbn [rbind fst snd].
    assert (Lk : k < cache_size c).
    { rewrite CS. apply (In0 (k, t)). apply in_or_app. right. simpl. auto. }
    pose proof (set_cache_lt c k (pose_transform tf t) CW Lk) as Es. rewrite Es. cbn [rbind].
    destruct (set_cache_wf _ _ _ _ CW Es) as [CW1 CS1].
    apply IH; auto; try lia. intros x I. apply In0, in_or_app. auto.
Qed.

Lemma get_link_pose_safe m i d : WF m -> Depth (links m) i d ->
  (exists m' P, get_link_pose i m = (m', Ok P)) \/
  (get_link_pose i m = (m, UB OutOfBounds) /\ length (stack_data (tstack m)) < d).
Proof.
  intros W D. destruct (wf_cache m W) as [CW CS].
  assert (Li : i < length (links m)) by (eapply Depth_lt; eauto).
  unfold get_link_pose. rewrite bind_get.
  destruct (get_cache_lt (tcache m) i CW ltac:(lia)) as (o & Eo).
  rewrite (bind_lift_ok _ _ _ _ Eo). destruct o as [P|]; [left; eexists _, _; reflexivity|].
  unfold get_link_pose_inner. set (stk := stack_reset (tstack m)).
  assert (SW : stack_wf stk) by (unfold stack_wf; simpl; lia).
  destruct (walk_up_safe m W (S (length (stack_data stk))) i d stk D SW ltac:(lia)) as [(stk' & tf & R1 & R2 & R3) | (R1 & R2)].
  - simpl. tauto.
  - left. rewrite R1. pose proof (stack_list_length stk' R2) as Hl.
    destruct (unwind_safe m (stack_list stk') (stack_size stk') stk' (tcache m) tf R2 eq_refl) as (s & c & P & U1); auto.
    + unfold stack_size. lia.
    + rewrite U1. eexists _, _. reflexivity.
  - right. rewrite R1. split; auto.
Qed.

(** with an empty cache the whole path to the root goes on the stack *)
Lemma walk_up_blank m : WF m -> (forall i, i < length (links m) -> get_cache i (tcache m) = Ok None) ->
  forall fuel h d stk r, Depth (links m) h d -> stack_idx stk <= length (stack_data stk) ->
  walk_up fuel m h stk = Ok r -> stack_idx stk + d <= length (stack_data stk).
Proof.
  intros W C. induction fuel as [|fuel IH]; intros h d stk r D L E; [discriminate|].
  destruct D as [h l E1 E2|h l p d E1 E2 D]; [lia|].
  assert (Lh : h < length (links m)) by (eapply nth_error_lt; eauto).
  cbn [walk_up] in E. rewrite (proj2 (vget_ok _ _ _) E1) in E. cbn [rbind] in E.
  rewrite E2, (wf_ids m W h l E1), (C h Lh) in E. cbn [rbind] in E.
  apply rbind_ok in E. destruct E as (pj & _ & E). apply rbind_ok in E. destruct E as (t & _ & E).
  apply rbind_ok in E. destruct E as (stk1 & Es & E).
  unfold stack_push in Es. apply rbind_ok in Es. destruct Es as (dd & Ev & Es). apply vset_ok in Ev. destruct Ev as [Ls ->].
  inversion Es; subst stk1. apply (IH p d _ _ D) in E; cbn [stack_data stack_idx] in *; rewrite list_set_length in *; lia.
Qed.

Lemma get_link_pose_blank m i d m' P : WF m -> (forall i, i < length (links m) -> get_cache i (tcache m) = Ok None) ->
  Depth (links m) i d -> get_link_pose i m = (m', Ok P) -> d <= length (stack_data (tstack m)).
Proof.
  intros W C D X. assert (Li : i < length (links m)) by (eapply Depth_lt; eauto).
  unfold get_link_pose in X. rewrite bind_get, (bind_lift_ok _ _ _ _ (C i Li)) in X. unfold get_link_pose_inner in X.
  destruct (walk_up _ m i _) as [r|e|u|] eqn:Ew; try discriminate X.
  apply (walk_up_blank m W C _ i d _ _ D) in Ew; simpl in *; lia.
Qed.

(** ** Everything a query may index is in range *)
Definition Fit (m : KM) : Prop := WF m /\ StackOK m.

Lemma Fit_scratch m m' : scratch_only m m' -> Fit m -> Fit m'.
Proof.
  intros Q (W & S). split; [eapply scratch_only_WF; eauto|]. destruct Q as (s & c & -> & L & _).
  intros i d D. simpl in *. rewrite L. apply (S i d D).
Qed.

Definition safe {B} (I : KM -> Prop) (f : M KM B) (Post : B -> Prop) : Prop :=
  forall m, I m -> exists m' b, f m = (m', Ok b) /\ scratch_only m m' /\ Post b.

Definition stable (I : KM -> Prop) : Prop := forall m m', scratch_only m m' -> I m -> I m'.

Lemma safe_bind {B C} (I : KM -> Prop) (x : M KM B) (f : B -> M KM C) P Q :
  stable I -> safe I x P -> (forall b, P b -> safe I (f b) Q) -> safe I (bind x f) Q.
Proof.
  intros St Hx Hf m Hm. destruct (Hx m Hm) as (m1 & b & E1 & S1 & P1).
  destruct (Hf b P1 m1 (St _ _ S1 Hm)) as (m2 & c & E2 & S2 & P2).
  exists m2, c. rewrite (bind_ok _ _ _ _ _ E1). split; auto. split; auto. eapply scratch_only_trans; eauto.
Qed.

Lemma safe_ret {B} I (b : B) (P : B -> Prop) : P b -> safe I (ret b) P.
Proof. intros H m _. exists m, b. split; auto. split; auto. apply scratch_only_refl. Qed.

Lemma safe_lift {B} I (r : res B) b (P : B -> Prop) : r = Ok b -> P b -> safe I (lift r) P.
Proof. intros -> H. now apply safe_ret. Qed.

Lemma safe_for_each {B C} I (l : list B) (body : B -> C -> M KM C) (P : C -> Prop) :
  stable I -> (forall b acc, In b l -> P acc -> safe I (body b acc) P) -> forall acc, P acc -> safe I (for_each l acc body) P.
Proof.
  intros St. induction l as [|b l IH]; intros H acc Pa; [now apply safe_ret|].
  cbn [for_each]. eapply safe_bind; auto; [apply H; simpl; auto|]. intros acc' Pa'. apply IH; auto. intros; apply H; simpl; auto.
Qed.

Lemma safe_pose (I : KM -> Prop) i : (forall m, I m -> Fit m /\ i < length (links m)) -> safe I (get_link_pose i) (fun _ => True).
Proof.
  intros H m Hm. destruct (H m Hm) as ((W & S) & L). destruct (wf_tree m W i L) as (d & D).
  destruct (get_link_pose_safe m i d W D) as [(m' & P & E) | (E & L')].
  - exists m', P. split; auto. split; auto. pose proof (get_link_pose_frame i m) as F. now rewrite E in F.
  - specialize (S i d D). lia.
Qed.

(** matrices of a given shape *)
Definition mshape (r c : nat) (J : mat) : Prop := length J = r /\ forall row, In row J -> length row = c.

Lemma mshape_zero r c : mshape r c (mat_zero r c).
Proof.
  unfold mat_zero. split; [apply repeat_length|]. intros row I. apply repeat_spec in I. subst. apply repeat_length.
Qed.

Lemma In_list_set {B} (v : list B) i a x : In x (list_set v i a) -> In x v \/ x = a.
Proof.
  revert i. induction v as [|y v IH]; intros i H; [easy|]. destruct i; simpl in H.
  - destruct H as [<-|H]; simpl; auto.
  - destruct H as [<-|H]; simpl; auto. destruct (IH i H); auto.
Qed.

Lemma mat_set_safe r c J i k v : mshape r c J -> i < r -> k < c -> exists J', mat_set i k v J = Ok J' /\ mshape r c J'.
Proof.
  intros [L R] Li Lk. unfold mat_set. destruct (lt_nth_error J i ltac:(lia)) as (row & E).
  rewrite (proj2 (vget_ok _ _ _) E). cbn [rbind].
  assert (Lr : length row = c) by (apply R; eapply nth_error_In; eauto).
  rewrite vset_lt by lia. cbn [rbind]. rewrite vset_lt by lia. eexists. split; [reflexivity|].
  split; [now rewrite list_set_length|]. intros row' I. apply In_list_set in I. destruct I as [I| ->]; auto.
  rewrite list_set_length. auto.
Qed.

Lemma mat_set_col_safe r c k vs : forall i J, mshape r c J -> i + length vs <= r -> k < c ->
  exists J', mat_set_col i k vs J = Ok J' /\ mshape r c J'.
Proof.
  induction vs as [|v vs IH]; intros i J H Li Lk; [eexists; split; [reflexivity|auto]|].
  simpl in Li. cbn [mat_set_col]. destruct (mat_set_safe r c J i k v H ltac:(lia) Lk) as (J1 & E1 & H1). rewrite E1. cbn [rbind].
  apply IH; auto. lia.
Qed.

Lemma mat_set_row_safe r c i vs : forall k J, mshape r c J -> i < r -> k + length vs <= c ->
  exists J', mat_set_row i k vs J = Ok J' /\ mshape r c J'.
Proof.
  induction vs as [|v vs IH]; intros k J H Li Lk; [eexists; split; [reflexivity|auto]|].
  simpl in Lk. cbn [mat_set_row]. destruct (mat_set_safe r c J i k v H ltac:(lia) ltac:(lia)) as (J1 & E1 & H1). rewrite E1. cbn [rbind].
  apply IH; auto. lia.
Qed.

Lemma mat_set_block_safe r c B : forall i J, mshape r c J -> (forall row, In row B -> length row = c) -> i + length B <= r ->
  exists J', mat_set_block i B J = Ok J' /\ mshape r c J'.
Proof.
  induction B as [|row B IH]; intros i J [L R] HB Li; [eexists; split; [reflexivity|split; auto]|].
  simpl in Li. cbn [mat_set_block]. rewrite vset_lt by lia. cbn [rbind].
  apply IH; try lia.
  - split; [now rewrite list_set_length|]. intros row' I. apply In_list_set in I. destruct I as [I| ->]; auto. apply HB. simpl; auto.
  - intros; apply HB; simpl; auto.
Qed.

(** ** Jacobians *)
Definition JFit (jids : list nat) (m : KM) : Prop :=
  Fit m /\ (jids <> [] -> RpExact m) /\ (forall j, In j jids -> j < length (joints m)).

Lemma JFit_stable jids : stable (JFit jids).
Proof.
  intros m m' Q (F & R & J). split; [eapply Fit_scratch; eauto|]. destruct Q as (s & c & -> & _). split; auto.
Qed.

Lemma enumerate_in {B} (l : list B) k x : In (k, x) (enumerate l) -> k < length l /\ nth_error l k = Some x.
Proof.
  unfold enumerate. intros I. apply In_nth_error in I. destruct I as (i & E). rewrite nth_error_combine in E.
  destruct (Nat.lt_ge_cases i (length l)) as [L|L].
  - rewrite nth_error_seq in E by auto. destruct (nth_error l i) eqn:En; [|discriminate]. inversion E; subst. auto.
  - assert (N : nth_error (seq 0 (length l)) i = None) by (apply nth_error_None; rewrite seq_length; lia).
    now rewrite N in E.
Qed.

Lemma jacobian_safe e jids rt wb :
  safe (fun m => JFit jids m /\ e < length (links m)) (get_jacobian e jids rt wb)
       (mshape (dim_jacobi rt) (length jids + if wb then 6 else 0)).
Proof.
  set (I := fun m => JFit jids m /\ e < length (links m)).
  set (c := length jids + if wb then 6 else 0). pose proof (dim_ge rt) as DG.
  assert (St : stable I).
  { intros m m' Q (J & L). split; [eapply JFit_stable; eauto|]. destruct Q as (s & cc & -> & _). auto. }
  unfold get_jacobian. eapply (safe_bind I _ _ (fun _ => True)); auto.
  { apply safe_pose. intros m (J & L). split; auto. apply J. }
  intros E _. eapply (safe_bind I _ _ (mshape (dim_jacobi rt) c)); auto.
  - apply safe_for_each; auto; [|apply mshape_zero]. intros [k j] J Ij HJ. fold (enumerate jids) in Ij. apply enumerate_in in Ij.
    destruct Ij as [Lk Ej]. apply nth_error_In in Ej. cbn [fst snd]. unfold jacobian_joint.
    intros m Hm. rewrite bind_get. destruct (Hm) as ((F & R & Jn) & Le).
    assert (RP : RpExact m) by (apply R; intros ->; easy).
    destruct (lt_nth_error _ _ (Jn j Ej)) as (hj & Ehj).
    destruct (wf_joints m (proj1 F) j hj Ehj) as (_ & _ & cl & l & Ec & El & _).
    destruct (proj2 RP e j hj cl Le Ehj Ec) as (b & Eb & _). rewrite (bind_lift_ok _ _ _ _ Eb).
    destruct b; [|apply (safe_ret I J); auto].
    rewrite (bind_lift_ok _ _ _ _ (proj2 (vget_ok _ _ _) Ehj)).
    assert (Ed : deref (j_child hj) = Ok cl) by (now rewrite Ec). rewrite (bind_lift_ok _ _ _ _ Ed).
    rewrite (bind_lift_ok _ _ _ _ (proj2 (vget_ok _ _ _) El)). rewrite (wf_ids m (proj1 F) cl l El).
    set (I' := fun m => I m /\ cl < length (links m)).
    assert (X : safe I' (tf <- get_link_pose cl ;; lift (mat_set_col 0 k (joint_column rt hj (position E)
       (match rt with RPY => getRPY (rotation E) | _ => v_clear end) (match rt with XYZW => q_inverse (rotation E) | _ => q_clear end) tf) J))
         (mshape (dim_jacobi rt) c)).
    { assert (St' : stable I'). { intros a b Q (H1 & H2). split; [eapply St; eauto|]. destruct Q as (s & cc & -> & _). auto. }
      eapply (safe_bind I' _ _ (fun _ => True)); auto.
      - apply safe_pose. intros a ((Ha & _) & Hb). split; auto. apply Ha.
      - intros tf _. destruct (mat_set_col_safe (dim_jacobi rt) c k (joint_column rt hj (position E)
          (match rt with RPY => getRPY (rotation E) | _ => v_clear end) (match rt with XYZW => q_inverse (rotation E) | _ => q_clear end) tf) 0 J HJ) as (J' & EJ & SJ).
        + pose proof (joint_column_length rt hj (position E) (match rt with RPY => getRPY (rotation E) | _ => v_clear end)
            (match rt with XYZW => q_inverse (rotation E) | _ => q_clear end) tf). lia.
        + unfold c. lia.
        + eapply safe_lift; eauto. }
    apply X. split; auto. eapply nth_error_lt; eauto.
  - intros J HJ. subst c. destruct wb; [|apply safe_ret; auto].
    unfold jacobian_base. intros m Hm. rewrite bind_get.
    set (r := root_link_id m). set (I' := fun m => I m /\ r < length (links m)).
    assert (St' : stable I'). { intros a b Q (H1 & H2). split; [eapply St; eauto|]. destruct Q as (s & cc & -> & _). auto. }
    assert (X : forall g : Pose -> res mat, (forall p, exists J', g p = Ok J' /\ mshape (dim_jacobi rt) (length jids + 6) J') ->
        safe I' (tf <- get_link_pose r ;; lift (g tf)) (mshape (dim_jacobi rt) (length jids + 6))).
    { intros g Hg. eapply (safe_bind I' _ _ (fun _ => True)); auto.
      - apply safe_pose. intros a ((Ha & _) & Hb). split; auto. apply Ha.
      - intros tf _. destruct (Hg tf) as (J' & E1 & E2). eapply safe_lift; eauto. }
    apply X.
    + intros p. 
      destruct (mat_set_safe _ _ J 0 (length jids + 0) n1 HJ ltac:(lia) ltac:(lia)) as (J1 & E1 & H1). rewrite E1. cbn [rbind].
      destruct (mat_set_safe _ _ J1 1 (length jids + 1) n1 H1 ltac:(lia) ltac:(lia)) as (J2 & E2 & H2). rewrite E2. cbn [rbind].
      destruct (mat_set_safe _ _ J2 2 (length jids + 2) n1 H2 ltac:(lia) ltac:(lia)) as (J3 & E3 & H3). rewrite E3. cbn [rbind].
      assert (Y : forall ks J, (forall k, In k ks -> k < 3) -> mshape (dim_jacobi rt) (length jids + 6) J -> exists J',
         rfor ks J (fun k J' => mat_set_col 0 (length jids + 3 + k) (base_column rt k p (pose_transform (pose_inverse p) E) E
            (getRPY (rotation p)) (match rt with RPY => getRPY (rotation E) | _ => v_clear end)) J') = Ok J' /\ mshape (dim_jacobi rt) (length jids + 6) J').
      { clear. induction ks as [|k ks IH]; intros J Hk HJ; [eexists; split; [reflexivity|auto]|]. cbn [rfor].
        set (bc := base_column _ _ _ _ _ _ _).
        assert (Lb : length bc = dim_jacobi rt) by apply base_column_length.
        assert (k < 3) by (apply Hk; simpl; auto).
        destruct (mat_set_col_safe _ _ (length jids + 3 + k) bc 0 J HJ ltac:(lia) ltac:(lia)) as (J' & EJ & H'). rewrite EJ. cbn [rbind].
        apply IH; auto. intros; apply Hk; simpl; auto. }
      apply Y; auto. simpl. intuition lia.
    + split; auto. destruct (wf_root m (proj1 (proj1 (proj1 Hm)))) as (l & El & _). eapply nth_error_lt; eauto.
Qed.

(** ** Centre of mass and inertia *)
Lemma Fit_stable : stable Fit.
Proof. intros m m' Q F. eapply Fit_scratch; eauto. Qed.

Lemma com_fit (I : KM -> Prop) ids m : I m -> (forall m, I m -> Fit m) -> stable I -> ids = com_dummy_links m ->
  forall id, In id ids -> exists l ine, nth_error (links m) id = Some l /\ l_inertial l = Some ine /\ l_id l = id /\ id < length (links m).
Proof.
  intros Hm HF St -> id Ii. destruct (wf_com m (proj1 (HF m Hm)) id Ii) as (l & ine & El & Ei).
  exists l, ine. split; auto. split; auto. split; [apply (wf_ids m (proj1 (HF m Hm)) id l El)|]. eapply nth_error_lt; eauto.
Qed.

Definition same_static (m0 m : KM) : Prop := links m = links m0 /\ com_dummy_links m = com_dummy_links m0 /\ joints m = joints m0.
Lemma same_static_stable m0 : stable (same_static m0).
Proof. intros m m' (s & c & -> & _) H. exact H. Qed.
Lemma stable_and I J : stable I -> stable J -> stable (fun m => I m /\ J m).
Proof. intros H1 H2 m m' Q (X & Y). split; eauto. Qed.

Lemma com_safe : safe Fit get_com (fun _ => True).
Proof.
  intros m Hm. unfold get_com. rewrite bind_get.
  set (I := fun m' => Fit m' /\ same_static m m').
  assert (St : stable I) by (apply stable_and; [apply Fit_stable | apply same_static_stable]).
  assert (X : safe I (r <- for_each (com_dummy_links m) (v_clear, n0) (fun id acc =>
         let '(com, mass_total) := acc in
         m <- get ;;
         lk <- lift (vget (links m) id) ;;
         ine <- lift (deref (l_inertial lk)) ;;
         tf <- get_link_pose (l_id lk) ;;
         ret (V3 (add (vx com) (mul (in_mass ine) (vx (position tf))))
                 (add (vy com) (mul (in_mass ine) (vy (position tf))))
                 (add (vz com) (mul (in_mass ine) (vz (position tf)))),
              add mass_total (in_mass ine))) ;;
       let '(com, mass_total) := r in
       ret (V3 (div (vx com) mass_total) (div (vy com) mass_total) (div (vz com) mass_total))) (fun _ => True)).
  { eapply (safe_bind I _ _ (fun _ => True)); auto.
    - apply safe_for_each; auto. intros id [com mt] Ii _ m1 H1. rewrite bind_get.
      destruct H1 as (F1 & EL & EC & EJ).
      destruct (com_fit Fit (com_dummy_links m1) m1 F1 (fun _ H => H) Fit_stable eq_refl id ltac:(rewrite EC; auto)) as (l & ine & El & Ei & Eid & Ll).
      rewrite (bind_lift_ok _ _ _ _ (proj2 (vget_ok _ _ _) El)). rewrite Ei. unfold deref at 1. rewrite (bind_lift_ok _ _ _ _ eq_refl).
      rewrite Eid. set (I' := fun m' => I m' /\ id < length (links m')).
      assert (Y : safe I' (tf <- get_link_pose id ;; ret (V3 (add (vx com) (mul (in_mass ine) (vx (position tf))))
                 (add (vy com) (mul (in_mass ine) (vy (position tf)))) (add (vz com) (mul (in_mass ine) (vz (position tf)))),
              add mt (in_mass ine))) (fun _ => True)).
      { assert (St' : stable I'). { intros a b Q (H1 & H2). split; [eapply St; eauto|]. destruct Q as (s & cc & -> & _). auto. }
        eapply (safe_bind I' _ _ (fun _ => True)); auto; [|intros; now apply safe_ret].
        apply safe_pose. intros a ((Ha & _) & Hb). auto. }
      apply Y. split; auto. split; auto. split; auto.
    - intros [com mt] _. now apply safe_ret. }
  apply X. split; auto. split; auto.
Qed.

Lemma mshape_map r c f J : mshape r c J -> mshape r c (mat_map f J).
Proof.
  intros [L R]. unfold mat_map. split; [now rewrite map_length|]. intros row I. apply in_map_iff in I. destruct I as (row' & <- & I).
  rewrite map_length. auto.
Qed.
Lemma mshape_zip r c f P Q : mshape r c P -> mshape r c Q -> mshape r c (mat_zip f P Q).
Proof.
  intros [L R] [L' R']. unfold mat_zip. split; [rewrite map_length, combine_length; lia|].
  intros row I. apply in_map_iff in I. destruct I as ([a b] & <- & I). apply in_combine_l in I as Ia. apply in_combine_r in I.
  unfold zipw. cbn [fst snd]. rewrite map_length, combine_length, (R a Ia), (R' b I). lia.
Qed.

Lemma com_jacobian_safe jids wb : safe (JFit jids) (get_com_jacobian jids wb) (mshape 3 (length jids + if wb then 6 else 0)).
Proof.
  intros m Hm. unfold get_com_jacobian. rewrite bind_get. set (c := length jids + if wb then 6 else 0).
  set (I := fun m' => JFit jids m' /\ same_static m m').
  assert (St : stable I) by (apply stable_and; [apply JFit_stable | apply same_static_stable]).
  assert (X : safe I (r <- for_each (com_dummy_links m) (mat_zero 3 c, n0) (fun id acc =>
         let '(J, mass_total) := acc in
         m <- get ;;
         lk <- lift (vget (links m) id) ;;
         ine <- lift (deref (l_inertial lk)) ;;
         jac <- get_jacobian (l_id lk) jids IGNORE wb ;;
         ret (mat_zip add J (mat_map (mul (in_mass ine)) jac), add mass_total (in_mass ine))) ;;
       let '(J, mass_total) := r in
       ret (mat_map (fun x => div x mass_total) J)) (mshape 3 c)).
  { eapply (safe_bind I _ _ (fun Jm => mshape 3 c (fst Jm))); auto.
    - apply safe_for_each; auto; [|apply mshape_zero]. intros id [J mt] Ii HJ m1 H1. rewrite bind_get.
      destruct H1 as (F1 & EL & EC & EJ).
      destruct (com_fit (JFit jids) (com_dummy_links m1) m1 F1 (fun _ H => proj1 H) (JFit_stable jids) eq_refl id ltac:(rewrite EC; auto)) as (l & ine & El & Ei & Eid & Ll).
      rewrite (bind_lift_ok _ _ _ _ (proj2 (vget_ok _ _ _) El)). rewrite Ei. unfold deref at 1. rewrite (bind_lift_ok _ _ _ _ eq_refl).
      rewrite Eid. set (I' := fun m' => JFit jids m' /\ id < length (links m')).
      assert (Y : safe I' (jac <- get_jacobian id jids IGNORE wb ;; ret (mat_zip add J (mat_map (mul (in_mass ine)) jac), add mt (in_mass ine)))
          (fun Jm => mshape 3 c (fst Jm))).
      { assert (St' : stable I'). { intros a b Q (H1 & H2). split; [eapply JFit_stable; eauto|]. destruct Q as (s & cc & -> & _). auto. }
        eapply (safe_bind I' _ _ (mshape 3 c)); auto.
        - exact (jacobian_safe id jids IGNORE wb).
        - intros jac Hj. apply safe_ret. cbn [fst]. cbn [fst] in HJ. apply mshape_zip; auto. now apply mshape_map. }
      apply Y. split; auto.
    - intros [J mt] HJ. apply safe_ret. now apply mshape_map. }
  apply X. split; auto. split; auto.
Qed.

Lemma inertia_safe : safe Fit get_total_inertia_matrix (fun _ => True).
Proof.
  unfold get_total_inertia_matrix. eapply (safe_bind Fit _ _ (fun _ => True)); [apply Fit_stable | exact com_safe|].
  intros com _ m Hm. rewrite bind_get.
  set (I := fun m' => Fit m' /\ same_static m m').
  assert (St : stable I) by (apply stable_and; [apply Fit_stable | apply same_static_stable]).
  assert (X : safe I (for_each (com_dummy_links m) (mat_zero 3 3) (fun id acc =>
    m <- get ;;
    lk <- lift (vget (links m) id) ;;
    match l_inertial lk with
    | None => ret acc
    | Some ine =>
        tf <- get_link_pose (l_id lk) ;;
        let v := v_sub (position tf) com in
        let R := rot_mat (rotation tf) in
        ret (mat_zip add acc
               (mat_zip add (mat3_mul (mat3_mul R (inertia_mat ine)) (transpose3 R))
                            (trans_term (in_mass ine) v)))
    end)) (fun _ => True)).
  { apply safe_for_each; auto. intros id acc Ii _ m1 H1. rewrite bind_get.
    destruct H1 as (F1 & EL & EC & EJ).
    destruct (com_fit Fit (com_dummy_links m1) m1 F1 (fun _ H => H) Fit_stable eq_refl id ltac:(rewrite EC; auto)) as (l & ine & El & Ei & Eid & Ll).
    rewrite (bind_lift_ok _ _ _ _ (proj2 (vget_ok _ _ _) El)). rewrite Ei, Eid.
    set (I' := fun m' => I m' /\ id < length (links m')).
    match goal with |- exists m' b, ?f m1 = _ /\ _ => assert (Y : safe I' f (fun _ => True)) end.
    { assert (St' : stable I'). { intros a b Q (H1 & H2). split; [eapply St; eauto|]. destruct Q as (s & cc & -> & _). auto. }
      eapply (safe_bind I' _ _ (fun _ => True)); auto; [|intros; now apply safe_ret].
      apply safe_pose. intros a ((Ha & _) & Hb). auto. }
    apply Y. split; auto. split; auto. split; auto. }
  apply X. split; auto. split; auto.
Qed.

End Safe.
