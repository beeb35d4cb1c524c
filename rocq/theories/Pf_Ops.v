(** Every call follows the abstract machine of Spec_Hist.v. *)
From Coq Require Import String List Arith Lia Bool.
From Verif Require Import Base Num Pose DataStructure Urdf Kin Wrapper Spec_Robot Spec_Hist Spec_Load Pf_Base Pf_Data Inv Pf_FK Pf_Frame Pf_Rp Pf_Add Rep.
Import ListNotations.
Local Open Scope m_scope.

Section Ops.
Context `{A : Arith}.

(** ** Calls that never raise *)
Definition nt {B} (r : res B) : Prop := forall e, r <> Throw e.
Definition nothrow {B} (f : M KM B) : Prop := forall m, WF m -> nt (snd (f m)).

Lemma nt_ok {B} (b : B) : nt (Ok b). Proof. discriminate. Qed.
Lemma nt_ub {B} u : nt (UB u : res B). Proof. discriminate. Qed.
Lemma nt_vget {B} (v : list B) i : nt (vget v i).
Proof. unfold vget. destruct (nth_error v i); discriminate. Qed.
Lemma nt_vset {B} (v : list B) i a : nt (vset v i a).
Proof. unfold vset. destruct (Nat.ltb i (length v)); discriminate. Qed.
Lemma nt_deref {B} (p : option B) : nt (deref p).
Proof. destruct p; discriminate. Qed.
Lemma nt_rbind {B C} (x : res B) (f : B -> res C) : nt x -> (forall b, nt (f b)) -> nt (rbind x f).
Proof. intros Hx Hf e. destruct x; simpl; try discriminate. - apply Hf. - intros E. inversion E; subst. now apply (Hx e). Qed.
Lemma nt_rfor {B C} (l : list B) (acc : C) body : (forall b c, nt (body b c)) -> nt (rfor l acc body).
Proof. intros H. revert acc; induction l; intros acc; simpl; [apply nt_ok|]. apply nt_rbind; auto. Qed.
Lemma nt_isRelevant t i k : nt (isRelevant t i k).
Proof. apply nt_rbind; intros; apply nt_vget. Qed.
Lemma nt_mat_set r c v J : nt (mat_set r c v J).
Proof. apply nt_rbind; [apply nt_vget|]. intros. apply nt_rbind; [apply nt_vset|]. intros; apply nt_vset. Qed.
Lemma nt_mat_set_col r c vs J : nt (mat_set_col r c vs J).
Proof. revert r J; induction vs; intros; simpl; [apply nt_ok|]. apply nt_rbind; auto. apply nt_mat_set. Qed.
Lemma nt_mat_set_row r c vs J : nt (mat_set_row r c vs J).
Proof. revert c J; induction vs; intros; simpl; [apply nt_ok|]. apply nt_rbind; auto. apply nt_mat_set. Qed.
Lemma nt_mat_set_block r B J : nt (mat_set_block r B J).
Proof. revert r J; induction B; intros; simpl; [apply nt_ok|]. apply nt_rbind; auto. apply nt_vset. Qed.

Lemma nothrow_ret {B} (b : B) : nothrow (ret b). Proof. intros m _. apply nt_ok. Qed.
Lemma nothrow_get : nothrow get. Proof. intros m _. apply nt_ok. Qed.
Lemma nothrow_lift {B} (r : res B) : nt r -> nothrow (lift r). Proof. intros H m _. apply H. Qed.
Lemma nothrow_bind {B C} (x : M KM B) (f : B -> M KM C) :
  query x -> nothrow x -> (forall b, nothrow (f b)) -> nothrow (bind x f).
Proof.
  intros Q Hx Hf m W. specialize (Hx m W). pose proof (query_WF x m Q W) as W1.
  unfold bind. destruct (x m) as [m1 [b|e|u|]]; simpl in *; try discriminate.
  - now apply Hf. - intros e' E. inversion E; subst. now apply (Hx e').
Qed.
Lemma nothrow_for_each {B C} (l : list B) (acc : C) body :
  (forall b c, query (body b c)) -> (forall b c, nothrow (body b c)) -> nothrow (for_each l acc body).
Proof.
  intros Q H. revert acc; induction l; intros acc; simpl; [apply nothrow_ret|]. apply nothrow_bind; auto.
Qed.

Lemma nt_walk_up m : WF m -> forall fuel h stk, nt (walk_up fuel m h stk).
Proof.
  intros W. induction fuel as [|fuel IH]; intros h stk e; cbn [walk_up]; [discriminate|].
  destruct (vget_cases (links m) h) as [(l & -> & E & _)|(-> & _)]; cbn [rbind]; [|discriminate].
  destruct (l_parent l) as [p|] eqn:Ep; [|discriminate].
  unfold get_cache. destruct (vget (cache_pred (tcache m)) (l_id l)) as [b|e'|u|] eqn:Eb; cbn [rbind]; try discriminate.
  2:{ exfalso. apply (nt_vget _ _ e' Eb). }
  destruct b.
  - destruct (vget (cache_data (tcache m)) (l_id l)) as [d|e'|u|] eqn:Ed; cbn [rbind]; try discriminate.
    exfalso. apply (nt_vget _ _ e' Ed).
  - cbn [rbind]. destruct (wf_joint m W h l p E Ep) as (j & Ej & Hj). rewrite Ej. cbn [deref rbind].
    destruct (tf_plink_total m h j (wf_angles m W) Hj) as (t & Et). rewrite Et. cbn [rbind].
    unfold stack_push. destruct (vset _ _ _) as [d|e'|u|] eqn:Ed; cbn [rbind]; try discriminate.
    + apply IH. + exfalso. apply (nt_vset _ _ _ e' Ed).
Qed.

Lemma nt_unwind n : forall stk c tf, nt (unwind n stk c tf).
Proof.
  induction n as [|n IH]; intros stk c tf; cbn [unwind]; destruct (stack_empty stk); try discriminate.
  apply nt_rbind; [unfold stack_top; destruct (stack_idx stk); [discriminate|apply nt_vget]|].
  intros e. apply nt_rbind; [unfold stack_pop; destruct (stack_idx stk); discriminate|].
  intros stk'. apply nt_rbind; auto. unfold set_cache. apply nt_rbind; [apply nt_vset|]. intros.
  apply nt_rbind; [apply nt_vset|]. discriminate.
Qed.

Lemma nothrow_get_link_pose i : nothrow (get_link_pose i).
Proof.
  intros m W e. unfold get_link_pose. rewrite bind_get. unfold bind, lift.
  destruct (get_cache i (tcache m)) as [o|e'|u|] eqn:Eo; try discriminate.
  2:{ intros _. revert Eo. apply nt_rbind; [apply nt_vget|]. intros []; [|discriminate]. apply nt_rbind; [apply nt_vget|discriminate]. }
  destruct o; [discriminate|]. unfold get_link_pose_inner.
  destruct (walk_up _ _ _ _) as [[stk tf]|e'|u|] eqn:E1; try discriminate.
  2:{ exfalso. now apply (nt_walk_up m W _ _ _ _ E1). }
  destruct (unwind _ _ _ _) as [[[stk' c] P]|e'|u|] eqn:E2; try discriminate.
  exfalso. now apply (nt_unwind _ _ _ _ _ E2).
Qed.

Ltac ntgo :=
  lazymatch goal with
  | |- nothrow (bind _ _) => apply nothrow_bind; [qgo | ntgo | intros; ntgo]
  | |- nothrow (ret _) => apply nothrow_ret
  | |- nothrow get => apply nothrow_get
  | |- nothrow (lift _) => apply nothrow_lift; ntgo
  | |- nothrow (for_each _ _ _) => apply nothrow_for_each; intros; [qgo | ntgo]
  | |- nothrow (get_link_pose _) => apply nothrow_get_link_pose
  | |- nothrow (if ?b then _ else _) => destruct b; ntgo
  | |- nothrow (match ?x with _ => _ end) => destruct x; ntgo
  | |- nt (vget _ _) => apply nt_vget
  | |- nt (vset _ _ _) => apply nt_vset
  | |- nt (deref _) => apply nt_deref
  | |- nt (Ok _) => apply nt_ok
  | |- nt (rbind _ _) => apply nt_rbind; [ntgo | intros; ntgo]
  | |- nt (rfor _ _ _) => apply nt_rfor; intros; ntgo
  | |- nt (isRelevant _ _ _) => apply nt_isRelevant
  | |- nt (mat_set _ _ _ _) => apply nt_mat_set
  | |- nt (mat_set_col _ _ _ _) => apply nt_mat_set_col
  | |- nt (mat_set_row _ _ _ _) => apply nt_mat_set_row
  | |- nt (mat_set_block _ _ _) => apply nt_mat_set_block
  | |- _ => auto
  end.

Lemma nothrow_jacobian_joint rt e ep er ei i j J : nothrow (jacobian_joint rt e ep er ei i j J).
Proof. unfold jacobian_joint. ntgo. Qed.
Lemma nothrow_jacobian_base rt n tf er J : nothrow (jacobian_base rt n tf er J).
Proof. unfold jacobian_base. ntgo. Qed.
Lemma nothrow_get_jacobian e jids rt wb : nothrow (get_jacobian e jids rt wb).
Proof.
  unfold get_jacobian. apply nothrow_bind; [qgo|ntgo|]. intros tf. apply nothrow_bind.
  - qgo. apply query_jacobian_joint.
  - apply nothrow_for_each; intros; [apply query_jacobian_joint | apply nothrow_jacobian_joint].
  - intros J. destruct wb; [apply nothrow_jacobian_base | apply nothrow_ret].
Qed.
Lemma nothrow_get_com : nothrow get_com.
Proof. unfold get_com. ntgo. Qed.
Lemma nothrow_get_com_jacobian jids wb : nothrow (get_com_jacobian jids wb).
Proof. unfold get_com_jacobian. ntgo. apply nothrow_get_jacobian. Qed.
Lemma nothrow_get_total_inertia_matrix : nothrow get_total_inertia_matrix.
Proof. unfold get_total_inertia_matrix. ntgo. apply nothrow_get_com. Qed.
Lemma nothrow_fk_poses rt i el P : nothrow (fk_poses rt i el P).
Proof. unfold fk_poses. ntgo. Qed.
Lemma nothrow_fk_jacs rt i el jids wb J : nothrow (fk_jacs rt i el jids wb J).
Proof. unfold fk_jacs. ntgo. apply nothrow_get_jacobian. Qed.
Lemma nothrow_apply_forces jids ac fo wb wj com B : nothrow (apply_forces jids ac fo wb wj com B).
Proof. unfold apply_forces. ntgo. apply nothrow_get_jacobian. Qed.

(** ** Setters *)
Lemma set_nc_gen jids angles : forall k m,
  let r := for_each (combine (seq k (length jids)) jids) tt (fun ij _ =>
      m <- get ;; a <- lift (vget angles (fst ij)) ;; v <- lift (vset (joint_angles m) (snd ij) a) ;; put (set_angles v m)) m in
  exists v, fst r = set_angles v m /\ length v = length (joint_angles m) /\
    ((snd r = Ok tt /\ v = assign jids (skipn k angles) (joint_angles m) /\
      (forall j, In j jids -> j < length (joint_angles m)) /\ (jids = [] \/ k + length jids <= length angles)) \/
     (snd r = UB OutOfBounds /\ ((exists j, In j jids /\ length (joint_angles m) <= j) \/ length angles < k + length jids))).
Proof.
  induction jids as [|j jids IH]; intros k m r; subst r.
  - exists (joint_angles m). simpl. split; [now destruct m|]. split; auto. left. split; auto. split; [reflexivity|]. split; [easy|auto].
  - cbn [length seq combine for_each]. rewrite bind_assoc, bind_get. cbn [fst snd].
    destruct (vget_cases angles k) as [(a & Ev & Ea & La)|(Ev & La)].
    2:{ exists (joint_angles m). unfold bind, lift. rewrite Ev. simpl. split; [now destruct m|]. split; auto.
        right. split; auto. right. simpl. lia. }
    rewrite bind_assoc, (bind_lift_ok _ _ _ _ Ev).
    destruct (Nat.lt_ge_cases j (length (joint_angles m))) as [Lj|Lj].
    2:{ exists (joint_angles m). unfold bind, lift. rewrite vset_ub by auto. simpl. split; [now destruct m|]. split; auto.
        right. split; auto. left. eauto. }
    rewrite bind_assoc, (bind_lift_ok _ _ _ _ (vset_lt _ _ a Lj)), bind_put.
    specialize (IH (S k) (set_angles (list_set (joint_angles m) j a) m)). cbv zeta in IH. cbn [joint_angles set_angles] in IH.
    destruct IH as (v & E1 & E2 & E3). rewrite list_set_length in *.
    exists v. split; [rewrite E1; reflexivity|]. split; auto.
    destruct E3 as [(E3 & E4 & E5 & E6)|(E3 & E4)].
    + left. split; auto. split; [|split].
      * rewrite E4. unfold assign. assert (Es : skipn k angles = a :: skipn (S k) angles).
        { clear - Ea. revert angles Ea; induction k as [|k IH]; intros [|x angles] Ea; simpl in *; try discriminate.
          - now inversion Ea. - now apply IH. }
        rewrite Es. reflexivity.
      * intros j' [<-|I]; auto.
      * right. destruct E6 as [->|E6]; simpl in *; lia.
    + right. split; auto. destruct E4 as [(j' & I & L)|L]; [left; exists j'; split; auto; now right|right; lia].
Qed.

Lemma set_nc_cases jids angles m :
  exists v, fst (set_joint_angles_nc jids angles m) = set_angles v m /\ length v = length (joint_angles m) /\
    ((snd (set_joint_angles_nc jids angles m) = Ok tt /\ v = assign jids angles (joint_angles m) /\
      (forall j, In j jids -> j < length (joint_angles m)) /\ length jids <= length angles) \/
     (snd (set_joint_angles_nc jids angles m) = UB OutOfBounds /\
      ((exists j, In j jids /\ length (joint_angles m) <= j) \/ length angles < length jids))).
Proof.
  destruct (set_nc_gen jids angles 0 m) as (v & E1 & E2 & E3). exists v. split; auto. split; auto.
  destruct E3 as [(E3 & E4 & E5 & E6)|(E3 & E4)].
  - left. repeat split; auto. destruct E6 as [->|]; simpl; lia.
  - right. split; auto.
Qed.

Lemma set_nc_total jids angles m : (forall j, In j jids -> j < length (joint_angles m)) -> length jids <= length angles ->
  set_joint_angles_nc jids angles m = (set_angles (assign jids angles (joint_angles m)) m, Ok tt).
Proof.
  intros F L. destruct (set_nc_cases jids angles m) as (v & E1 & E2 & [(E3 & -> & _)|(E3 & [(j & I & Lj)|L'])]).
  - destruct (set_joint_angles_nc jids angles m); simpl in *; congruence.
  - specialize (F j I). lia. - lia.
Qed.

Lemma set_nc_ok jids angles m m' : set_joint_angles_nc jids angles m = (m', Ok tt) ->
  m' = set_angles (assign jids angles (joint_angles m)) m /\
  (forall j, In j jids -> j < length (joint_angles m)) /\ length jids <= length angles.
Proof.
  intros E. destruct (set_nc_cases jids angles m) as (v & E1 & E2 & [(E3 & -> & F & L)|(E3 & _)]); rewrite E in *; simpl in *.
  - auto. - discriminate.
Qed.

Lemma assign_length jids angles v : length (assign jids angles v) = length v.
Proof.
  unfold assign. revert v; generalize (combine jids angles) as l. induction l as [|[j a] l IH]; intros v; simpl; auto.
  now rewrite IH, list_set_length.
Qed.

Lemma map_snd_combine_seq {B} (l : list B) a : map snd (combine (seq a (length l)) l) = l.
Proof. revert a; induction l; intros; simpl; f_equal; auto. Qed.

(** ** Rep is kept *)
Section WithRobot.
Variables (R : Robot) (root : string) (sorted : list (string * option Inertial)) (jsorted : list UJoint) (ms : list (string * Inertial)) (mass : num).
Notation Rep := (Rep R root sorted jsorted ms mass).
Notation names0 := (map fst sorted).

Lemma Rep_scratch s m m' : Rep s m -> scratch_only m m' -> Rep s m'.
Proof.
  intros H SO. pose proof (scratch_only_WF _ _ SO (rep_wf _ _ _ _ _ _ _ _ H)) as W.
  destruct SO as (st & c & -> & L & _). destruct H. constructor; simpl; auto. congruence.
Qed.

Lemma WF_conf v b m : WF m -> length v = length (joint_angles m) -> WF (set_base b (set_angles v m)).
Proof. intros W L. destruct W. constructor; simpl; auto. congruence. Qed.

Lemma Rep_conf s m v b : Rep s m -> length v = length (joint_angles m) ->
  Rep (mkAS (as_added s) v b) (set_base b (set_angles v m)).
Proof.
  intros H L. pose proof (WF_conf v b m (rep_wf _ _ _ _ _ _ _ _ H) L) as W. destruct H. constructor; simpl; auto.
Qed.

Lemma WF_clear m : WF m -> WF (set_tcache (cache_clear (tcache m)) m).
Proof.
  intros W. pose proof (wf_cache m W) as [CW CS]. destruct W. constructor; simpl; auto. split; auto. now apply cache_clear_wf.
Qed.

Lemma Rep_clear s m : Rep s m -> Rep s (set_tcache (cache_clear (tcache m)) m).
Proof.
  intros H. pose proof (WF_clear m (rep_wf _ _ _ _ _ _ _ _ H)) as W. destruct H. constructor; simpl; auto.
Qed.

Lemma CacheOK_clear m : WF m -> CacheOK (set_tcache (cache_clear (tcache m)) m).
Proof.
  intros W. apply CacheOK_cleared; [now apply WF_clear|]. destruct (wf_cache m W) as [CW CS].
  intros i L. simpl in *. apply get_cache_blank; auto. lia.
Qed.

Lemma state_eta s : mkAS (as_added s) (as_angles s) (as_base s) = s.
Proof. now destruct s. Qed.

Lemma w6_ok b m m' : w_set_base_pose6 b m = (m', Ok tt) ->
  m' = set_tcache (cache_clear (tcache m)) (set_base (pose6 b) m) /\ 6 <= length b.
Proof.
  unfold w_set_base_pose6. unfold bind, lift.
  repeat match goal with |- context [vget b ?k] =>
    let a := fresh "a" in let E := fresh "E" in
    destruct (vget b k) as [a| | |] eqn:E; [apply vget_ok in E | discriminate ..] end.
  intros X. cbv [set_base_pose clear_cache bind get put] in X. inversion X; subst. clear X.
  unfold pose6. rewrite (nth_error_nth b _ _ E), (nth_error_nth b _ _ E0), (nth_error_nth b _ _ E1), (nth_error_nth b _ _ E2), (nth_error_nth b _ _ E3), (nth_error_nth b _ _ E4).
  split; [reflexivity|].
  apply nth_error_lt in E4. lia.
Qed.

Lemma w6_total b m : 6 <= length b -> w_set_base_pose6 b m = (set_tcache (cache_clear (tcache m)) (set_base (pose6 b) m), Ok tt).
Proof.
  intros L. unfold w_set_base_pose6, bind, lift.
  destruct b as [|b0 [|b1 [|b2 [|b3 [|b4 [|b5 b]]]]]]; simpl in L; try lia. reflexivity.
Qed.

Lemma w6_cases b m : (exists m', w_set_base_pose6 b m = (m', Ok tt)) \/ w_set_base_pose6 b m = (m, UB OutOfBounds).
Proof.
  destruct b as [|b0 [|b1 [|b2 [|b3 [|b4 [|b5 b]]]]]]; try (right; reflexivity). left. eexists. reflexivity.
Qed.

Lemma goto_ok jids q wb cl m m' : goto_waypoint jids q wb cl m = (m', Ok tt) ->
  m' = set_tcache (if (wb || cl)%bool then cache_clear (tcache m) else tcache m)
         (set_base (if wb then pose6 (skipn (length q - 6) q) else base_pose m)
            (set_angles (assign jids q (joint_angles m)) m)) /\
  (forall j, In j jids -> j < length (joint_angles m)) /\ length jids <= length q /\ (wb = true -> 6 <= length q).
Proof.
  unfold goto_waypoint. intros E. apply bind_inv_ok in E. destruct E as (m1 & [] & E1 & E).
  apply set_nc_ok in E1. destruct E1 as (-> & F & L).
  apply bind_inv_ok in E. destruct E as (m2 & [] & E2 & E3).
  split; [|split; [auto|split; [auto|]]].
  - destruct wb.
    + apply bind_inv_ok in E2. destruct E2 as (m3 & b & E2 & E4). unfold lift in E2. inversion E2; subst m3. clear E2.
      unfold last6 in H1. destruct (Nat.ltb (length q) 6); inversion H1; subst b. clear H1.
      apply w6_ok in E4. destruct E4 as [-> _]. destruct cl; inversion E3; subst; reflexivity.
    + inversion E2; subst. destruct cl; inversion E3; subst; destruct m; reflexivity.
  - intros ->. apply bind_inv_ok in E2. destruct E2 as (m3 & b & E2 & E4). unfold lift, last6 in E2.
    destruct (Nat.ltb_spec (length q) 6); inversion E2. auto.
Qed.

Lemma goto_total jids q wb cl m : (forall j, In j jids -> j < length (joint_angles m)) -> length jids <= length q ->
  (wb = true -> 6 <= length q) -> exists m', goto_waypoint jids q wb cl m = (m', Ok tt).
Proof.
  intros F L Lb. unfold goto_waypoint. rewrite (bind_ok _ _ _ _ _ (set_nc_total jids q m F L)).
  destruct wb.
  - specialize (Lb eq_refl). unfold last6. replace (length q <? 6) with false by (symmetry; apply Nat.ltb_ge; lia).
    rewrite bind_assoc. unfold bind at 1, lift.
    rewrite (bind_ok _ _ _ _ _ (w6_total (skipn (length q - 6) q) _ ltac:(rewrite skipn_length; lia))).
    destruct cl; eexists; reflexivity.
  - destruct cl; eexists; reflexivity.
Qed.

Lemma nt_goto jids q wb cl m : nt (snd (goto_waypoint jids q wb cl m)).
Proof.
  unfold goto_waypoint. destruct (set_nc_cases jids q m) as (v & E1 & E2 & [(E3 & _)|(E3 & _)]);
    destruct (set_joint_angles_nc jids q m) as [m1 r1] eqn:Em; simpl in *; subst; unfold bind; rewrite Em; [|apply nt_ub].
  destruct wb.
  - unfold lift, last6. destruct (length q <? 6); [apply nt_ub|].
    destruct (w6_cases (skipn (length q - 6) q) (set_angles v m)) as [(m' & Ew)|Ew]; rewrite Ew; [|apply nt_ub].
    destruct cl; apply nt_ok.
  - destruct cl; apply nt_ok.
Qed.

(** one waypoint *)
Lemma goto_Rep jids q wb cl s m m' : Rep s m -> goto_waypoint jids q wb cl m = (m', Ok tt) ->
  Rep (at_waypoint jids wb q s) m' /\ ((wb || cl)%bool = true -> CacheOK m').
Proof.
  intros H E. apply goto_ok in E. destruct E as (E & _).
  set (v := assign jids q (joint_angles m)) in *.
  set (b := if wb then pose6 (skipn (length q - 6) q) else base_pose m) in *.
  assert (H1 : Rep (at_waypoint jids wb q s) (set_base b (set_angles v m))).
  { unfold at_waypoint. rewrite <- (rep_angles _ _ _ _ _ _ _ _ H). fold v.
    replace (if wb then _ else as_base s) with b by (unfold b; rewrite <- (rep_base _ _ _ _ _ _ _ _ H); auto).
    apply Rep_conf; auto. apply assign_length. }
  destruct (wb || cl)%bool.
  - subst m'. split; [now apply (Rep_clear _ _ H1) | intros _; apply (CacheOK_clear _ (rep_wf _ _ _ _ _ _ _ _ H1))].
  - subst m'. split; [|discriminate]. destruct m; exact H1.
Qed.

Lemma waypoint_loop {C} jids wb cl (g : nat * list num -> C -> M KM C) :
  (forall iq acc, query (g iq acc)) -> (forall iq acc, nothrow (g iq acc)) ->
  forall l acc s m m' r, Rep s m ->
  for_each l acc (fun iq acc => goto_waypoint jids (snd iq) wb cl ;;; g iq acc) m = (m', r) ->
  nt r /\ forall x, r = Ok x -> Rep (fold_left (fun s q => at_waypoint jids wb q s) (map snd l) s) m' /\
     ((wb || cl)%bool = true -> l <> [] \/ CacheOK m -> CacheOK m').
Proof.
  intros Q N. induction l as [|iq l IH]; intros acc s m m' r H E.
  - inversion E; subst. split; [apply nt_ok|]. intros x _. split; auto. intros _ [X|X]; [easy|auto].
  - rewrite for_each_cons, bind_assoc in E. unfold bind at 1 in E.
    pose proof (nt_goto jids (snd iq) wb cl m) as Ng.
    destruct (goto_waypoint jids (snd iq) wb cl m) as [m1 [[]|e|u|]] eqn:Eg; simpl in Ng.
    2:{ exfalso. now apply (Ng e). }
    2,3: inversion E; subst; split; [discriminate | intros; discriminate].
    destruct (goto_Rep _ _ _ _ _ _ _ H Eg) as [H1 C1].
    pose proof (N iq acc m1 (rep_wf _ _ _ _ _ _ _ _ H1)) as Nb. destruct (Q iq acc m1) as [S2 C2].
    pose proof (Rep_scratch _ _ _ H1 S2) as H2.
    unfold bind at 1 in E. destruct (g iq acc m1) as [m2 [acc2|e|u|]] eqn:Eb; simpl in *.
    2:{ exfalso. now apply (Nb e). }
    2,3: inversion E; subst; split; [discriminate | intros; discriminate].
    destruct (IH acc2 _ m2 m' r H2 E) as [Nr Hr]. split; auto. intros x Ex. destruct (Hr x Ex) as [H3 C3]. split; auto.
    intros Ew _. apply C3; auto. right. apply C2. split; [apply (rep_wf _ _ _ _ _ _ _ _ H1) | auto].
Qed.

(** ** add_new_link *)
Lemma hangs_grow name p pose ls pl i n pn J : nth_error ls p = Some pl ->
  hangs ls i n pn J -> hangs (links_after name p pose ls pl) i n pn J.
Proof.
  intros Ep (l & q & lq & E1 & E2 & E3 & E4 & E5 & E6).
  exists (if p =? i then push_child (length ls) l else l), q, (if p =? q then push_child (length ls) lq else lq).
  destruct (push_child_fields (p =? i) (length ls) l) as (X1 & _ & _ & X2 & X3).
  destruct (push_child_fields (p =? q) (length ls) lq) as (Y1 & _).
  rewrite X1, X2, X3, Y1. split; [now apply la_old|]. repeat split; auto. now apply la_old.
Qed.

Lemma Named_grow js added name p pose ls pl : nth_error ls p = Some pl ->
  Named js root added ls -> Named js root (added ++ [(name, l_name pl, pose)]) (links_after name p pose ls pl).
Proof.
  intros Ep H. 
  assert (Hnew : hangs (links_after name p pose ls pl) (length ls) name (l_name pl) (fixed_joint pose)).
  { exists (new_link name (length ls) p pose), p, (push_child (length ls) pl).
    split; [now apply la_new|]. repeat split; auto. rewrite (la_old name p pose ls pl Ep p pl Ep). now rewrite Nat.eqb_refl. }
  constructor.
  - destruct (nm_root _ _ _ _ H) as (i & l & E1 & E2 & E3). exists i, (if p =? i then push_child (length ls) l else l).
    destruct (push_child_fields (p =? i) (length ls) l) as (X1 & _ & _ & X2 & _). rewrite X1, X2. split; auto. now apply la_old.
  - intros i l' E. apply la_inv in E; auto. destruct E as [(-> & ->)|(L & l & E & ->)].
    + right; right. exists (l_name pl), pose. simpl. split; auto. apply in_app_iff. right. now left.
    + destruct (push_child_fields (p =? i) (length ls) l) as (X1 & _ & _ & X2 & _). rewrite X1, X2.
      destruct (nm_kind _ _ _ _ H i l E) as [K|[(j & J & I & Ec & Hh & Sj)|(pn & T & I & Hh)]]; auto.
      * right; left. exists j, J. repeat split; auto; try apply Sj. now apply hangs_grow.
      * right; right. exists pn, T. split; [apply in_app_iff; auto|]. now apply hangs_grow.
  - intros j I. destruct (nm_joint _ _ _ _ H j I) as (i & J & Hh & Sj). exists i, J. split; auto. now apply hangs_grow.
  - intros n pn T I. apply in_app_iff in I. destruct I as [I|[I|[]]].
    + destruct (nm_added _ _ _ _ H n pn T I) as (i & Hh). exists i. now apply hangs_grow.
    + inversion I; subst. eauto.
Qed.

Lemma names_assoc m n : WF m -> (assoc n (link_ids m) = None <-> ~ In n (map l_name (links m))).
Proof.
  intros W. rewrite assoc_none, (wf_link_ids m W). rewrite <- (map_length l_name (links m)).
  now rewrite map_fst_combine_seq.
Qed.

Lemma Forall2_impl' {B C} (P Q : B -> C -> Prop) l l' : (forall b c, P b c -> Q b c) -> Forall2 P l l' -> Forall2 Q l l'.
Proof. intros H F; induction F; constructor; auto. Qed.

Lemma add_Rep name p pose s m pl t : Rep s m -> nth_error (links m) p = Some pl -> assoc name (link_ids m) = None ->
  RpExact (set_rptable t (grown name p pose pl m)) ->
  Rep (mkAS (as_added s ++ [(name, l_name pl, pose)]) (as_angles s) (as_base s)) (set_rptable t (grown name p pose pl m)).
Proof.
  intros H Ep Nn Rx. constructor; simpl.
  - apply WF_rptable, WF_grown; auto. apply H.
  - apply Named_grow; auto. apply H.
  - rewrite la_names by auto. rewrite (rep_names _ _ _ _ _ _ _ _ H). rewrite map_app, app_assoc. reflexivity.
  - apply H. - apply H. - apply H. - intros _. exact Rx.
  - intros X. now apply app_eq_nil in X.
  - apply H.
  - eapply Forall2_impl'; [|apply (rep_com _ _ _ _ _ _ _ _ H)]. intros id ni (l & ine & E1 & E2 & E3 & E4).
    exists (if p =? id then push_child (length (links m)) l else l), ine.
    destruct (push_child_fields (p =? id) (length (links m)) l) as (X1 & _ & X2 & _). rewrite X1, X2.
    split; [now apply la_old|auto].
  - apply H. - apply H. - apply H.
Qed.

Lemma add_link_step name p pos rpy s m m' r :
  Rep s m -> w_add_new_link name p pos rpy m = (m', r) ->
  (r = UB OutOfBounds) \/
  (r = Throw InvalidArgument /\ m' = m /\ In name (map l_name (links m))) \/
  (r = Ok tt /\ CacheOK m' /\ ~ In name (map l_name (links m)) /\ p < length (links m) /\
   Rep (abs_step names0 (Op_add_new_link name p pos rpy) s) m').
Proof.
  intros H E. unfold w_add_new_link, add_new_link in E.
  set (pose := mkPose pos (setFromRPY (vx rpy) (vy rpy) (vz rpy))) in *.
  pose proof (rep_wf _ _ _ _ _ _ _ _ H) as W.
  assert (Enames : map fst sorted ++ map (fun a => fst (fst a)) (as_added s) = map l_name (links m))
    by (symmetry; apply (rep_names _ _ _ _ _ _ _ _ H)).
  destruct (assoc name (link_ids m)) as [i|] eqn:En.
  - right; left. unfold bind in E. rewrite (add_new_link_pose_dup _ _ _ _ _ En) in E. inversion E; subst.
    repeat split; auto. destruct (in_dec string_dec name (map l_name (links m'))) as [I|I]; auto.
    apply (names_assoc m' name W) in I. congruence.
  - assert (Ni : ~ In name (map l_name (links m))) by (now apply names_assoc).
    destruct (Nat.lt_ge_cases p (length (links m))) as [Lp|Lp].
    + right; right. destruct (lt_nth_error _ _ Lp) as (pl & Ep).
      destruct (add_new_link_pose_ok name p pose m pl W Ep En) as (t & Ea & W' & C' & R').
      rewrite (bind_ok _ _ _ _ _ Ea) in E. inversion E; subst. split; auto. split; auto. split; auto. split; auto.
      simpl abs_step. rewrite Enames.
      replace (existsb (String.eqb name) (map l_name (links m))) with false.
      2:{ symmetry. apply not_true_is_false. intros X. apply existsb_exists in X. destruct X as (x & I & X).
          apply String.eqb_eq in X. subst. auto. }
      replace (nth p (map l_name (links m)) EmptyString) with (l_name pl).
      2:{ symmetry. apply nth_error_nth. rewrite nth_error_map', Ep. reflexivity. }
      apply add_Rep; auto.
    + left. unfold bind in E. rewrite (add_new_link_pose_oob _ _ _ _ En Lp) in E. now inversion E.
Qed.

(** ** Every call *)
Lemma drop_query {B} (f : M KM B) m m' r : query f -> nothrow f -> drop f m = (m', r) -> 
  scratch_only m m' /\ (Good m -> CacheOK m') /\ (WF m -> nt r).
Proof.
  intros Q N E. unfold drop, bind in E. destruct (Q m) as [SO C]. specialize (N m).
  destruct (f m) as [m1 [b|e|u|]]; simpl in *; inversion E; subst; repeat split; auto; intros; try discriminate.
  intros e' E'. inversion E'; subst. now apply (N ltac:(assumption) e').
Qed.

Lemma drop_res {B} (f : M KM B) m m' r : drop f m = (m', r) ->
  exists r0, f m = (m', r0) /\ match r0, r with Ok _, Ok _ => True | Throw e, Throw e' => e = e' | UB u, UB u' => u = u' | Diverge, Diverge => True | _, _ => False end.
Proof.
  intros E. unfold drop, bind in E. destruct (f m) as [m1 [b|e|u|]]; inversion E; subst; eexists; split; eauto; simpl; auto.
Qed.

Definition defined (r : res unit) : Prop := match r with Ok _ | Throw _ => True | _ => False end.

Lemma exec_Rep o s m m' r : Rep s m -> exec o m = (m', r) -> defined r ->
  Rep (abs_step names0 o s) m' /\ forall b, (b = true -> CacheOK m) -> clean_step o b = true -> CacheOK m'.
Proof.
  intros H E D. pose proof (rep_wf _ _ _ _ _ _ _ _ H) as W.
  destruct o; cbn [exec] in E.
  - (* set_joint_angles *)
    unfold set_joint_angles, bind in E.
    destruct (set_joint_angles_nc jids angles m) as [m1 [[]|e|u|]] eqn:E1.
    + apply set_nc_ok in E1. destruct E1 as (-> & _ & _). inversion E; subst.
      assert (H1 : Rep (abs_step names0 (Op_set_joint_angles jids angles) s)
                     (set_base (base_pose m) (set_angles (assign jids angles (joint_angles m)) m))).
      { cbn [abs_step]. rewrite <- (rep_angles _ _ _ _ _ _ _ _ H), <- (rep_base _ _ _ _ _ _ _ _ H). apply Rep_conf; auto. apply assign_length. }
      split; [now apply (Rep_clear _ _ H1)|]. intros b _ _. apply (CacheOK_clear _ (rep_wf _ _ _ _ _ _ _ _ H1)).
    + destruct (set_nc_cases jids angles m) as (v & _ & _ & [(X & _)|(X & _)]); rewrite E1 in X; discriminate.
    + inversion E; subst; easy.
    + inversion E; subst; easy.
  - (* set_joint_angle *)
    unfold set_joint_angle in E. rewrite bind_get in E. unfold bind, lift in E.
    destruct (Nat.lt_ge_cases jid (length (joint_angles m))) as [L|L].
    + rewrite vset_lt in E by auto. inversion E; subst. split; [|discriminate].
      assert (H1 : Rep (mkAS (as_added s) (list_set (joint_angles m) jid a) (base_pose m))
                     (set_base (base_pose m) (set_angles (list_set (joint_angles m) jid a) m))).
      { apply Rep_conf; auto. apply list_set_length. }
      cbn [abs_step]. rewrite <- (rep_angles _ _ _ _ _ _ _ _ H), <- (rep_base _ _ _ _ _ _ _ _ H). exact H1.
    + rewrite vset_ub in E by auto. inversion E; subst. easy.
  - (* set_base_pose *)
    inversion E; subst.
    assert (H1 : Rep (mkAS (as_added s) (as_angles s) p) (set_base p (set_angles (joint_angles m) m))).
    { rewrite <- (rep_angles _ _ _ _ _ _ _ _ H). apply Rep_conf; auto. }
    split; [now apply (Rep_clear _ _ H1)|]. intros b _ _. apply (CacheOK_clear _ (rep_wf _ _ _ _ _ _ _ _ H1)).
  - (* set_base_xyzrpy *)
    unfold w_set_base_pose in E. cbn [abs_step clean_step]. destruct (Nat.eqb_spec (length v) 6) as [L|L].
    + destruct (w6_cases v m) as [(m1 & E1)|E1]; rewrite E1 in E; inversion E; subst; [|easy].
      apply w6_ok in E1. destruct E1 as [-> _].
      assert (H1 : Rep (mkAS (as_added s) (as_angles s) (pose6 v)) (set_base (pose6 v) (set_angles (joint_angles m) m))).
      { rewrite <- (rep_angles _ _ _ _ _ _ _ _ H). apply Rep_conf; auto. }
      split; [now apply (Rep_clear _ _ H1)|]. intros b _ _. apply (CacheOK_clear _ (rep_wf _ _ _ _ _ _ _ _ H1)).
    + inversion E; subst. split; auto.
  - (* set_init_angles *)
    inversion E; subst. cbn [abs_step].
    assert (Ez : map (fun _ => n0) (as_angles s) = repeat n0 (num_dof m)).
    { rewrite (wf_num_dof m W), <- (wf_angles m W), (rep_angles _ _ _ _ _ _ _ _ H). induction (as_angles s); simpl; f_equal; auto. }
    rewrite Ez.
    assert (H1 : Rep (mkAS (as_added s) (repeat n0 (num_dof m)) (base_pose m))
                   (set_base (base_pose m) (set_angles (repeat n0 (num_dof m)) m))).
    { apply Rep_conf; auto. rewrite repeat_length, (wf_num_dof m W), (wf_angles m W). auto. }
    rewrite <- (rep_base _ _ _ _ _ _ _ _ H).
    split; [now apply (Rep_clear _ _ H1)|]. intros b _ _. apply (CacheOK_clear _ (rep_wf _ _ _ _ _ _ _ _ H1)).
  - (* add_new_link *)
    destruct (add_link_step name parent pos rpy s m m' r H E) as [->|[(-> & -> & I)|(-> & C & _ & _ & H')]]; [easy| |].
    + split; [|auto]. cbn [abs_step]. rewrite <- (rep_names _ _ _ _ _ _ _ _ H).
      replace (existsb (String.eqb name) (map l_name (links m))) with true; auto.
      symmetry. apply existsb_exists. exists name. split; auto. apply String.eqb_refl.
    + split; auto.
  - (* clear_cache *)
    inversion E; subst. split; [now apply Rep_clear|]. intros b _ _. now apply CacheOK_clear.
  - apply drop_query in E; [|apply query_get_link_pose|apply nothrow_get_link_pose]. destruct E as (SO & C & _).
    split; [eapply Rep_scratch; eauto|]. intros b Hb Eb. cbn in Eb. apply C. split; auto.
  - apply drop_query in E; [|apply query_get_jacobian|apply nothrow_get_jacobian]. destruct E as (SO & C & _).
    split; [eapply Rep_scratch; eauto|]. intros b Hb Eb. cbn in Eb. apply C. split; auto.
  - apply drop_query in E; [|apply query_get_com|apply nothrow_get_com]. destruct E as (SO & C & _).
    split; [eapply Rep_scratch; eauto|]. intros b Hb Eb. cbn in Eb. apply C. split; auto.
  - apply drop_query in E; [|apply query_get_com_jacobian|apply nothrow_get_com_jacobian]. destruct E as (SO & C & _).
    split; [eapply Rep_scratch; eauto|]. intros b Hb Eb. cbn in Eb. apply C. split; auto.
  - apply drop_query in E; [|apply query_get_total_inertia_matrix|apply nothrow_get_total_inertia_matrix]. destruct E as (SO & C & _).
    split; [eapply Rep_scratch; eauto|]. intros b Hb Eb. cbn in Eb. apply C. split; auto.
  - (* solve_fk *)
    apply drop_res in E. destruct E as (r0 & E & Er).
    assert (Ea : forall m'' r'', for_each (enumerate qs)
        (mat_zero (length qs * length elinks) (dim_jacobi rt), mat_zero (length qs * length elinks * dim_jacobi rt) (if with_base then length jids + 6 else length jids))
        (fun iq PJ => goto_waypoint jids (snd iq) with_base (negb use_cache) ;;;
           P <- fk_poses rt (fst iq) elinks (fst PJ) ;;
           J <- (if with_jac then fk_jacs rt (fst iq) elinks jids with_base (snd PJ) else ret (snd PJ)) ;;
           ret (P, J)) m = (m'', r'') ->
        match r'' with Ok _ | Throw _ => True | _ => False end ->
        Rep (fold_left (fun s q => at_waypoint jids with_base q s) qs s) m'' /\
        forall b, (b = true -> CacheOK m) -> ((with_base || negb use_cache) && b)%bool = true -> CacheOK m'').
    { intros m'' r'' E'' D''.
      destruct (waypoint_loop jids with_base (negb use_cache) (fun iq (PJ : mat * mat) =>
           P <- fk_poses rt (fst iq) elinks (fst PJ) ;;
           J <- (if with_jac then fk_jacs rt (fst iq) elinks jids with_base (snd PJ) else ret (snd PJ)) ;;
           ret (P, J))) with (4 := E'') (s := s) as [Nr Hr]; auto.
      - intros. qgo; [apply query_fk_poses | apply query_fk_jacs].
      - intros. apply nothrow_bind; [apply query_fk_poses | apply nothrow_fk_poses |]. intros P.
        apply nothrow_bind; [destruct with_jac; [apply query_fk_jacs | apply query_ret]
                            | destruct with_jac; [apply nothrow_fk_jacs | apply nothrow_ret] | intros; apply nothrow_ret].
      - destruct r'' as [x|e|u|]; try easy; [|exfalso; now apply (Nr e)].
        destruct (Hr x eq_refl) as [H1 C1]. split.
        + unfold enumerate in H1. rewrite map_snd_combine_seq in H1. exact H1.
        + intros b Hb Eb. apply andb_true_iff in Eb. destruct Eb as [E1 E2]. apply C1; auto. }
    unfold solve_forward_kinematics in E. cbn [abs_step clean_step].
    destruct with_base.
    + destruct qs as [|q0 qs]; [inversion E; subst; destruct r; easy|].
      unfold bind at 1 2 in E. cbn [vget nth_error lift] in E.
      change (vget (q0 :: qs) 0) with (@Ok (list num) q0) in E. cbv beta iota in E. 
      destruct (Nat.ltb (length q0) 6 || negb (Nat.eqb (length jids) (length q0 - 6)))%bool.
      * inversion E; subst. split; auto.
      * cbn [ret] in E. apply Ea in E; auto; destruct r0, r; try easy.
    + unfold bind at 1 in E. cbn [ret] in E.
      apply Ea in E; [|destruct r0, r; easy]. destruct qs; auto.
  - (* solve_com_fk *)
    apply drop_res in E. destruct E as (r0 & E & Er). unfold solve_com_forward_kinematics in E.
    match type of E with for_each _ _ (fun iq acc => goto_waypoint _ _ _ _ ;;; @?g iq acc) _ = _ =>
      destruct (waypoint_loop jids with_base false g) with (4 := E) (s := s) as [Nr Hr]; auto end.
    + intros. qgo; [apply query_get_com_jacobian | apply query_apply_forces].
    + intros. apply nothrow_bind; [apply query_get_com | apply nothrow_get_com |]. intros com.
      apply nothrow_bind; [destruct with_jac; [apply query_get_com_jacobian | apply query_ret]
                          | destruct with_jac; [apply nothrow_get_com_jacobian | apply nothrow_ret] |].
      intros B. apply nothrow_bind; [apply query_apply_forces | apply nothrow_apply_forces |]. intros x. ntgo.
    + destruct r0 as [x|e|u|]; destruct r; try easy; [|exfalso; now apply (Nr e)].
      destruct (Hr x eq_refl) as [H1 C1]. split.
      * unfold enumerate in H1. rewrite map_snd_combine_seq in H1. exact H1.
      * intros b Hb Eb. cbn in Eb. apply andb_true_iff in Eb. destruct Eb as [E1 E2]. apply C1; auto. now rewrite E1.
  - (* compute_inertia *)
    apply drop_res in E. destruct E as (r0 & E & Er). split; [|discriminate].
    unfold compute_total_inertia_matrix, bind in E.
    destruct (set_joint_angles_nc jids q m) as [m1 [[]|e|u|]] eqn:E1.
    + apply set_nc_ok in E1. destruct E1 as (-> & _ & _).
      assert (H1 : Rep (abs_step names0 (Op_compute_inertia q jids) s)
                     (set_base (base_pose m) (set_angles (assign jids q (joint_angles m)) m))).
      { cbn [abs_step]. unfold at_waypoint. rewrite <- (rep_angles _ _ _ _ _ _ _ _ H), <- (rep_base _ _ _ _ _ _ _ _ H). apply Rep_conf; auto. apply assign_length. }
      pose proof (query_get_total_inertia_matrix (set_angles (assign jids q (joint_angles m)) m)) as [SO _].
      rewrite E in SO. simpl in SO. eapply Rep_scratch; [|exact SO]. exact H1.
    + destruct (set_nc_cases jids q m) as (v & _ & _ & [(X & _)|(X & _)]); rewrite E1 in X; discriminate.
    + inversion E; subst. destruct r; easy.
    + inversion E; subst. destruct r; easy.
  - (* sqdists *)
    apply drop_res in E. destruct E as (r0 & E & Er). unfold compute_inter_link_squared_dists in E.
    match type of E with for_each _ _ (fun iq acc => goto_waypoint _ _ _ _ ;;; @?g iq acc) _ = _ =>
      destruct (waypoint_loop jids with_base (negb use_cache) g) with (4 := E) (s := s) as [Nr Hr]; auto end.
    + intros. qgo.
    + intros. ntgo; apply nothrow_get_jacobian.
    + destruct r0 as [x|e|u|]; destruct r; try easy; [|exfalso; now apply (Nr e)].
      destruct (Hr x eq_refl) as [H1 C1]. split.
      * unfold enumerate in H1. rewrite map_snd_combine_seq in H1. exact H1.
      * intros b Hb Eb. cbn in Eb. apply andb_true_iff in Eb. destruct Eb as [E1 E2]. apply C1; auto.
Qed.

(** Every history follows the abstract machine; after a clean one the cache is right. *)
Lemma run_Rep ops : forall s m m' b, Rep s m -> (b = true -> CacheOK m) -> run ops m = Some m' ->
  Rep (abs_run names0 ops s) m' /\ (fold_left (fun b o => clean_step o b) ops b = true -> CacheOK m').
Proof.
  induction ops as [|o ops IH]; intros s m m' b H Hb E.
  - inversion E; subst. split; auto.
  - cbn [run] in E. destruct (exec o m) as [m1 r] eqn:E1.
    assert (D : defined r /\ run ops m1 = Some m') by (destruct r; try discriminate; simpl; auto).
    destruct D as [D E2]. destruct (exec_Rep o s m m1 r H E1 D) as [H1 C1].
    cbn [abs_run fold_left]. apply (IH _ m1 m' (clean_step o b)); auto. now apply C1.
Qed.

End WithRobot.
End Ops.
