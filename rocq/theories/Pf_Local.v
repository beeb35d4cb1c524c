(** Locality of joint motion, depth bounds (lemmas for C05, C08). *)
From Coq Require Import String List Arith Lia Bool Permutation.
From Verif Require Import Base Num Pose DataStructure Urdf Kin Wrapper Spec_Robot Spec_Hist Spec_Load Spec_Jac
  Pf_Base Pf_Data Inv Pf_FK Pf_Frame Pf_Rp Rep Pf_Ops Pf_Name Pf_Ctor Pf_Reach Pf_Jac Pf_Safe Pf_Pose.
Import ListNotations.

Section Local.
Context `{A : Arith}.

Lemma fk_local js root added q1 q2 base n P : fk js root added q1 base n P ->
  (forall j, In j js -> carries js added j n -> q1 (uj_name j) = q2 (uj_name j)) -> fk js root added q2 base n P.
Proof.
  intros H. induction H as [|j P I H IH|n p T P I H IH]; intros C.
  - constructor.
  - rewrite (C j I (carries_child _ _ _)). constructor; auto. apply IH. intros j' I' C'. apply C; auto. now apply carries_joint.
  - eapply fk_added; eauto. apply IH. intros j' I' C'. apply C; auto. eapply carries_added; eauto.
Qed.

Lemma assign_other jids angles : forall v k, ~ In k jids -> nth_error (assign jids angles v) k = nth_error v k.
Proof.
  unfold assign. revert angles. induction jids as [|j jids IH]; intros angles v k N; [reflexivity|].
  destruct angles as [|a angles]; [reflexivity|]. cbn [combine fold_left fst snd]. rewrite IH by (simpl in N; tauto).
  apply nth_error_list_set_ne. simpl in N. intuition.
Qed.

Lemma by_name_ext (ns : list string) v1 v2 n : length v1 = length v2 ->
  (forall k, nth_error ns k = Some n -> nth_error v1 k = nth_error v2 k) -> by_name ns v1 n = by_name ns v2 n.
Proof.
  unfold by_name. revert v1 v2. induction ns as [|x ns IH]; intros v1 v2 L H; [reflexivity|].
  destruct v1 as [|a v1], v2 as [|b v2]; try discriminate; [reflexivity|]. cbn [combine assoc].
  destruct (String.eqb_spec n x) as [->|N].
  - specialize (H 0 eq_refl). simpl in H. congruence.
  - apply IH; [simpl in L; lia|]. intros k E. apply (H (S k) E).
Qed.

Lemma set_angles_local R root jsorted s jids angles n P :
  NoDup (jnames jsorted) ->
  (forall j, In j (r_joints R) -> NoDup (map uj_name (r_joints R))) ->
  (forall j, In j jsorted -> In j (r_joints R)) ->
  (forall k j, In k jids -> nth_error jsorted k = Some j -> ~ carries (r_joints R) (as_added s) j n) ->
  pose_at R root jsorted s n P ->
  pose_at R root jsorted (mkAS (as_added s) (assign jids angles (as_angles s)) (as_base s)) n P.
Proof.
  intros ND NDR SubJ H HP. unfold pose_at in *. cbn [as_added as_angles as_base]. eapply fk_local; eauto.
  intros j Ij Cj. apply by_name_ext; [now rewrite assign_length|]. intros k Ek. symmetry. apply assign_other. intros Ik.
  unfold jnames in Ek. rewrite nth_error_map' in Ek. destruct (nth_error jsorted k) as [j'|] eqn:Ej'; [|discriminate].
  simpl in Ek. injection Ek as En.
  assert (j' = j).
  { assert (I' : In j' (r_joints R)) by (apply SubJ; eapply nth_error_In; eauto).
    specialize (NDR j Ij). destruct (In_nth_error _ _ Ij) as (a & Ea). destruct (In_nth_error _ _ I') as (b & Eb).
    assert (a = b). { rewrite NoDup_nth_error in NDR. apply NDR; [rewrite map_length; eapply nth_error_lt; eauto|].
      rewrite !nth_error_map', Ea, Eb. simpl. congruence. }
    subst b. congruence. }
  subst j'. exact (H k j Ik Ej' Cj).
Qed.

(** ** Depth of the links of the description *)
Lemma levels_doc_bound (R : Robot) root added n d : is_tree R root ->
  (forall x p T, In (x, p, T) added -> ~ In x (link_names R)) ->
  levels (r_joints R) root added n d -> In n (link_names R) -> d < length (r_links R).
Proof.
  intros T Fresh H In0.
  assert (X : exists path, length path = S d /\ NoDup path /\ (forall x, In x path -> In x (link_names R)) /\
     hd_error path = Some n /\ forall k x, nth_error path k = Some x -> levels (r_joints R) root added x (d - k)).
  { induction H as [|j d Ij H IH|x p Tf d Ix H IH].
    - exists [root]. repeat split; simpl; auto.
      + repeat constructor; simpl; tauto.
      + intros x [<-|[]]. auto.
      + intros k x E. destruct k as [|k]; [inversion E; constructor | destruct k; discriminate].
    - destruct (tree_ends _ _ T j Ij) as [Ip Ic]. destruct (IH Ip) as (path & L & ND & Sub & Hd & Lev).
      exists (uj_child j :: path). split; [simpl; lia|]. split; [|split; [|split]].
      + constructor; auto. intros I. apply In_nth_error in I. destruct I as (k & E). apply Lev in E.
        assert (LV : levels (r_joints R) root added (uj_child j) (S d)) by (now constructor).
        (* levels are unique below *)
        assert (U : forall n a, levels (r_joints R) root added n a -> In n (link_names R) -> forall b, levels (r_joints R) root added n b -> a = b).
        { clear - T Fresh. intros n a H. induction H as [|j a Ij H IH|x p Tf a Ix H IH]; intros In0 b Hb.
          - inversion Hb as [|j b' Ij' Hb' E1|x p Tf b' Ix Hb' E1]; subst; auto.
            + exfalso. apply (tree_root_top _ _ T j Ij'). auto.
            + exfalso. eapply Fresh; eauto.
          - destruct (tree_ends _ _ T j Ij) as [Ip Ic].
            inversion Hb as [E1|j' b' Ij' Hb' E1|x p Tf b' Ix Hb' E1]; subst.
            + exfalso. apply (tree_root_top _ _ T j Ij). auto.
            + assert (j' = j).
              { pose proof (tree_one_parent _ _ T) as ND. destruct (In_nth_error _ _ Ij) as (u & Eu). destruct (In_nth_error _ _ Ij') as (v & Ev).
                rewrite NoDup_nth_error in ND. assert (u = v); [|subst; congruence].
                apply ND; [rewrite map_length; eapply nth_error_lt; eauto|]. rewrite !nth_error_map', Eu, Ev. simpl. congruence. }
              subst j'. f_equal. apply IH; auto.
            + exfalso. eapply Fresh; eauto.
          - exfalso. eapply Fresh; eauto. }
        pose proof (U _ _ LV Ic _ E). lia.
      + intros x [<-|I]; auto.
      + reflexivity.
      + intros k x E. destruct k as [|k]; simpl in E.
        * inversion E; subst. rewrite Nat.sub_0_r. now constructor.
        * simpl. now apply Lev.
    - exfalso. eapply Fresh; eauto. }
  destruct X as (path & L & ND & Sub & _). pose proof (NoDup_incl_length ND Sub) as B. unfold link_names in B. rewrite map_length in B. lia.
Qed.

Lemma levels_added_bound (R : Robot) root added n d : is_tree R root ->
  (forall x p T, In (x, p, T) added -> ~ In x (link_names R) /\ In p (link_names R)) ->
  levels (r_joints R) root added n d -> d <= length (r_links R).
Proof.
  intros T H Hl. destruct Hl as [|j d Ij Hl|x p Tf d Ix Hl].
  - lia.
  - destruct (tree_ends _ _ T j Ij) as [Ip Ic]. enough (S d < length (r_links R)) by lia.
    eapply levels_doc_bound; eauto; [intros a b c I; apply (H a b c I)|now constructor].
  - destruct (H _ _ _ Ix) as [N Ip]. enough (d < length (r_links R)) by lia.
    eapply levels_doc_bound; eauto. intros a b c I; apply (H a b c I).
Qed.

End Local.

(** the angle get_joint_angles reports for joint [k] *)
Definition angle_of `{A : Arith} (k : nat) (m : KM) : res (list num) := snd (get_joint_angles [k] m).

Local Open Scope m_scope.
Lemma assign_last_le `{A : Arith} jids : forall pre k post angles v, jids = pre ++ k :: post -> ~ In k post -> length jids <= length angles ->
  k < length v -> nth_error (assign jids angles v) k = nth_error angles (length pre).
Proof.
  induction jids as [|j jids IH]; intros pre k post angles v E Np L Lk; [destruct pre; discriminate|].
  destruct angles as [|a angles]; [simpl in L; lia|]. destruct pre as [|p pre]; simpl in E; inversion E; subst.
  - unfold assign. simpl. change (fold_left _ (combine post angles) (list_set v k a)) with (assign post angles (list_set v k a)).
    rewrite assign_other by auto. now apply nth_error_list_set_eq.
  - unfold assign. simpl. change (fold_left _ (combine (pre ++ k :: post) angles) (list_set v p a)) with (assign (pre ++ k :: post) angles (list_set v p a)).
    eapply IH; eauto; [simpl in L; lia|]. now rewrite list_set_length.
Qed.

Lemma assign_last `{A : Arith} jids pre k post angles v : jids = pre ++ k :: post -> ~ In k post -> length angles = length jids ->
  k < length v -> nth_error (assign jids angles v) k = nth_error angles (length pre).
Proof. intros E Np L. apply (assign_last_le jids pre k post angles v E Np). lia. Qed.

Lemma get_angles_spec `{A : Arith} jids m : (forall j, In j jids -> j < length (joint_angles m)) ->
  get_joint_angles jids m = (m, Ok (map (fun j => nth j (joint_angles m) n0) jids)).
Proof.
  intros H. unfold get_joint_angles. rewrite bind_get. unfold lift. f_equal.
  enough (X : forall acc, rfor jids acc (fun j acc => let? a := vget (joint_angles m) j in Ok (acc ++ [a])) =
    Ok (acc ++ map (fun j => nth j (joint_angles m) n0) jids)) by apply X.
  induction jids as [|j jids IH]; intros acc; simpl; [now rewrite app_nil_r|].
  unfold vget. rewrite (nth_error_nth' _ n0) by (apply H; simpl; auto). simpl. rewrite IH by (intros; apply H; simpl; auto).
  now rewrite <- app_assoc.
Qed.
