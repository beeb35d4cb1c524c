(** Queries only touch the cache and the stack, whatever their outcome. *)
From Coq Require Import String List Arith Lia Bool.
From Verif Require Import Base Num Pose DataStructure Urdf Kin Wrapper Pf_Base Pf_Data Inv Pf_FK.
Import ListNotations.
Local Open Scope m_scope.

Section Frame.
Context `{A : Arith}.

Definition scratch_only (m m' : KM) : Prop :=
  exists s c, m' = set_scratch s c m /\
    length (stack_data s) = length (stack_data (tstack m)) /\
    (cache_wf (tcache m) -> cache_wf c /\ cache_size c = cache_size (tcache m)).

Lemma scratch_only_refl m : scratch_only m m.
Proof. exists (tstack m), (tcache m). rewrite set_scratch_id. auto. Qed.

Lemma scratch_only_trans m1 m2 m3 : scratch_only m1 m2 -> scratch_only m2 m3 -> scratch_only m1 m3.
Proof.
  intros (s & c & -> & L & W) (s' & c' & -> & L' & W').
  exists s', c'. split; [reflexivity|]. simpl in *. split; [congruence|].
  intros CW. destruct (W CW) as [W1 S1]. destruct (W' W1) as [W2 S2]. split; auto. congruence.
Qed.

Lemma scratch_only_same m m' : scratch_only m m' -> same_config m m'.
Proof. intros (s & c & E & _). now exists s, c. Qed.

Lemma scratch_only_WF m m' : scratch_only m m' -> WF m -> WF m'.
Proof.
  intros (s & c & -> & L & W) Wm. destruct (wf_cache m Wm) as [CW CS]. destruct (W CW) as [W1 S1].
  apply WF_scratch; auto. congruence.
Qed.

Lemma walk_up_stack fuel m h stk stk' tf : walk_up fuel m h stk = Ok (stk', tf) ->
  length (stack_data stk') = length (stack_data stk).
Proof.
  revert h stk; induction fuel as [|fuel IH]; intros h stk E; cbn [walk_up] in E; [discriminate|].
  apply rbind_ok in E. destruct E as (l & _ & E).
  destruct (l_parent l) as [p|]; [|inversion E; subst; auto].
  apply rbind_ok in E. destruct E as (o & _ & E). destruct o as [tf0|]; [inversion E; subst; auto|].
  apply rbind_ok in E. destruct E as (pj & _ & E). apply rbind_ok in E. destruct E as (t & _ & E).
  apply rbind_ok in E. destruct E as (stk1 & E1 & E). rewrite (IH _ _ E).
  unfold stack_push in E1. apply rbind_ok in E1. destruct E1 as (d & E1 & E2). inversion E2; subst; simpl.
  apply vset_ok in E1. destruct E1 as [_ ->]. apply list_set_length.
Qed.

Lemma unwind_frame n stk c tf stk' c' P : unwind n stk c tf = Ok (stk', c', P) ->
  length (stack_data stk') = length (stack_data stk) /\ (cache_wf c -> cache_wf c' /\ cache_size c' = cache_size c).
Proof.
  revert stk c tf; induction n as [|n IH]; intros stk c tf E; cbn [unwind] in E.
  - destruct (stack_empty stk); [inversion E; subst; auto | discriminate].
  - destruct (stack_empty stk); [inversion E; subst; auto |].
    apply rbind_ok in E. destruct E as (e & _ & E).
    apply rbind_ok in E. destruct E as (stk1 & E1 & E).
    apply rbind_ok in E. destruct E as (c1 & E2 & E).
    destruct (IH _ _ _ E) as [L W]. split.
    + rewrite L. unfold stack_pop in E1. destruct (stack_idx stk); inversion E1; subst; auto.
    + intros CW. destruct (set_cache_wf _ _ _ _ CW E2) as [W1 S1]. destruct (W W1) as [W2 S2]. split; auto. congruence.
Qed.

Lemma get_link_pose_frame i m : scratch_only m (fst (get_link_pose i m)).
Proof.
  unfold get_link_pose. rewrite bind_get. unfold bind, lift.
  destruct (get_cache i (tcache m)) as [o|e|u|]; simpl; try apply scratch_only_refl.
  destruct o as [P|]; [apply scratch_only_refl|].
  unfold get_link_pose_inner.
  destruct (walk_up _ _ _ _) as [[stk tf]|e|u|] eqn:E1; simpl; try apply scratch_only_refl.
  destruct (unwind _ _ _ _) as [[[stk' c] P]|e|u|] eqn:E2; simpl; try apply scratch_only_refl.
  destruct (unwind_frame _ _ _ _ _ _ _ E2) as [L W]. apply walk_up_stack in E1.
  exists stk', c. split; auto. split; auto. rewrite L, E1. reflexivity.
Qed.

(** [f] is a query: it changes only scratch data, and keeps the cache right. *)
Definition query {B} (f : M KM B) : Prop :=
  forall m, scratch_only m (fst (f m)) /\ (Good m -> CacheOK (fst (f m))).

Lemma query_ret {B} (b : B) : query (ret b).
Proof. intros m. simpl. split; [apply scratch_only_refl | now intros [_ C]]. Qed.
Lemma query_lift {B} (r : res B) : query (lift r).
Proof. intros m. simpl. split; [apply scratch_only_refl | now intros [_ C]]. Qed.
Lemma query_throw {B} e : query (throw e : M KM B).
Proof. intros m. simpl. split; [apply scratch_only_refl | now intros [_ C]]. Qed.
Lemma query_get : query (get : M KM KM).
Proof. intros m. simpl. split; [apply scratch_only_refl | now intros [_ C]]. Qed.

Lemma query_bind {B C} (x : M KM B) (f : B -> M KM C) : query x -> (forall b, query (f b)) -> query (bind x f).
Proof.
  intros Hx Hf m. specialize (Hx m). destruct Hx as [S1 C1].
  unfold bind. destruct (x m) as [m1 [b|e|u|]]; simpl in *; auto.
  destruct (Hf b m1) as [S2 C2]. split; [eapply scratch_only_trans; eauto|].
  intros G. apply C2. split; [eapply scratch_only_WF; eauto; apply G | auto].
Qed.

Lemma query_for_each {B C} (l : list B) (acc : C) (body : B -> C -> M KM C) :
  (forall b c, query (body b c)) -> query (for_each l acc body).
Proof.
  intros H. revert acc; induction l as [|b l IH]; intros acc; simpl; [apply query_ret|].
  apply query_bind; auto.
Qed.

Lemma query_if {B} (b : bool) (x y : M KM B) : query x -> query y -> query (if b then x else y).
Proof. now destruct b. Qed.

Lemma query_get_link_pose i : query (get_link_pose i).
Proof.
  intros m. split; [apply get_link_pose_frame|]. intros G.
  destruct (Nat.lt_ge_cases i (length (links m))) as [L|L].
  - destruct (get_link_pose_good m i G L) as [(m' & P & E & _ & Q) | (E & _)]; rewrite E; simpl; [apply Q | apply G].
  - rewrite get_link_pose_oob; [apply G | apply G | auto].
Qed.

Ltac qgo :=
  lazymatch goal with
  | |- query (bind _ _) => apply query_bind; [qgo | intros; qgo]
  | |- query (ret _) => apply query_ret
  | |- query (lift _) => apply query_lift
  | |- query (throw _) => apply query_throw
  | |- query get => apply query_get
  | |- query (for_each _ _ _) => apply query_for_each; intros; qgo
  | |- query (get_link_pose _) => apply query_get_link_pose
  | |- query (if ?b then _ else _) => destruct b; qgo
  | |- query (match ?x with _ => _ end) => destruct x; qgo
  | |- query (let '(_, _) := ?x in _) => destruct x; qgo
  | |- _ => auto
  end.

Lemma query_jacobian_joint rt e ep er ei i j J : query (jacobian_joint rt e ep er ei i j J).
Proof. unfold jacobian_joint. qgo. Qed.
Lemma query_jacobian_base rt n tf er J : query (jacobian_base rt n tf er J).
Proof. unfold jacobian_base. qgo. Qed.
Lemma query_get_jacobian e jids rt wb : query (get_jacobian e jids rt wb).
Proof.
  unfold get_jacobian. qgo. - apply query_jacobian_joint. - apply query_jacobian_base.
Qed.
Lemma query_get_com : query get_com.
Proof. unfold get_com. qgo. Qed.
Lemma query_get_com_jacobian jids wb : query (get_com_jacobian jids wb).
Proof. unfold get_com_jacobian. qgo. apply query_get_jacobian. Qed.
Lemma query_get_total_inertia_matrix : query get_total_inertia_matrix.
Proof. unfold get_total_inertia_matrix. qgo. apply query_get_com. Qed.
Lemma query_fk_poses rt i el P : query (fk_poses rt i el P).
Proof. unfold fk_poses. qgo. Qed.
Lemma query_fk_jacs rt i el jids wb J : query (fk_jacs rt i el jids wb J).
Proof. unfold fk_jacs. qgo. apply query_get_jacobian. Qed.
Lemma query_apply_forces jids ac fo wb wj com B : query (apply_forces jids ac fo wb wj com B).
Proof. unfold apply_forces. qgo. apply query_get_jacobian. Qed.
Lemma query_get_joint_angles j : query (get_joint_angles j).
Proof. unfold get_joint_angles. qgo. Qed.
Lemma query_get_joint_ids j : query (get_joint_ids j).
Proof. unfold get_joint_ids. qgo. Qed.
Lemma query_get_link_ids j : query (get_link_ids j).
Proof. unfold get_link_ids. qgo. Qed.
Lemma query_limits j : query (get_joint_position_limits j).
Proof. unfold get_joint_position_limits. qgo. Qed.
Lemma query_limit_field f j : query (joint_limit_field f j).
Proof. unfold joint_limit_field. qgo. Qed.
Lemma query_get_base : query w_get_base_pose.
Proof. unfold w_get_base_pose. qgo. Qed.
Lemma query_get_root : query w_get_root_link_name.
Proof. unfold w_get_root_link_name. qgo. Qed.

Lemma query_Good {B} (f : M KM B) m : query f -> Good m -> Good (fst (f m)).
Proof.
  intros Q G. destruct (Q m) as [S C]. split; auto. eapply scratch_only_WF; eauto. apply G.
Qed.
Lemma query_WF {B} (f : M KM B) m : query f -> WF m -> WF (fst (f m)).
Proof. intros Q W. eapply scratch_only_WF; eauto. apply Q. Qed.

(** The parts of a model other than scratch data. *)
Lemma scratch_only_parts m m' : scratch_only m m' ->
  root_link_id m' = root_link_id m /\ links m' = links m /\ link_ids m' = link_ids m /\
  com_dummy_links m' = com_dummy_links m /\ joints m' = joints m /\ joint_ids m' = joint_ids m /\
  joint_angles m' = joint_angles m /\ base_pose m' = base_pose m /\ rptable m' = rptable m /\
  num_dof m' = num_dof m /\ total_mass m' = total_mass m.
Proof. intros (s & c & -> & _). simpl. repeat split; auto. Qed.

End Frame.

Ltac qgo :=
  lazymatch goal with
  | |- query (bind _ _) => apply query_bind; [qgo | intros; qgo]
  | |- query (ret _) => apply query_ret
  | |- query (lift _) => apply query_lift
  | |- query (throw _) => apply query_throw
  | |- query get => apply query_get
  | |- query (for_each _ _ _) => apply query_for_each; intros; qgo
  | |- query (get_link_pose _) => apply query_get_link_pose
  | |- query (get_jacobian _ _ _ _) => apply query_get_jacobian
  | |- query get_com => apply query_get_com
  | |- query (if ?b then _ else _) => destruct b; qgo
  | |- query (match ?x with _ => _ end) => destruct x; qgo
  | |- _ => auto
  end.
