(** Pickling an instance whose configuration was also changed by calls that are not
    recorded: the structure survives. *)
From Coq Require Import String List Arith Lia Bool.
From Verif Require Import Base Num Pose DataStructure Urdf Kin Wrapper Py Spec_Robot Spec_Hist Spec_Load Spec_Jac Spec_Py
  Pf_Base Inv Rep Pf_Ops Pf_Frame Pf_Local Pf_Wrap Pf_Py Pf_Jac Pf_Pickle Pf_PyCalls.
Import ListNotations.
Local Open Scope nat_scope.
Local Open Scope m_scope.

Section Kin.
Context `{A : Arith}.
Definition frame (m : KM) := (root_link_id m, links m, link_ids m, com_dummy_links m, joints m, joint_ids m, rptable m, num_dof m, total_mass m).
Lemma frame_shape m m' : shape m = shape m' -> frame m = frame m'.
Proof. unfold shape, frame. intros E. inversion E. reflexivity. Qed.
Lemma frame_same m m' : frame m = frame m' -> same_structure m m'.
Proof. unfold frame. intros E. inversion E. constructor; congruence. Qed.

Definition mover {B} (f : M KM B) : Prop := forall m, frame (fst (f m)) = frame m /\ length (joint_angles (fst (f m))) = length (joint_angles m).
Lemma mover_query {B} (f : M KM B) : query f -> mover f.
Proof.
  intros Q m. destruct (Q m) as [S _]. destruct (scratch_only_parts _ _ S) as (E1 & E2 & E3 & E4 & E5 & E6 & E7 & E8 & E9 & E10 & E11).
  unfold frame. split; congruence.
Qed.
Lemma mover_bind {B C} (x : M KM B) (f : B -> M KM C) : mover x -> (forall b, mover (f b)) -> mover (bind x f).
Proof.
  intros Hx Hf m. specialize (Hx m). unfold bind. destruct (x m) as [m1 [b|e|u|]]; cbn [fst] in *; auto.
  destruct (Hf b m1). destruct Hx. split; congruence.
Qed.
Lemma mover_for {B C} (l : list B) (acc : C) (body : B -> C -> M KM C) : (forall b c, mover (body b c)) -> mover (for_each l acc body).
Proof.
  intros H. revert acc; induction l as [|b l IH]; intros acc; simpl; [apply mover_query, query_ret|]. apply mover_bind; auto.
Qed.
Lemma mover_clear : mover clear_cache.
Proof. intros m. split; reflexivity. Qed.
Lemma mover_angles_nc jids a : mover (set_joint_angles_nc jids a).
Proof.
  apply mover_for. intros ij c. intros m. unfold bind, get, lift, put. destruct (vget a (fst ij)) as [x|e|u|]; [|split; reflexivity..].
  destruct (vset (joint_angles m) (snd ij) x) as [v|e|u|] eqn:E; [|split; reflexivity..]. split; [reflexivity|]. cbn [fst set_angles joint_angles]. apply vset_ok in E. destruct E as [_ ->]. apply list_set_length.
Qed.
Lemma mover_angles jids a : mover (set_joint_angles jids a).
Proof. apply mover_bind; [apply mover_angles_nc | intros; apply mover_clear]. Qed.
Lemma mover_base p : mover (set_base_pose p).
Proof. intros m. split; reflexivity. Qed.
Lemma mover_w v : mover (w_set_base_pose v).
Proof.
  unfold w_set_base_pose. destruct (Nat.eqb (length v) 6); [|apply mover_query, query_throw]. unfold w_set_base_pose6.
  do 6 (apply mover_bind; [apply mover_query, query_lift | intros ?]). apply mover_base.
Qed.
Ltac mgo :=
  lazymatch goal with
  | |- mover (bind _ _) => apply mover_bind; [mgo | intros; mgo]
  | |- mover (for_each _ _ _) => apply mover_for; intros; mgo
  | |- mover (set_joint_angles_nc _ _) => apply mover_angles_nc
  | |- mover (set_joint_angles _ _) => apply mover_angles
  | |- mover (w_set_base_pose _) => apply mover_w
  | |- mover (set_base_pose _) => apply mover_base
  | |- mover clear_cache => apply mover_clear
  | |- mover (ret _) => apply mover_query, query_ret
  | |- mover (lift _) => apply mover_query, query_lift
  | |- mover (throw _) => apply mover_query, query_throw
  | |- mover get => apply mover_query, query_get
  | |- mover (get_link_pose _) => apply mover_query, query_get_link_pose
  | |- mover (get_jacobian _ _ _ _) => apply mover_query, query_get_jacobian
  | |- mover (if ?b then _ else _) => destruct b; mgo
  | |- _ => idtac
  end.
Lemma mover_w6 b : mover (w_set_base_pose6 b).
Proof. unfold w_set_base_pose6. mgo. Qed.
Lemma mover_goto jids q wb cl : mover (goto_waypoint jids q wb cl).
Proof. unfold goto_waypoint. mgo. apply mover_w6. Qed.
Lemma mover_fk qs el jids rt wb wj uc : mover (solve_forward_kinematics qs el jids rt wb wj uc).
Proof. unfold solve_forward_kinematics. cbv zeta. mgo; [apply mover_goto | apply mover_query, query_fk_poses | apply mover_query, query_fk_jacs]. Qed.
Lemma mover_com qs jids ac fo wb wj : mover (solve_com_forward_kinematics qs jids ac fo wb wj).
Proof. unfold solve_com_forward_kinematics. cbv zeta. mgo; [apply mover_goto | apply mover_query, query_get_com | apply mover_query, query_get_com_jacobian | apply mover_query, query_apply_forces]. Qed.
Lemma mover_inertia q jids : mover (compute_total_inertia_matrix q jids).
Proof. unfold compute_total_inertia_matrix. mgo. apply mover_query, query_get_total_inertia_matrix. Qed.
Lemma mover_dists qs i1 i2 jids wb wg uc : mover (compute_inter_link_squared_dists qs i1 i2 jids wb wg uc).
Proof. unfold compute_inter_link_squared_dists. cbv zeta. mgo. apply mover_goto. Qed.

(** adding a link depends on the frame only *)
Lemma kadd_frame a m m' : kadd a m = (m', Ok tt) -> conf m' = conf m /\
  forall n, frame n = frame m -> exists n', kadd a n = (n', Ok tt) /\ frame n' = frame m' /\ conf n' = conf n.
Proof.
  intros E. unfold kadd, w_add_new_link, add_new_link, add_new_link_pose in *. set (pose := mkPose _ _) in *. clearbody pose.
  destruct m as [a1 a2 a3 a4 a5 a6 a7 a8 a9 a10 a11 a12 a13].
  unfold update_rptable, bind, get, put, lift, throw, ret in *. cbn [links link_ids joints joint_ids] in E.
  destruct (assoc (a_name a) a3) eqn:E1; [discriminate|].
  destruct (vget a2 (a_parent a)) eqn:E2; try discriminate.
  destruct (vget (a2 ++ _) (a_parent a)) eqn:E3; try discriminate.
  destruct (vset (a2 ++ _) (a_parent a) _) eqn:E4; try discriminate.
  unfold set_tcache, set_links in E. cbn [links link_ids joints joint_ids] in E.
  destruct (rfor a5 _ _) eqn:E5; try discriminate. unfold set_rptable in E. cbn in E. inversion E; subst. split; [reflexivity|].
  intros [b1 b2 b3 b4 b5 b6 b7 b8 b9 b10 b11 b12 b13] Es. unfold frame in Es. cbn in Es. inversion Es; subst.
  cbn [links link_ids joints joint_ids]. rewrite E1, E2, E3, E4. unfold set_tcache, set_links. cbn [links link_ids joints joint_ids]. rewrite E5.
  unfold set_rptable. cbn. eexists. split; [reflexivity|]. split; reflexivity.
Qed.

Lemma kset_needs a m m' : kset a m = (m', Ok tt) -> (forall k, In k (s_jids a) -> k < length (joint_angles m)) /\ length (s_q a) = length (s_jids a) + base_size (s_base a).
Proof.
  intros E. assert (L : length (s_q a) = length (s_jids a) + base_size (s_base a)).
  { destruct (Nat.eq_dec (length (s_q a)) (length (s_jids a) + base_size (s_base a))) as [?|N]; auto. destruct a as [jids q bt]. rewrite (kset_wrong jids q bt m N) in E. discriminate. }
  split; [|exact L].
  assert (G : forall q m1, set_joint_angles (s_jids a) q m = (m1, Ok tt) -> forall k, In k (s_jids a) -> k < length (joint_angles m)).
  { intros q m1 X. unfold set_joint_angles in X. apply bind_inv_ok in X. destruct X as (m2 & [] & X & _). apply set_nc_ok in X. apply X. }
  assert (AS : forall b, forall f : M KM unit, forall m m', (assert_ b ;;; f) m = (m', Ok tt) -> f m = (m', Ok tt)) by (intros [|] f k k' Q; [exact Q|discriminate]).
  unfold kset in E. destruct (s_base a); apply AS in E.
  - exact (G _ _ E).
  - apply bind_inv_ok in E. destruct E as (m1 & [] & E1 & E2). exact (G _ _ E1).
  - apply bind_inv_ok in E. destruct E as (m1 & [] & E1 & E2). exact (G _ _ E1).
Qed.
Lemma kset_anywhere a m m' n : kset a m = (m', Ok tt) -> length (joint_angles n) = length (joint_angles m) ->
  exists n', kset a n = (n', Ok tt) /\ frame n' = frame n /\ length (joint_angles n') = length (joint_angles n).
Proof.
  intros E L. destruct (kset_needs a m m' E) as [H1 H2]. destruct a as [jids q bt]. cbn [s_jids s_q s_base] in *.
  destruct (kset_total jids q bt n ltac:(now rewrite L) H2) as (n' & En & Ea & _). exists n'. split; [exact En|]. split.
  - apply frame_shape. exact (proj1 (kset_conf _ _ _ En)).
  - rewrite Ea. apply assign_length.
Qed.
Lemma kset_frame a m m' : kset a m = (m', Ok tt) -> frame m' = frame m /\ length (joint_angles m') = length (joint_angles m).
Proof.
  intros E. destruct (kset_anywhere a m m' m E eq_refl) as (n' & En & F & L). rewrite E in En. inversion En; subst. auto.
Qed.
Lemma kadd_angles a m m' : kadd a m = (m', Ok tt) -> joint_angles m' = joint_angles m.
Proof. intros E. destruct (kadd_frame a m m' E) as [C _]. unfold conf in C. now inversion C. Qed.
Lemma sets_again ls n k : steps (map kset ls) n k -> forall n', conf n' = conf n -> exists k', steps (map kset ls) n' k' /\ conf k' = conf k /\ shape k' = shape n'.
Proof.
  revert n. induction ls as [|a ls IH]; intros n St n' C; cbn [map] in *; inversion St as [?|f fs x n1 y Ef Sf]; subst.
  - exists n'. split; [constructor|auto].
  - destruct (kset_conf a _ _ Ef) as [_ H]. destruct (H n' C) as (n1' & E1 & C1 & S1). destruct (IH n1 Sf n1' C1) as (k' & St' & Ck & Sk).
    exists k'. split; [econstructor; eauto|]. split; congruence.
Qed.

(** setting every joint and the base leaves nothing of the configuration before *)
Lemma last_occurrence (k : nat) l : In k l -> exists pre post, l = pre ++ k :: post /\ ~ In k post.
Proof.
  induction l as [|x l IH]; intros I; [destruct I|]. destruct (in_dec Nat.eq_dec k l) as [J|N].
  - destruct (IH J) as (pre & post & -> & H). exists (x :: pre), post. auto.
  - destruct I as [->|I]; [|easy]. exists [], l. auto.
Qed.
Lemma assign_all jids a v v' : length a = length jids -> length v = length v' -> (forall k, k < length v -> In k jids) -> assign jids a v = assign jids a v'.
Proof.
  intros La L H. apply list_ext. intros k. destruct (Nat.lt_ge_cases k (length v)) as [Lk|Lk].
  - destruct (last_occurrence k jids (H k Lk)) as (pre & post & E & N). rewrite !(assign_last jids pre k post) by (auto; lia). reflexivity.
  - rewrite !(proj2 (nth_error_None _ _)) by (rewrite assign_length; lia). reflexivity.
Qed.
Lemma kset_all jids q m m' n n' : kset (mkSet jids q BFLOATING) m = (m', Ok tt) -> kset (mkSet jids q BFLOATING) n = (n', Ok tt) ->
  length (joint_angles n) = length (joint_angles m) -> (forall k, k < length (joint_angles m) -> In k jids) -> conf n' = conf m'.
Proof.
  intros E F L H. destruct (kset_needs _ _ _ E) as [H1 H2]. destruct (kset_needs _ _ _ F) as [H3 _]. cbn [s_jids s_q s_base] in *.
  destruct (kset_total jids q BFLOATING m H1 H2) as (x & Ex & Ax & Bx & _). destruct (kset_total jids q BFLOATING n H3 H2) as (y & Ey & Ay & By & _).
  rewrite E in Ex. rewrite F in Ey. inversion Ex; inversion Ey; subst. unfold conf. rewrite Ax, Ay, Bx, By. cbn [base_asked]. f_equal.
  apply assign_all; [|exact L|now rewrite L]. rewrite firstn_length. cbn [base_size] in H2. lia.
Qed.
End Kin.

Section World.
Context `{A : Arith}.
Context (tinyxml : string -> option (list xml)).

(** the recorded calls can be replayed, with this frame as a result *)
Definition kept (i : nat) (text : string) (m0 : KM) (w : World) : Prop :=
  tidy w /\ exists o m la ls n k, nth_error (objs w) i = Some o /\ py_xml o = text /\ py_robot o = Some m /\
    nth_error (heap_add w) (py_add o) = Some la /\ nth_error (heap_set w) (py_set o) = Some ls /\
    steps (map kadd la) m0 n /\ frame n = frame m /\ conf n = conf m0 /\
    steps (map kset ls) n k /\ frame k = frame m /\ length (joint_angles k) = length (joint_angles m).

Definition calm {B} (i : nat) (f : M World B) : Prop := forall text m0 w, kept i text m0 w -> kept i text m0 (fst (f w)).
Lemma calm_robot {B} i (f : M KM B) : mover f -> calm i (with_robot i f).
Proof.
  intros St text m0 w (T & o & m & la & ls & n & k & Eo & X & Er & Ha & Hs & S1 & F1 & C1 & S2 & F2 & L2). rewrite (with_robot_eq i f w o m Eo Er). cbn [fst].
  destruct (St m) as (G1 & G2). split.
  - apply (tidy_acts i w); auto. assert (Q : with_robot i f w = (upd i o (fst (f m)) w, snd (f m))) by now apply with_robot_eq. exact (act_robot i f _ _ _ Q).
  - exists (mkPy (py_xml o) (Some (fst (f m))) (py_add o) (py_set o)), (fst (f m)), la, ls, n, k. split; [exact (upd_at i o _ w o Eo)|]. repeat split; auto; congruence.
Qed.
Lemma calm_ret {B} i (b : B) : calm i (ret b).
Proof. intros text m0 w H. exact H. Qed.
Lemma calm_throw {B} i e : calm i (throw e : M World B).
Proof. intros text m0 w H. exact H. Qed.
Lemma calm_lift {B} i (r : res B) : calm i (lift r).
Proof. intros text m0 w H. exact H. Qed.
Lemma calm_bind {B C} i (x : M World B) (f : B -> M World C) : calm i x -> (forall b, calm i (f b)) -> calm i (bind x f).
Proof.
  intros Hx Hf text m0 w H. unfold bind. pose proof (Hx text m0 w H) as H1. destruct (x w) as [w1 [b|e|u|]]; cbn [fst] in *; auto. now apply Hf.
Qed.
Lemma calm_assert i b : calm i (assert_ b).
Proof. destruct b; [apply calm_ret | apply calm_throw]. Qed.
Lemma calm_check i bt nj nd rows : calm i (check_dof bt nj nd rows).
Proof.
  destruct bt; cbn [check_dof]; (apply calm_bind; [apply calm_assert|intros _]); try apply calm_ret. destruct (modify_3dof nj nd rows); [apply calm_ret | apply calm_throw].
Qed.
Ltac cgo := first [apply calm_bind; [cgo | intros; cgo] | apply calm_ret | apply calm_throw | apply calm_lift | apply calm_assert | apply calm_check | apply calm_robot | idtac].
Lemma calm_exec i c : on i c = true -> edits c = false -> copies c = false -> calm i (py_exec tinyxml c).
Proof.
  intros On Ed Cp. unfold on in On. destruct c; cbn [target edits copies] in *; try discriminate; apply Nat.eqb_eq in On; subst; cbn [py_exec]; unfold pdrop.
  - apply calm_bind; [|intros; apply calm_ret]. unfold py_get_q. apply calm_bind; [destruct bt; cgo | intros; cgo];
      apply mover_query; auto using query_get_base, query_get_joint_angles.
  - apply calm_bind; [|intros; apply calm_ret]. unfold py_solve_fk. destruct (norm_qs_fk qs) as [[nd rows]|]; [|apply calm_throw]. cgo. apply mover_fk.
  - apply calm_bind; [|intros; apply calm_ret]. unfold py_solve_com_fk. destruct (norm_qs_com qs) as [[nd rows]|]; [|apply calm_throw].
    apply calm_bind; [apply calm_check|intros]. apply calm_bind; [destruct actions, forces; cgo|intros]. apply calm_robot, mover_com.
  - apply calm_bind; [|intros; apply calm_ret]. apply calm_robot, mover_inertia.
  - apply calm_bind; [|intros; apply calm_ret]. unfold py_get_joint_limits. cgo. apply mover_query, query_limits.
  - apply calm_bind; [|intros; apply calm_ret]. unfold py_compute_inter_link_sqdists. apply calm_bind; [apply calm_lift|intros rows].
    destruct pairs; [apply calm_throw|]. cgo. apply mover_dists.
  - apply calm_robot, mover_clear.
  - apply calm_bind; [|intros; apply calm_ret]. apply calm_robot, mover_query. apply query_bind; [apply query_get | intros; apply query_ret].
  - apply calm_bind; [|intros; apply calm_ret]. intros text m0 w H. unfold py_dumps. destruct (nth_error (objs w) i); exact H.
Qed.
Lemma kept_set i text m0 w w' a : kept i text m0 w -> py_set_q i (s_jids a) (s_q a) (s_base a) w = (w', Ok tt) -> kept i text m0 w'.
Proof.
  intros (T & o & m & la & ls & n & k & Eo & X & Er & Ha & Hs & S1 & F1 & C1 & S2 & F2 & L2) E.
  assert (T' : tidy w') by (apply (tidy_acts i w); auto; exact (act_set_q i _ _ _ _ _ _ E)).
  rewrite (set_q_eq i a w o m Eo Er) in E. destruct (kset a m) as [m' r] eqn:Em. cbn [fst snd] in E. inversion E; subst. split; [exact T'|].
  destruct (kset_frame a m m' Em) as [G1 G2]. destruct (kset_anywhere a m m' k Em L2) as (k' & Ek & H1 & H2).
  exists (mkPy (py_xml o) (Some m') (py_add o) (py_set o)), m', la, (ls ++ [a]), n, k'. split; [now apply (upd_at i o _ (mkW _ _ (objs w)) o)|].
  cbn [py_xml py_robot py_add py_set upd w_put_obj heap_add heap_set]. rewrite map_app. cbn [map].
  repeat split; auto; try congruence; [now apply hist_append_at | exact (steps_snoc _ _ _ _ _ S2 Ek)].
Qed.
Lemma kept_add i text m0 w w' a : kept i text m0 w -> py_add_new_link i (a_name a) (a_parent a) (a_pos a) (a_rpy a) w = (w', Ok tt) -> kept i text m0 w'.
Proof.
  intros (T & o & m & la & ls & n & k & Eo & X & Er & Ha & Hs & S1 & F1 & C1 & S2 & F2 & L2) E.
  assert (T' : tidy w') by (apply (tidy_acts i w); auto; exact (act_add i _ _ _ _ _ _ _ E)).
  rewrite (add_eq i a w o m Eo Er) in E. destruct (kadd a m) as [m' r] eqn:Em. cbn [fst snd] in E. inversion E; subst. split; [exact T'|].
  destruct (kadd_frame a m m' Em) as [G1 G2]. destruct (G2 n F1) as (n' & En & Fn & Cn). destruct (sets_again ls n k S2 n' Cn) as (k' & Sk & Ck & Shk).
  exists (mkPy (py_xml o) (Some m') (py_add o) (py_set o)), m', (la ++ [a]), ls, n', k'. split; [now apply (upd_at i o _ (mkW _ _ (objs w)) o)|].
  cbn [py_xml py_robot py_add py_set upd w_put_obj heap_add heap_set]. rewrite map_app. cbn [map].
  assert (F3 : frame k' = frame n') by now apply frame_shape. assert (Jk : joint_angles k' = joint_angles k) by (unfold conf in Ck; now inversion Ck).
  rewrite Jk, (kadd_angles a m m' Em).
  repeat split; auto; try congruence; [now apply hist_append_at | exact (steps_snoc _ _ _ _ _ S1 En)].
Qed.
Lemma run_kept i cs text m0 : forall w w', kept i text m0 w -> run_edited tinyxml i cs w = Some w' -> kept i text m0 w'.
Proof.
  induction cs as [|c cs IH]; intros w w' H E; cbn [run_edited] in E; [inversion E; now subst|].
  destruct (on i c && copies c) eqn:Cp; [discriminate|].
  assert (O : forall w1 r, py_exec tinyxml c w = (w1, r) -> fine r -> on i c = false -> kept i text m0 w1).
  { intros w1 r Ec F On. destruct H as (T & o & m & la & ls & n & k & Eo & X & Er & Ha & Hs & Q). destruct (exec_keeps tinyxml c w w1 r T Ec F) as [T1 K]. destruct (K i o Eo On) as (E1 & E2 & E3).
    split; auto. exists o, m, la, ls, n, k. split; [auto|]. split; [auto|]. split; [auto|]. split; [congruence|]. split; [congruence|]. exact Q. }
  assert (C : forall w1 r, py_exec tinyxml c w = (w1, r) -> on i c = true -> edits c = false -> kept i text m0 w1).
  { intros w1 r Ec On Ed. rewrite On in Cp. cbn [andb] in Cp. pose proof (calm_exec i c On Ed Cp text m0 w H) as G. now rewrite Ec in G. }
  destruct (py_exec tinyxml c w) as [w1 [u|e|u|]] eqn:Ec; try discriminate.
  - apply (IH w1); [|exact E]. destruct (on i c) eqn:On; [|exact (O _ _ eq_refl I eq_refl)]. destruct (edits c) eqn:Ed; [|exact (C _ _ eq_refl eq_refl eq_refl)].
    destruct u. unfold on in On. destruct c; try discriminate Ed; cbn [target py_exec] in *; apply Nat.eqb_eq in On; subst.
    + exact (kept_set i text m0 w w1 (mkSet jids q bt) H Ec).
    + exact (kept_add i text m0 w w1 (mkAdd name parent pos rpy) H Ec).
  - destruct (on i c) eqn:On; cbn [andb] in E.
    + destruct (edits c) eqn:Ed; [discriminate|]. apply (IH w1); [exact (C _ _ eq_refl eq_refl eq_refl) | exact E].
    + apply (IH w1); [exact (O _ _ eq_refl I eq_refl) | exact E].
Qed.
Lemma init_kept text w w1 i : tidy w -> py_init tinyxml text w = (w1, Ok i) -> exists m0, ctor tinyxml text = Ok m0 /\ kept i text m0 w1.
Proof.
  intros T E. pose proof (tidy_makes _ _ _ _ T (init_makes tinyxml _ _ _ _ E I)) as T1. unfold py_init in E. destruct (String.eqb text ""); [discriminate|].
  destruct (ctor tinyxml text) as [m0|e|u|]; inversion E; subst. exists m0. split; auto. split; auto. eexists. exists m0, [], [], m0, m0. split; [cbn; rewrite nth_error_app2, Nat.sub_diag by lia; reflexivity|].
  cbn. repeat split; auto; try constructor; rewrite nth_error_app2, Nat.sub_diag by lia; reflexivity.
Qed.
Lemma kept_anywhere i text m0 w : ctor tinyxml text = Ok m0 -> kept i text m0 w ->
  exists p m m', pickled w i = Some p /\ robot_of w i = Some m /\ same_structure m m' /\ length (joint_angles m') = length (joint_angles m) /\
    forall v, exists v', py_loads tinyxml p v = (v', Ok (length (objs v))) /\ robot_of v' (length (objs v)) = Some m'.
Proof.
  intros C (T & o & m & la & ls & n & k & Eo & X & Er & Ha & Hs & S1 & F1 & C1 & S2 & F2 & L2).
  exists (mkPickle (py_xml o) la ls), m, k. unfold pickled, robot_of at 1. rewrite Eo. split; [|split; [exact Er|]].
  - now rewrite (nth_error_nth _ _ _ Ha), (nth_error_nth _ _ _ Hs).
  - split; [now apply frame_same|]. split; [exact L2|]. intros v. apply (loads_ok tinyxml (mkPickle (py_xml o) la ls) v m0 n k); cbn [pk_xml pk_add pk_set]; auto. now rewrite X.
Qed.
(** a last set_q of everything brings the configuration along *)
Lemma kept_complete i text m0 w jids q w2 m : ctor tinyxml text = Ok m0 -> kept i text m0 w -> robot_of w i = Some m ->
  (forall k, k < length (joint_angles m) -> In k jids) -> py_set_q i jids q BFLOATING w = (w2, Ok tt) ->
  exists p m2 m', pickled w2 i = Some p /\ robot_of w2 i = Some m2 /\ same_structure m2 m' /\ joint_angles m' = joint_angles m2 /\ base_pose m' = base_pose m2 /\
    forall v, exists v', py_loads tinyxml p v = (v', Ok (length (objs v))) /\ robot_of v' (length (objs v)) = Some m'.
Proof.
  intros C (T & o & m1 & la & ls & n & k & Eo & X & Er & Ha & Hs & S1 & F1 & C1 & S2 & F2 & L2) Em Hk E.
  assert (m1 = m) by (unfold robot_of in Em; rewrite Eo in Em; congruence). subst m1. set (a := mkSet jids q BFLOATING).
  change (py_set_q i (s_jids a) (s_q a) (s_base a) w = (w2, Ok tt)) in E.
  rewrite (set_q_eq i a w o m Eo Er) in E. destruct (kset a m) as [m2 r] eqn:Ea. cbn [fst snd] in E. inversion E; subst. clear E.
  destruct (kset_frame a m m2 Ea) as [G1 G2]. destruct (kset_anywhere a m m2 k Ea L2) as (k' & Ek & H1 & H2).
  pose proof (kset_all jids q m m2 k k' Ea Ek L2 Hk) as CC. unfold conf in CC. inversion CC as [[CA CB]].
  set (p := mkPickle (py_xml o) la (ls ++ [a])). exists p, m2, k'. unfold pickled, robot_of at 1.
  rewrite (upd_at i o m2 (mkW _ _ (objs w)) o Eo). cbn [py_xml py_robot py_add py_set]. split; [|split; [reflexivity|]].
  - cbn [upd w_put_obj heap_add heap_set]. rewrite (nth_error_nth _ _ _ Ha), (nth_error_nth _ _ _ (hist_append_at _ _ a _ Hs)). reflexivity.
  - split; [apply frame_same; congruence|]. split; [exact CA|]. split; [exact CB|].
    intros v. apply (loads_ok tinyxml p v m0 n k'); cbn [p pk_xml pk_add pk_set]; auto. rewrite map_app. exact (steps_snoc _ _ _ _ _ S2 Ek).
Qed.
End World.
