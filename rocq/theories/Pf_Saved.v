(** The model loaded from a saved robot; for C99. *)
From Coq Require Import String List Arith Lia Bool Permutation Sorted.
From Verif Require Import Base Num Pose DataStructure Urdf Kin Wrapper TinyXml Spec_Robot Spec_Hist Spec_Load Spec_Graph Spec_Saved Appear Export Spec_Export
  Pf_Base Pf_Data Inv Pf_FK Pf_Urdf Pf_Load Rep Pf_Ctor Pf_Ops Pf_Pose Pf_Reach Pf_Appear Pf_Export.
Import ListNotations.

Section Saved.
Context `{A : Arith}.
Context (show : num -> string).
Notation al := (saved_link show).
Notation aj := (saved_joint show).
Notation amap := (fun kl : string * ULink => (fst kl, again_ulink show (snd kl))).

Lemma aj_name j : uj_name (aj j) = uj_name j. Proof. reflexivity. Qed.

Lemma steps_again n jall : forall l,
  fold_left (link_step n) (map jkey (map aj jall)) (again_ulink show l) = again_ulink show (fold_left (link_step n) (map jkey jall) l).
Proof.
  induction jall as [|j jall IH]; intros l; [reflexivity|]. cbn [map fold_left]. rewrite <- IH. f_equal.
  unfold link_step, jkey. cbn [fst snd]. destruct l as [ln li lp lj lc].
  cbn [saved_joint again_ujoint uj_child uj_parent uj_name again_ulink ul_name ul_inertial ul_parent ul_pjoint ul_children].
  repeat match goal with |- context [if ?b then _ else _] => destruct b end; reflexivity.
Qed.
Lemma ulink_again jall ni : ulink_of (map aj jall) (al ni) = amap (ulink_of jall ni).
Proof.
  unfold ulink_of. cbn [fst snd saved_link]. rewrite <- steps_again. f_equal.
Qed.

Lemma reads_again R root sorted jall mi : ReadsAs R root sorted jall mi ->
  mi_links (again_robot show (fun _ => at_parent) mi) = map (ulink_of (map aj jall)) (map al sorted) /\
  mi_joints (again_robot show (fun _ => at_parent) mi) = map jkey (map aj jall) /\
  mi_root (again_robot show (fun _ => at_parent) mi) = root.
Proof.
  intros RA. unfold again_robot. cbn [mi_links mi_joints mi_root]. rewrite (ra_links _ _ _ _ _ RA), (ra_joints _ _ _ _ _ RA). split; [|split; [|apply RA]].
  - rewrite !map_map. apply map_ext. intros ni. symmetry. apply ulink_again.
  - rewrite !map_map. reflexivity.
Qed.

Lemma step_inertial n jall : forall l, ul_inertial (fold_left (link_step n) (map jkey jall) l) = ul_inertial l.
Proof.
  induction jall as [|j jall IH]; intros l; [reflexivity|]. cbn [map fold_left]. rewrite IH. unfold link_step.
  repeat match goal with |- context [if ?b then _ else _] => destruct b end; reflexivity.
Qed.
Lemma ulink_inertial jall ni : ul_inertial (snd (ulink_of jall ni)) = snd ni.
Proof. unfold ulink_of. cbn [snd]. rewrite step_inertial. reflexivity. Qed.
Lemma ulinks_inj j1 j2 s1 s2 : map (ulink_of j1) s1 = map (ulink_of j2) s2 -> s1 = s2.
Proof.
  intros E. apply (f_equal (map (fun kl => (fst kl, ul_inertial (snd kl))))) in E. rewrite !map_map in E.
  assert (I : forall j s, map (fun x => (fst (ulink_of j x), ul_inertial (snd (ulink_of j x)))) s = s).
  { intros j s. rewrite <- (map_id s) at 2. apply map_ext. intros x. rewrite ulink_inertial. destruct x; reflexivity. }
  now rewrite !I in E.
Qed.
Lemma jkeys_inj (l1 l2 : list UJoint) : map jkey l1 = map jkey l2 -> l1 = l2.
Proof. intros E. apply (f_equal (map snd)) in E. rewrite !map_map in E. cbn [jkey snd] in E. now rewrite !map_id in E. Qed.

(** being a tree is a matter of names *)
Lemma connected_again (js js' : list UJoint) root n : (forall j, In j js -> In (aj j) js') -> connected js root n -> connected js' root n.
Proof. intros H C. induction C as [|j I C IH]; [apply conn_root|]. exact (conn_joint js' root (aj j) (H j I) IH). Qed.
Lemma tree_again R R' root : is_tree R root -> Permutation (r_links R') (map al (r_links R)) -> Permutation (r_joints R') (map aj (r_joints R)) -> is_tree R' root.
Proof.
  intros T PL PJ.
  assert (N : Permutation (link_names R') (link_names R)).
  { unfold link_names. eapply Permutation_trans; [apply Permutation_map, PL|]. rewrite map_map. apply Permutation_refl. }
  assert (Ji : forall j', In j' (r_joints R') -> exists j, In j (r_joints R) /\ j' = aj j).
  { intros j' I. apply (Permutation_in _ PJ), in_map_iff in I. destruct I as (j & <- & I). eauto. }
  assert (Ij : forall j, In j (r_joints R) -> In (aj j) (r_joints R')).
  { intros j I. apply (Permutation_in _ (Permutation_sym PJ)), in_map, I. }
  constructor.
  - eapply Permutation_NoDup; [apply Permutation_sym, N|apply T].
  - eapply Permutation_NoDup; [apply Permutation_sym, (Permutation_map uj_name PJ)|]. rewrite map_map. apply (tree_joints _ _ T).
  - intros j' I. destruct (Ji j' I) as (j & I1 & ->). destruct (tree_ends _ _ T j I1). split; eapply Permutation_in; try apply (Permutation_sym N); assumption.
  - eapply Permutation_in; [apply (Permutation_sym N)|apply T].
  - intros j' I. destruct (Ji j' I) as (j & I1 & ->). apply (tree_root_top _ _ T j I1).
  - eapply Permutation_NoDup; [apply Permutation_sym, (Permutation_map uj_child PJ)|]. rewrite map_map. apply (tree_one_parent _ _ T).
  - intros n I. apply (connected_again (r_joints R)); [exact Ij|]. apply (tree_connected _ _ T). eapply Permutation_in; [exact N|exact I].
Qed.

Lemma massive_again sorted : map (fun a => fst (fst a)) (com_links (map al sorted)) = map (fun a => fst (fst a)) (com_links sorted).
Proof. unfold com_links. induction sorted as [|[n [i|]] l IH]; cbn [map flat_map saved_link fst snd option_map app]; [reflexivity|f_equal; exact IH|exact IH]. Qed.
Lemma jsorted_again jall : jsorted_of (map aj jall) = map aj (jsorted_of jall).
Proof.
  unfold jsorted_of. induction jall as [|j l IH]; [reflexivity|]. cbn [map filter]. replace (movable (uj_type (aj j))) with (movable (uj_type j)) by reflexivity.
  destruct (movable (uj_type j)); cbn [map]; now rewrite IH.
Qed.

(** the two models *)
Lemma saved_loads top text saved R root X X' m : saved <> ""%string ->
  loadable (fun _ => Some top) text R root -> parseURDF_all (Some top) = Some X ->
  parseURDF_all (Some (exportURDF show X)) = Some X' -> robot_of X' = again_robot show (fun _ => at_parent) (robot_of X) ->
  ctor (fun _ => Some top) text = Ok m ->
  exists m' R' sorted jsorted, ctor (fun _ => Some (exportURDF show X)) saved = Ok m' /\
    loadable (fun _ => Some (exportURDF show X)) saved R' root /\
    Permutation (r_links R') (map al (r_links R)) /\ Permutation (r_joints R') (map aj (r_joints R)) /\
    ordered R sorted jsorted /\ ordered R' (map al sorted) (map aj jsorted) /\
    mi_links (robot_of X) = map (fun ni => (fst ni, snd (ulink_of (map snd (mi_joints (robot_of X))) ni))) sorted.
Proof.
  intros NE L EX EX' ER Em. destruct (ld_xml _ _ _ _ L) as (top' & Et & D). injection Et as <-.
  destruct (parse_ok top R root D (ld_tree _ _ _ _ L) (ld_ends _ _ _ _ L)) as (mi & sorted & jall & Ep & RA).
  assert (Emi : robot_of X = mi).
  { pose proof (full_kinematics (Some top)) as K. rewrite (all_ok _ _ EX), Ep in K. now injection K. }
  rewrite Emi in *. pose proof (full_kinematics (Some (exportURDF show X))) as K. rewrite (all_ok _ _ EX') in K. cbn [option_map] in K.
  change (fm_mi (xm_model X')) with (robot_of X') in K. rewrite ER in K. symmetry in K.
  destruct (parse_inv _ _ K) as (top' & R' & Et' & D' & G'). injection Et' as <-.
  destruct (parse_graph _ _ _ D' G') as (mi' & sorted' & jall' & Ep' & RA'). rewrite K in Ep'. injection Ep' as <-.
  destruct (reads_again _ _ _ _ _ RA) as (Q1 & Q2 & Q3). rewrite Q3 in *.
  pose proof (ra_links _ _ _ _ _ RA') as Q1'. pose proof (ra_joints _ _ _ _ _ RA') as Q2'. rewrite Q1 in Q1'. rewrite Q2 in Q2'.
  apply ulinks_inj in Q1'. apply jkeys_inj in Q2'. subst sorted' jall'.
  assert (PL : Permutation (r_links R') (map al (r_links R))).
  { eapply Permutation_trans; [apply Permutation_sym, (ra_perm _ _ _ _ _ RA')|]. apply Permutation_map, (ra_perm _ _ _ _ _ RA). }
  assert (PJ : Permutation (r_joints R') (map aj (r_joints R))).
  { eapply Permutation_trans; [apply Permutation_sym, (ra_jperm _ _ _ _ _ RA')|]. apply Permutation_map, (ra_jperm _ _ _ _ _ RA). }
  assert (L' : loadable (fun _ => Some (exportURDF show X)) saved R' root).
  { constructor; auto.
    - exists (exportURDF show X). split; [reflexivity|exact D'].
    - eapply tree_again; eauto. apply (ld_tree _ _ _ _ L).
    - apply (g_named _ _ G').
    - intros j I. apply (Permutation_in _ PJ), in_map_iff in I. destruct I as (j0 & <- & I0). exact (ld_supported _ _ _ _ L j0 I0).
    - intros n i I C. apply (Permutation_in _ PL), in_map_iff in I. destruct I as ([n0 [i0|]] & E0 & I0); [|discriminate E0]. injection E0 as -> _.
      apply (ld_com _ _ _ _ L n i0 I0). unfold link_names in *. apply (Permutation_in _ (Permutation_map fst PL)) in C. rewrite map_map in C. exact C. }
  destruct (load_Rep _ _ _ _ L') as (s1 & j1 & m' & O' & Em' & _ & _). exists m', R', sorted, (jsorted_of jall).
  split; [exact Em'|]. split; [exact L'|]. split; [exact PL|]. split; [exact PJ|]. split; [eapply reads_ordered; eauto|].
  split; [rewrite <- jsorted_again; eapply reads_ordered; eauto|].
  rewrite (ra_links _ _ _ _ _ RA), (ra_joints _ _ _ _ _ RA), !map_map. cbn [jkey snd]. rewrite map_id. reflexivity.
Qed.

(** limits *)
Lemma joint_again js js' jsorted k J : Forall2 same_joint jsorted js -> Forall2 same_joint (map aj jsorted) js' ->
  vget js k = Ok J -> exists J', vget js' k = Ok J' /\ j_type J' = j_type J /\ j_limits J' = option_map (again_limits show) (j_limits J).
Proof.
  intros F F' E. unfold vget in *. destruct (nth_error js k) as [J0|] eqn:Ek; [|discriminate E]. injection E as ->.
  revert js' F' k Ek. induction F as [|j x jsorted js S F IH]; intros js' F' k Ek; [destruct k; discriminate Ek|].
  cbn [map] in F'. inversion F' as [|j' x' l l' S' Fr]; subst. destruct k as [|k].
  - injection Ek as ->. exists x'. split; [reflexivity|]. rewrite (sj_type _ _ S), (sj_limits _ _ S), (sj_type _ _ S'), (sj_limits _ _ S'). split; reflexivity.
  - exact (IH l' Fr k Ek).
Qed.
Lemma limits_again (m m' : KM) jsorted jids b : Forall2 same_joint jsorted (joints m) -> Forall2 same_joint (map aj jsorted) (joints m') ->
  get_joint_position_limits jids m = (m, Ok b) -> get_joint_position_limits jids m' = (m', Ok (map (saved_bounds show) b)).
Proof.
  intros F F' E. unfold get_joint_position_limits, bind, get, lift in *. injection E as E. f_equal.
  match type of E with rfor _ _ ?f = _ => match goal with |- rfor _ _ ?g = _ =>
    enough (X : forall acc, rfor jids acc f = Ok b -> rfor jids (map (saved_bounds show) acc) g = Ok (map (saved_bounds show) b)) by exact (X [] E) end end.
  clear E. induction jids as [|k jids IH]; intros acc E; cbn [rfor] in *.
  - injection E as <-. reflexivity.
  - destruct (vget (joints m) k) as [J| | |] eqn:EJ; try discriminate E. destruct (joint_again _ _ _ _ _ F F' EJ) as (J' & -> & T & Lm).
    cbn [rbind] in *. rewrite T, Lm. destruct (j_type J); try (destruct (j_limits J) as [l|]; cbn [deref rbind option_map] in *; [|discriminate E]);
      specialize (IH _ E); rewrite map_app in IH; exact IH.
Qed.
End Saved.
