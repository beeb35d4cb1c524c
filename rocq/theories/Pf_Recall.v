(** Calls without a base that trust the cache: once every pose they ask for is remembered, they
    answer what they answered before, whatever the joint angles are now (lemmas for C34, C20). *)
From Coq Require Import String List Arith Lia Bool.
From Verif Require Import Base Num Pose DataStructure Urdf Kin Wrapper Spec_Robot Spec_Hist Spec_Load Spec_Jac Spec_Mass
  Pf_Base Pf_Data Inv Pf_FK Pf_Frame Pf_Rp Rep Pf_Ops Pf_Reach Pf_Jac Pf_Pose Pf_Local Pf_Hist Pf_Wrap Pf_Mass Pf_Wrap2 Pf_Stale.
Import ListNotations.
Local Open Scope m_scope.

Section Recall.
Context `{A : Arith}.

(** the parts of a model that queries read besides angles and remembered poses *)
Definition static (m m' : KM) : Prop :=
  links m' = links m /\ joints m' = joints m /\ rptable m' = rptable m /\ base_pose m' = base_pose m /\
  com_dummy_links m' = com_dummy_links m /\ root_link_id m' = root_link_id m /\ total_mass m' = total_mass m.
(** link [i] will be answered with [P] without looking at the angles *)
Definition knows (m : KM) (i : nat) (P : Pose) : Prop :=
  get_cache i (tcache m) = Ok (Some P) \/
  (get_cache i (tcache m) = Ok None /\ (exists l, nth_error (links m) i = Some l /\ l_parent l = None) /\ P = base_pose m).
Definition recalls (m m' : KM) : Prop := static m m' /\ forall i P, knows m i P -> knows m' i P.

Lemma static_refl m : static m m.
Proof. repeat split. Qed.
Lemma static_trans a b c : static a b -> static b c -> static a c.
Proof. intros (A1 & A2 & A3 & A4 & A5 & A6 & A7) (B1 & B2 & B3 & B4 & B5 & B6 & B7). repeat split; congruence. Qed.
Lemma recalls_refl m : recalls m m.
Proof. split; [apply static_refl | auto]. Qed.
Lemma recalls_trans a b c : recalls a b -> recalls b c -> recalls a c.
Proof. intros (S1 & K1) (S2 & K2). split; [eapply static_trans; eauto | auto]. Qed.

Lemma scratch_static m m' : scratch_only m m' -> static m m'.
Proof. intros (s & c & -> & _). repeat split. Qed.

(** ** one query *)
Lemma walk_up_new m : WF m -> forall fuel h stk stk' tf, walk_up fuel m h stk = Ok (stk', tf) -> stack_wf stk ->
  stack_wf stk' /\ exists l, stack_list stk' = stack_list stk ++ l /\
    (forall e, In e l -> get_cache (fst e) (tcache m) = Ok None /\ exists x, nth_error (links m) (fst e) = Some x /\ l_parent x <> None) /\
    (forall x, nth_error (links m) h = Some x -> l_parent x <> None -> get_cache h (tcache m) = Ok None -> exists t l', l = (h, t) :: l') /\
    (forall x, nth_error (links m) h = Some x -> l_parent x = None -> l = [] /\ tf = base_pose m).
Proof.
  intros W. induction fuel as [|fuel IH]; intros h stk stk' tf E SW; cbn [walk_up] in E; [discriminate|].
  apply rbind_ok in E. destruct E as (x & Ex & E). apply vget_ok in Ex. pose proof (wf_ids m W h x Ex) as Ei. destruct (l_parent x) as [p|] eqn:Ep.
  2:{ inversion E; subst. split; auto. exists []. rewrite app_nil_r. split; auto. split; [intros e []|]. split; [|auto].
      intros y Ey. rewrite Ex in Ey. inversion Ey; subst. congruence. }
  apply rbind_ok in E. destruct E as (o & Eo & E). rewrite Ei in *. destruct o as [tf0|].
  - inversion E; subst. split; auto. exists []. rewrite app_nil_r. split; auto. split; [intros e []|]. split; intros y Ey; rewrite Ex in Ey; inversion Ey; subst; congruence.
  - apply rbind_ok in E. destruct E as (pj & Ej & E). apply rbind_ok in E. destruct E as (t & Et & E). apply rbind_ok in E. destruct E as (stk1 & Es & E).
    destruct (stack_push_ok _ _ _ Es SW) as (W1 & L1 & _). destruct (IH _ _ _ _ E W1) as (W' & l' & L' & N' & _). split; auto.
    exists ((h, t) :: l'). split; [rewrite L', L1, <- app_assoc; reflexivity|]. split.
    + intros e [<-|I]; [|now apply N']. split; [exact Eo|]. exists x. split; [exact Ex|congruence].
    + split; [eauto|]. intros y Ey. rewrite Ex in Ey. inversion Ey; subst. congruence.
Qed.

Lemma unwind_new : forall k stk c tf stk' c' tf', unwind k stk c tf = Ok (stk', c', tf') -> cache_wf c -> stack_wf stk ->
  (forall i, (forall e, In e (stack_list stk) -> fst e <> i) -> get_cache i c' = get_cache i c) /\
  (forall e l, stack_list stk = e :: l -> get_cache (fst e) c' = Ok (Some tf')) /\ (stack_list stk = [] -> tf' = tf).
Proof.
  induction k as [|k IH]; intros stk c tf stk' c' tf' E CW SW; cbn [unwind] in E; destruct (stack_empty stk) eqn:Em; try discriminate E.
  1, 2: inversion E; subst; apply (stack_empty_list _ SW) in Em; rewrite Em; split; [auto|]; split; [discriminate|auto].
  apply rbind_ok in E. destruct E as (e & Ee & E). apply rbind_ok in E. destruct E as (stk1 & Es & E). apply rbind_ok in E. destruct E as (c1 & Ec & E).
  destruct (set_cache_wf _ _ _ _ CW Ec) as (CW1 & _).
  assert (L : exists l, stack_list stk = l ++ [e] /\ stack_list stk1 = l /\ stack_wf stk1).
  { destruct (exists_last (l := stack_list stk)) as (l & e' & El).
    - intros H. apply (stack_empty_list _ SW) in H. congruence.
    - destruct (stack_top_pop _ _ _ SW El) as (E1 & s' & E2 & W' & L' & _). rewrite Ee in E1. rewrite Es in E2. inversion E1; inversion E2; subst. eauto. }
  destruct L as (l & L1 & L2 & W1). destruct (IH _ _ _ _ _ _ E CW1 W1) as (H1 & H2 & H3). rewrite L1, L2 in *.
  split; [|split].
  - intros i N. rewrite (H1 i); [|intros e' I; apply N; apply in_or_app; now left].
    rewrite (get_set_cache _ _ _ _ _ CW Ec). assert (X : fst e <> i) by (apply N; apply in_or_app; right; now left). apply Nat.eqb_neq in X. now rewrite X.
  - intros e0 l0 El. destruct l as [|e1 l].
    + cbn in El. inversion El; subst. rewrite (H1 (fst e0)) by (intros ? []). rewrite (get_set_cache _ _ _ _ _ CW Ec), Nat.eqb_refl. now rewrite (H3 eq_refl).
    + cbn in El. inversion El; subst. now apply (H2 e0 l).
  - intros El. destruct l; discriminate.
Qed.

Lemma pose_learn m i m' P : WF m -> get_link_pose i m = (m', Ok P) -> WF m' /\ recalls m m' /\ knows m' i P.
Proof.
  intros W E. pose proof (get_link_pose_frame i m) as F. rewrite E in F. cbn [fst] in F. split; [exact (scratch_only_WF _ _ F W)|].
  unfold recalls. rewrite and_assoc. split; [now apply scratch_static|].
  unfold get_link_pose in E. rewrite bind_get in E. apply bind_inv_ok in E. destruct E as (m1 & o & E1 & E).
  apply lift_inv in E1. destruct E1 as (-> & Eo). destruct o as [tf|].
  - inversion E; subst. split; [auto|now left].
  - unfold get_link_pose_inner in E. set (stk := stack_reset (tstack m)) in *. destruct (walk_up _ m i stk) as [[stk' tf]| | |] eqn:Ew; try discriminate E.
    destruct (unwind _ _ _ _) as [[[stk'' c] tf']| | |] eqn:Eu; try discriminate E. inversion E; subst. clear E F. unfold knows. cbn [tcache set_scratch links base_pose].
    destruct (walk_up_new m W _ _ _ _ _ Ew) as (W' & l & Ll & Nl & Hl & Hr); [unfold stack_wf; simpl; lia|]. change (stack_list stk) with (@nil (nat * Pose)) in Ll. cbn [app] in Ll.
    destruct (unwind_new _ _ _ _ _ _ _ Eu (proj1 (wf_cache m W)) W') as (U1 & U2 & U3). rewrite Ll in *. split.
    + intros k Q K. assert (X : forall e, In e l -> fst e <> k).
      { intros e I Ek. destruct (Nl e I) as (C0 & x & Ex & Px). rewrite Ek in *. destruct K as [K | (_ & (y & Ey & Py) & _)]; congruence. }
      rewrite (U1 k X). exact K.
    + assert (Li : i < length (links m)).
      { destruct (Nat.lt_ge_cases i (length (links m))) as [L|L]; auto. destruct (wf_cache m W) as [CW CS]. rewrite (get_cache_range _ _ CW) in Eo by lia. discriminate. }
      destruct (lt_nth_error _ _ Li) as (x & Ex). destruct (l_parent x) as [p|] eqn:Ep.
      * destruct (Hl x Ex ltac:(congruence) Eo) as (t & l' & ->). left. exact (U2 (i, t) l' eq_refl).
      * destruct (Hr x Ex Ep) as [-> ->]. right. split; [now rewrite U1 by (intros ? [])|]. split; [eauto|]. now apply U3.
Qed.

Lemma knows_answers m i P : knows m i P -> exists m', get_link_pose i m = (m', Ok P) /\ recalls m m' /\ recalls m' m.
Proof.
  intros [K | (K & (l & El & Pl) & ->)].
  - exists m. split; [now apply pose_hit|]. split; apply recalls_refl.
  - exists (set_scratch (stack_reset (tstack m)) (tcache m) m). split; [|split; (split; [repeat split|]); unfold knows; cbn [tcache set_scratch links base_pose]; auto].
    unfold get_link_pose. rewrite bind_get, (bind_lift_ok _ _ _ _ K). unfold get_link_pose_inner. cbn [walk_up]. rewrite (proj2 (vget_ok _ _ _) El). cbn [rbind]. rewrite Pl. reflexivity.
Qed.

(** ** programs made of queries *)
Definition replayed {B} (f : M KM B) : Prop :=
  forall m m' b, WF m -> f m = (m', Ok b) -> WF m' /\ recalls m m' /\
    forall m2, WF m2 -> recalls m' m2 -> exists m3, f m2 = (m3, Ok b) /\ WF m3 /\ recalls m2 m3 /\ recalls m3 m2.

Lemma replayed_ret {B} (b : B) : replayed (ret b).
Proof. intros m m' b' W E. inversion E; subst. split; auto. split; [apply recalls_refl|]. intros m2 W2 _. exists m2. split; [reflexivity|]. split; auto. split; apply recalls_refl. Qed.
Lemma replayed_lift {B} (r : res B) : replayed (lift r).
Proof. intros m m' b' W E. apply lift_inv in E. destruct E as [-> ->]. split; auto. split; [apply recalls_refl|]. intros m2 W2 _. exists m2. split; [reflexivity|]. split; auto. split; apply recalls_refl. Qed.
Lemma replayed_pose i : replayed (get_link_pose i).
Proof.
  intros m m' P W E. destruct (pose_learn _ _ _ _ W E) as (W' & Rc & K). split; auto. split; auto. intros m2 W2 (S2 & K2).
  destruct (knows_answers _ _ _ (K2 _ _ K)) as (m3 & E3 & R1 & R2). exists m3. split; auto. split; [|auto]. exact (proj1 (pose_learn _ _ _ _ W2 E3)).
Qed.
Lemma replayed_bind {B C} (x : M KM B) (g : B -> M KM C) : replayed x -> (forall a, replayed (g a)) -> replayed (bind x g).
Proof.
  intros Hx Hg m m' b W E. apply bind_inv_ok in E. destruct E as (m1 & a & E1 & E2).
  destruct (Hx _ _ _ W E1) as (W1 & R1 & P1). destruct (Hg a _ _ _ W1 E2) as (W' & R2 & P2). split; auto. split; [eapply recalls_trans; eauto|].
  intros m2 W2 Rc. destruct (P1 m2 W2 (recalls_trans _ _ _ R2 Rc)) as (m3 & E3 & W3 & R3 & R3'). destruct (P2 m3 W3 (recalls_trans _ _ _ Rc R3)) as (m4 & E4 & W4 & R4 & R4').
  exists m4. rewrite (bind_ok _ _ _ _ _ E3). split; auto. split; auto. split; eapply recalls_trans; eauto.
Qed.
Lemma replayed_get {C} (g : KM -> M KM C) : (forall m0 m1, static m0 m1 -> g m1 = g m0) -> (forall m0, replayed (g m0)) -> replayed (bind get g).
Proof.
  intros Hs Hg m m' b W E. rewrite bind_get in E. destruct (Hg m _ _ _ W E) as (W' & R' & P'). split; auto. split; auto.
  intros m2 W2 Rc. destruct (P' m2 W2 Rc) as (m3 & E3 & H3). exists m3. rewrite bind_get, (Hs m m2); auto. apply (recalls_trans _ _ _ R' Rc).
Qed.
Lemma replayed_for_each {B C} (l : list B) (acc : C) (body : B -> C -> M KM C) : (forall b c, replayed (body b c)) -> replayed (for_each l acc body).
Proof. intros H. revert acc; induction l as [|b l IH]; intros acc; simpl; [apply replayed_ret|]. apply replayed_bind; auto. Qed.

Ltac statics := let m0 := fresh in let m1 := fresh in intros m0 m1 (?E1 & ?E2 & ?E3 & ?E4 & ?E5 & ?E6 & ?E7); rewrite ?E1, ?E2, ?E3, ?E4, ?E5, ?E6, ?E7; reflexivity.
Ltac rgo :=
  lazymatch goal with
  | |- replayed (bind get _) => apply replayed_get; [statics | intros; rgo]
  | |- replayed (bind _ _) => apply replayed_bind; [rgo | intros; rgo]
  | |- replayed (ret _) => apply replayed_ret
  | |- replayed (lift _) => apply replayed_lift
  | |- replayed (for_each _ _ _) => apply replayed_for_each; intros; rgo
  | |- replayed (get_link_pose _) => apply replayed_pose
  | |- replayed (if ?b then _ else _) => destruct b; rgo
  | |- replayed (match ?x with _ => _ end) => destruct x; rgo
  | |- _ => auto
  end.

Lemma replayed_jacobian e jids rt wb : replayed (get_jacobian e jids rt wb).
Proof. unfold get_jacobian, jacobian_joint, jacobian_base. rgo. Qed.
Lemma replayed_com : replayed get_com.
Proof. unfold get_com. rgo. Qed.
Lemma replayed_com_jacobian jids wb : replayed (get_com_jacobian jids wb).
Proof. unfold get_com_jacobian. rgo. apply replayed_jacobian. Qed.
Lemma replayed_poses rt i el P : replayed (fk_poses rt i el P).
Proof. unfold fk_poses. rgo. Qed.
Lemma replayed_jacs rt i el jids wb J : replayed (fk_jacs rt i el jids wb J).
Proof. unfold fk_jacs. rgo. apply replayed_jacobian. Qed.
Lemma replayed_forces jids ac fo wb wj com B : replayed (apply_forces jids ac fo wb wj com B).
Proof. unfold apply_forces. rgo. apply replayed_jacobian. Qed.

(** ** programs whose questions have been asked before *)
Definition asked {B} (f : M KM B) (mg : KM) : Prop := exists ma mb b, WF ma /\ f ma = (mb, Ok b) /\ recalls mb mg.
Definition settled {B} (f : M KM B) (mg : KM) : Prop :=
  forall m1 m2 m3 b, WF m1 -> WF m2 -> recalls mg m1 -> recalls m1 m2 -> f m2 = (m3, Ok b) ->
    exists m1', f m1 = (m1', Ok b) /\ WF m1' /\ WF m3 /\ recalls m1 m1' /\ recalls m1' m3.

Lemma asked_settled {B} (f : M KM B) mg : replayed f -> asked f mg -> settled f mg.
Proof.
  intros Hf (ma & mb & y & Wa & Ea & Rb) m1 m2 m3 b W1 W2 R1 R2 E. destruct (Hf _ _ _ Wa Ea) as (_ & _ & P).
  destruct (P m1 W1 (recalls_trans _ _ _ Rb R1)) as (m1' & E1 & W1' & R3 & R3').
  destruct (P m2 W2 (recalls_trans _ _ _ (recalls_trans _ _ _ Rb R1) R2)) as (m3' & E2 & W3 & R4 & R4'). rewrite E in E2. inversion E2; subst.
  exists m1'. split; auto. split; auto. split; auto. split; auto. exact (recalls_trans _ _ _ R3' (recalls_trans _ _ _ R2 R4)).
Qed.
Lemma settled_ret {B} (b : B) mg : settled (ret b) mg.
Proof. intros m1 m2 m3 b' W1 W2 R1 R2 E. inversion E; subst. exists m1. split; [reflexivity|]. split; auto. split; auto. split; [apply recalls_refl|auto]. Qed.
Lemma settled_lift {B} (r : res B) mg : settled (lift r) mg.
Proof. intros m1 m2 m3 b' W1 W2 R1 R2 E. apply lift_inv in E. destruct E as [-> ->]. exists m1. split; [reflexivity|]. split; auto. split; auto. split; [apply recalls_refl|auto]. Qed.
Lemma settled_bind {B C} (x : M KM B) (g : B -> M KM C) mg : settled x mg -> (forall a, settled (g a) mg) -> settled (bind x g) mg.
Proof.
  intros Hx Hg m1 m2 m3 b W1 W2 R1 R2 E. apply bind_inv_ok in E. destruct E as (m4 & a & E1 & E2).
  destruct (Hx _ _ _ _ W1 W2 R1 R2 E1) as (m1' & X1 & W1' & W4 & R3 & R4). destruct (Hg a _ _ _ _ W1' W4 (recalls_trans _ _ _ R1 R3) R4 E2) as (m1'' & X2 & W1'' & W3 & R5 & R6).
  exists m1''. rewrite (bind_ok _ _ _ _ _ X1). split; auto. split; auto. split; auto. split; auto. eapply recalls_trans; eauto.
Qed.
Lemma settled_get {C} (g : KM -> M KM C) mg : (forall m0 m1, static m0 m1 -> g m1 = g m0) -> (forall m0, static mg m0 -> settled (g m0) mg) -> settled (bind get g) mg.
Proof.
  intros Hs Hg m1 m2 m3 b W1 W2 R1 R2 E. rewrite bind_get in E. rewrite bind_get. rewrite (Hs m1 m2 (proj1 R2)) in E. eapply (Hg m1 (proj1 R1)); eauto.
Qed.
Lemma settled_for_each {B C} (l : list B) (body : B -> C -> M KM C) mg : (forall b c, In b l -> settled (body b c) mg) -> forall acc, settled (for_each l acc body) mg.
Proof.
  intros H. induction l as [|b l IH]; intros acc; simpl; [apply settled_ret|]. apply settled_bind; [apply H; now left|]. intros a. apply IH. intros b' c I. apply H. now right.
Qed.

Lemma asked_later {B} (f : M KM B) m m' : asked f m -> recalls m m' -> asked f m'.
Proof. intros (ma & mb & b & W & E & Rb) R'. exists ma, mb, b. split; auto. split; auto. eapply recalls_trans; eauto. Qed.
Lemma asked_run {B} (f : M KM B) m m' b : WF m -> f m = (m', Ok b) -> asked f m'.
Proof. intros W E. exists m, m', b. split; auto. split; auto. apply recalls_refl. Qed.
Lemma asked_bind {B C} (x : M KM B) (g : B -> M KM C) mg : replayed x -> (forall a, replayed (g a)) -> asked (bind x g) mg -> asked x mg /\ exists a, asked (g a) mg.
Proof.
  intros Hx Hg (ma & mb & b & W & E & Rb). apply bind_inv_ok in E. destruct E as (m1 & a & E1 & E2). destruct (Hx _ _ _ W E1) as (W1 & R1 & _). destruct (Hg a _ _ _ W1 E2) as (_ & R2 & _).
  split; [exists ma, m1, a | exists a, m1, mb, b]; split; auto; split; auto. eapply recalls_trans; eauto.
Qed.
Lemma asked_get {C} (g : KM -> M KM C) mg : asked (bind get g) mg -> exists m0, asked (g m0) mg.
Proof. intros (ma & mb & b & W & E & Rb). rewrite bind_get in E. exists ma, ma, mb, b. auto. Qed.
Lemma asked_for_each {B C} (body : B -> C -> M KM C) : (forall b c, replayed (body b c)) -> forall l acc mg, asked (for_each l acc body) mg -> forall b, In b l -> exists c, asked (body b c) mg.
Proof.
  intros H. induction l as [|b0 l IH]; intros acc mg Ha b I; [easy|]. cbn [for_each] in Ha.
  destruct (asked_bind _ _ _ (H b0 acc) (fun a => replayed_for_each l a body H) Ha) as (H1 & a & H2). destruct I as [<-|I]; eauto.
Qed.

(** ** the loops of the batch calls *)
Lemma settled_poses rt i i' el P P' mg : asked (fk_poses rt i el P) mg -> settled (fk_poses rt i' el P') mg.
Proof.
  intros Ha. unfold fk_poses in *. apply settled_for_each. intros [k e] c I. apply settled_bind; [|intros; apply settled_lift].
  apply asked_settled; [apply replayed_pose|]. edestruct @asked_for_each as (c0 & Hc); [|exact Ha|exact I|]; [intros; cbv beta; rgo|].
  cbv beta in Hc. apply asked_bind in Hc; [exact (proj1 Hc) | rgo | intros; rgo].
Qed.
Lemma settled_jacs rt i i' el jids wb J J' mg : asked (fk_jacs rt i el jids wb J) mg -> settled (fk_jacs rt i' el jids wb J') mg.
Proof.
  intros Ha. unfold fk_jacs in *. apply settled_for_each. intros [k e] c I. apply settled_bind; [|intros; apply settled_lift].
  apply asked_settled; [apply replayed_jacobian|]. edestruct @asked_for_each as (c0 & Hc); [|exact Ha|exact I|]; [intros; cbv beta; rgo; apply replayed_jacobian|].
  cbv beta in Hc. apply asked_bind in Hc; [exact (proj1 Hc) | apply replayed_jacobian | intros; rgo].
Qed.
Lemma settled_forces jids ac fo wb wj com B com' B' mg : asked (apply_forces jids ac fo wb wj com B) mg -> settled (apply_forces jids ac fo wb wj com' B') mg.
Proof.
  intros Ha. unfold apply_forces in *. destruct ac as [|a0 ac]; [apply settled_ret|].
  apply asked_bind in Ha; [|rgo; apply replayed_jacobian|intros [[f1 f2] f3]; rgo]. destruct Ha as [Ha _].
  apply settled_bind; [|intros [[f1 f2] f3]; apply settled_ret].
  apply settled_for_each. intros [k e] [[f1 f2] f3] I.
  edestruct @asked_for_each as (c0 & Hc); [|exact Ha|exact I|]; [intros b c; cbv beta; destruct c as [[? ?] ?]; rgo; apply replayed_jacobian|].
  cbv beta in Hc. destruct c0 as [[g1 g2] g3]. apply asked_get in Hc. destruct Hc as (m0 & Hc).
  apply asked_bind in Hc; [|rgo|intros; rgo; apply replayed_jacobian]. destruct Hc as (_ & f & Hc). cbv zeta in Hc.
  apply asked_bind in Hc; [|rgo|intros; rgo; apply replayed_jacobian]. destruct Hc as (Hp & p & Hc).
  apply asked_bind in Hc; [|rgo; apply replayed_jacobian|intros; rgo]. destruct Hc as (Hj & _).
  apply settled_get; [statics|]. intros m1 _. apply settled_bind; [apply settled_lift|]. intros f'. cbv zeta.
  apply settled_bind; [apply asked_settled; [apply replayed_pose|exact Hp]|]. intros p'. apply settled_bind; [|intros; apply settled_ret].
  destruct wj; [|apply settled_ret]. apply settled_bind; [|intros; apply settled_ret]. apply asked_settled; [apply replayed_jacobian|].
  apply asked_bind in Hj; [exact (proj1 Hj) | apply replayed_jacobian | intros; rgo].
Qed.

(** the bodies of the two loops *)
Definition fk_body rt el jids wj (i : nat) (PJ : mat * mat) : M KM (mat * mat) :=
  P <- fk_poses rt i el (fst PJ) ;; J <- (if wj : bool then fk_jacs rt i el jids false (snd PJ) else ret (snd PJ)) ;; ret (P, J).
Definition com_body jids actions forces wj (i : nat) (acc : mat * mat) : M KM (mat * mat) :=
  com <- get_com ;;
  B <- (if wj : bool then get_com_jacobian jids false else ret (mat_zero 3 (length jids + 0))) ;;
  r <- apply_forces jids actions forces false wj com B ;;
  P <- lift (mat_set_row i 0 (v_list (fst r)) (fst acc)) ;;
  J <- lift (mat_set_block (3 * i) (snd r) (snd acc)) ;; ret (P, J).

Lemma query_fk_body rt el jids wj i acc : query (fk_body rt el jids wj i acc).
Proof. unfold fk_body. qgo; auto using query_fk_poses, query_fk_jacs. Qed.
Lemma query_com_body jids ac fo wj i acc : query (com_body jids ac fo wj i acc).
Proof. unfold com_body. qgo; auto using query_get_com, query_get_com_jacobian, query_apply_forces. Qed.
Lemma replayed_fk_body rt el jids wj i acc : replayed (fk_body rt el jids wj i acc).
Proof. unfold fk_body. rgo; auto using replayed_poses, replayed_jacs. Qed.
Lemma replayed_com_body jids ac fo wj i acc : replayed (com_body jids ac fo wj i acc).
Proof. unfold com_body. rgo; auto using replayed_com, replayed_com_jacobian, replayed_forces. Qed.
Lemma settled_fk_body rt el jids wj i acc i' acc' mg : asked (fk_body rt el jids wj i acc) mg -> settled (fk_body rt el jids wj i' acc') mg.
Proof.
  unfold fk_body. intros Ha. apply asked_bind in Ha; [|apply replayed_poses|intros; rgo; auto using replayed_jacs]. destruct Ha as (H1 & P & Ha).
  apply asked_bind in Ha; [|rgo; auto using replayed_jacs|intros; rgo]. destruct Ha as (H2 & _).
  apply settled_bind; [eapply settled_poses; exact H1|]. intros P'. apply settled_bind; [|intros; apply settled_ret]. destruct wj; [eapply settled_jacs; exact H2 | apply settled_ret].
Qed.
Lemma settled_com_body jids ac fo wj i acc i' acc' mg : asked (com_body jids ac fo wj i acc) mg -> settled (com_body jids ac fo wj i' acc') mg.
Proof.
  unfold com_body. intros Ha. apply asked_bind in Ha; [|apply replayed_com|intros; rgo; auto using replayed_com_jacobian, replayed_forces]. destruct Ha as (H1 & com & Ha).
  apply asked_bind in Ha; [|rgo; auto using replayed_com_jacobian|intros; rgo; auto using replayed_forces]. destruct Ha as (H2 & B & Ha).
  apply asked_bind in Ha; [|apply replayed_forces|intros; rgo]. destruct Ha as (H3 & _).
  apply settled_bind; [apply asked_settled; [apply replayed_com|exact H1]|]. intros com'.
  apply settled_bind; [destruct wj; [apply asked_settled; [apply replayed_com_jacobian|exact H2] | apply settled_ret]|]. intros B'.
  apply settled_bind; [eapply settled_forces; exact H3|]. intros r. apply settled_bind; [apply settled_lift|]. intros P'. apply settled_bind; [apply settled_lift|]. intros; apply settled_ret.
Qed.

(** ** waypoints without a base, one cleared cache for all of them *)
Lemma waypoint_repeat {C} (R : Robot) root sorted jsorted ms mass jids (g : nat -> C -> M KM C) q0 qs s (Inv : nat -> C -> Prop) :
  (forall i acc, query (g i acc)) -> (forall i acc i' acc' mg, asked (g i acc) mg -> settled (g i' acc') mg) ->
  (forall i acc acc' m1 m2, Rep R root sorted jsorted ms mass (at_waypoint jids false q0 s) m1 -> Good m1 -> i < S (length qs) ->
     Inv i acc -> g i acc m1 = (m2, Ok acc') -> Inv (S i) acc') ->
  forall m m' acc acc', Rep R root sorted jsorted ms mass s m -> (forall i P, get_cache i (tcache m) <> Ok (Some P)) ->
  for_each (enumerate (q0 :: qs)) acc (fun iq acc => goto_waypoint jids (snd iq) false false ;;; g (fst iq) acc) m = (m', Ok acc') ->
  Inv 0 acc -> Inv (S (length qs)) acc'.
Proof.
  intros Q St Step m m' acc acc' HR Hb X I0. unfold enumerate in X. cbn [length seq combine] in X. rewrite for_each_cons in X. cbn [fst snd] in X.
  apply bind_inv_ok in X. destruct X as (mg & acc1 & E & X). apply bind_inv_ok in E. destruct E as (m1 & [] & E1 & E2).
  destruct (goto_Rep _ _ _ _ _ _ _ _ _ _ _ _ _ HR E1) as [R1 _]. pose proof (goto_ok _ _ _ _ _ _ E1) as (Em & _).
  assert (G1 : Good m1). { split; [apply R1|]. intros i P Ec. subst m1. cbn in Ec. now apply Hb in Ec. }
  destruct (query_keeps _ _ _ _ _ _ _ _ _ _ _ (Q 0 acc) R1 G1 E2) as [Rg Gg].
  assert (I1 : Inv 1 acc1) by exact (Step 0 _ _ _ _ R1 G1 (Nat.lt_0_succ _) I0 E2).
  pose proof (asked_run _ _ _ _ (proj1 G1) E2) as Ag. clear Em Hb.
  enough (Y : forall rest k m2 acc2 s2, k + length rest = S (length qs) -> 1 <= k -> Inv k acc2 -> Rep R root sorted jsorted ms mass s2 m2 -> recalls mg m2 ->
     for_each (combine (seq k (length rest)) rest) acc2 (fun iq acc => goto_waypoint jids (snd iq) false false ;;; g (fst iq) acc) m2 = (m', Ok acc') -> Inv (S (length qs)) acc').
  { exact (Y qs 1 mg acc1 _ eq_refl (le_n 1) I1 Rg (recalls_refl _) X). }
  clear X I1 E1 E2 R1 G1. induction rest as [|q rest IH]; intros k m2 acc2 s2 Lk K1 I2 R2 Rc X.
  - simpl in *. inversion X; subst. now replace (S (length qs)) with k by lia.
  - cbn [length seq combine] in *. rewrite for_each_cons in X. cbn [fst snd] in X. apply bind_inv_ok in X. destruct X as (m4 & acc4 & E & X).
    apply bind_inv_ok in E. destruct E as (m3 & [] & E1 & E2). destruct (goto_Rep _ _ _ _ _ _ _ _ _ _ _ _ _ R2 E1) as [R3 _].
    assert (Rc3 : recalls mg m3). { apply (recalls_trans _ _ _ Rc). pose proof (goto_ok _ _ _ _ _ _ E1) as (-> & _). split; [repeat split|]. intros i P K. exact K. }
    destruct (St 0 acc k acc2 mg Ag mg m3 m4 acc4 (proj1 Gg) (rep_wf _ _ _ _ _ _ _ _ R3) (recalls_refl _) Rc3 E2) as (mg' & Eg & _ & _ & Rg1 & Rg2).
    destruct (Q k acc2 m3) as [SO _]. rewrite E2 in SO. cbn [fst] in SO.
    apply (IH (S k) m4 acc4 (at_waypoint jids false q s2)); auto; try lia.
    + assert (Lk' : k < S (length qs)) by (clear - Lk; lia). exact (Step k _ _ _ _ Rg Gg Lk' I2 Eg).
    + exact (Rep_scratch _ _ _ _ _ _ _ _ _ R3 SO).
    + exact (recalls_trans _ _ _ Rg1 Rg2).
Qed.
Section Repeat.
Context (R : Robot) (root : string) (sorted : list (string * option Inertial)) (jsorted : list UJoint) (ms : list (string * Inertial)) (mass : num).
Notation Rep := (Rep R root sorted jsorted ms mass).
Notation named_pose := (named_pose R root sorted jsorted).
Notation named_jac := (named_jac R root sorted jsorted).
Notation wp_pose := (wp_pose R root sorted jsorted).
Notation wp_jac := (wp_jac R root sorted jsorted).
Notation fk_poses_ok := (fk_poses_ok R root sorted jsorted ms mass).
Notation fk_jacs_ok := (fk_jacs_ok R root sorted jsorted ms mass).
Notation apply_forces_ok := (apply_forces_ok R root sorted jsorted ms mass).
Notation forced_jac := (forced_jac R root sorted jsorted ms mass).

(** [solve_fk_ok] for a fixed base and one cleared cache: every waypoint is answered as the first *)
Lemma fk_repeats q0 qs0 el jids rt wj s m m' P J : let qs := repeat q0 (S (length qs0)) in let wb := false in
  Rep s m -> (forall i P, get_cache i (tcache m) <> Ok (Some P)) -> (forall k, In k jids -> k < length jsorted) ->
  solve_forward_kinematics (q0 :: qs0) el jids rt false wj true m = (m', Ok (P, J)) ->
  (exists ps, P = map (pose_entries rt) ps /\ length ps = length qs * length el /\
     forall a b p, a < length qs -> b < length el -> nth_error ps (a * length el + b) = Some p -> wp_pose jids wb s qs el a b p) /\
  (wj = true -> exists Bs, J = concat Bs /\ length Bs = length qs * length el /\ (forall B, In B Bs -> length B = dim_jacobi rt) /\
     forall a b B, a < length qs -> b < length el -> nth_error Bs (a * length el + b) = Some B -> wp_jac jids wb s rt qs el a b B) /\
  (wj = false -> J = mat_zero (length qs * length el * dim_jacobi rt) (length jids)).
Proof.
  intros qs wb HR Hcl Hk E. unfold solve_forward_kinematics in E.
  apply bind_inv_ok in E. destruct E as (m1 & [] & E0 & E). inversion E0; subst m1. clear E0.
  change (length (q0 :: qs0)) with (S (length qs0)) in E. assert (Ln : S (length qs0) = length qs) by (unfold qs; now rewrite repeat_length). rewrite Ln in E.
  assert (At : forall i, i < S (length qs0) -> nth_error qs i = Some q0) by (intros i Li; unfold qs; now apply nth_error_repeat). clearbody qs.
  set (w := length el) in *. set (d := dim_jacobi rt) in *. set (n := length qs) in *.
  set (Inv := fun (i : nat) (PJ : mat * mat) =>
    (exists ps rest, fst PJ = map (pose_entries rt) ps ++ rest /\ length rest = (n - i) * w /\ (forall row, In row rest -> length row = d) /\
       length ps = i * w /\ forall a b p, a < i -> b < w -> nth_error ps (a * w + b) = Some p -> wp_pose jids wb s qs el a b p) /\
    (wj = true -> exists Bs rest, snd PJ = concat Bs ++ rest /\ length rest = (n - i) * w * d /\ (forall B, In B Bs -> length B = d) /\
       length Bs = i * w /\ forall a b B, a < i -> b < w -> nth_error Bs (a * w + b) = Some B -> wp_jac jids wb s rt qs el a b B) /\
    (wj = false -> snd PJ = mat_zero (n * w * d) (length jids))).
  assert (X : Inv n (P, J)).
  { rewrite <- Ln. apply (waypoint_repeat R root sorted jsorted ms mass jids (fk_body rt el jids wj) q0 qs0 s Inv) with (m := m) (m' := m') (acc := (mat_zero (n * w) d, mat_zero (n * w * d) (length jids))); auto.
    - intros. apply query_fk_body.
    - intros i acc i' acc' mg. apply settled_fk_body.
    - intros i [P0 J0] PJ' m1 m2 R1 G1 Li0 ((ps & rest & EP & Lr & Hr & Lp & Hp) & HJ & HJ0) X. unfold fk_body in X. set (q := q0).
      assert (Eq : nth_error qs i = Some q) by (unfold q; now apply At).
      cbn [fst snd] in *. apply bind_inv_ok in X. destruct X as (m3 & P1 & X1 & X). apply bind_inv_ok in X. destruct X as (m4 & J1 & X2 & X3).
      inversion X3; subst m4 PJ'. clear X3. assert (Li : i < n) by (eapply nth_error_lt; eauto).
      subst P0. destruct (fk_poses_ok rt i el _ _ rest m1 m3 P1 R1 G1 ltac:(rewrite map_length; exact Lp) Hr X1) as ((R3 & G3) & ps1 & Lp1 & Hp1 & Lr1 & EP1).
      fold w in Lp1, Lr1, EP1. split; [|split].
      + exists (ps ++ ps1), (skipn w rest). cbn [fst]. split; [rewrite EP1, map_app; reflexivity|].
        split; [rewrite skipn_length, Lr; replace (n - i) with (S (n - S i)) by lia; simpl; lia|].
        split; [intros row Ir; apply Hr; rewrite <- (firstn_skipn w rest); apply in_or_app; now right|].
        apply grid_grow; auto. intros b p Lb Ep. destruct (lt_nth_error el b Lb) as (e & Ee). exists q, e. repeat split; auto. now apply (Hp1 b).
      + intros ->. destruct (HJ eq_refl) as (Bs & rs & EJ & Lrs & HBl & LB & HB). subst J0.
        assert (LcB : length (concat Bs) = i * (w * d)) by (rewrite (concat_block_length Bs d HBl), LB; lia).
        destruct (fk_jacs_ok rt i el jids wb _ _ rs m3 m2 J1 R3 G3 LcB Hk X2) as (_ & Bs1 & LB1 & HB1 & HBl1 & Lr2 & EJ1).
        fold w d in LB1, Lr2, EJ1, HBl1. exists (Bs ++ Bs1), (skipn (w * d) rs). cbn [snd]. split; [rewrite EJ1, concat_app; reflexivity|].
        split; [rewrite skipn_length, Lrs; replace (n - i) with (S (n - S i)) by lia; simpl; lia|].
        split; [intros B IB; apply in_app_or in IB; destruct IB; auto|].
        apply grid_grow; auto. intros b B Lb EB. destruct (lt_nth_error el b Lb) as (e & Ee). exists q, e. repeat split; auto. now apply (HB1 b).
      + intros ->. cbn [snd]. inversion X2; subst. auto.
    - split; [|split]; cbn [fst snd]; auto.
      + exists [], (mat_zero (n * w) d). split; auto. unfold mat_zero. rewrite repeat_length. split; [f_equal; lia|].
        split; [intros row Ir; apply repeat_spec in Ir; subst; apply repeat_length|]. split; auto. intros; lia.
      + intros _. exists [], (mat_zero (n * w * d) (length jids)). split; auto. unfold mat_zero. rewrite repeat_length. split; [do 2 f_equal; lia|].
        split; [easy|]. split; auto. intros; lia. }
  destruct X as ((ps & rest & EP & Lr & _ & Lp & Hp) & HJ & HJ0). cbn [fst snd] in *. rewrite Nat.sub_diag in *. simpl in Lr.
  destruct rest; [|discriminate]. rewrite app_nil_r in EP. split; [exists ps; auto|]. split; auto.
  intros Hw. destruct (HJ Hw) as (Bs & rs & EJ & Lrs & HBl & LB & HB). destruct rs; [|discriminate]. rewrite app_nil_r in EJ. exists Bs. auto.
Qed.


(** the same for the centre of mass *)
Lemma com_repeats q0 qs0 jids actions forces wj s m m' P J : let qs := repeat q0 (S (length qs0)) in
  Rep s m -> (forall i P, get_cache i (tcache m) <> Ok (Some P)) -> has_com ms s -> (forall k, In k jids -> k < length jsorted) ->
  solve_com_forward_kinematics (q0 :: qs0) jids actions forces false wj m = (m', Ok (P, J)) ->
  (exists cs, P = map v_list cs /\ length cs = length qs /\
     forall a q c, nth_error qs a = Some q -> nth_error cs a = Some c ->
       exists com ps, is_com R root jsorted ms (at_waypoint jids false q s) com /\ Forall2 (named_pose (at_waypoint jids false q s)) actions ps /\
         c = forced_point mass com (combine forces (map position ps))) /\
  (wj = true -> exists Bs, J = concat Bs /\ length Bs = length qs /\ (forall B, In B Bs -> length B = 3) /\
     forall a q B, nth_error qs a = Some q -> nth_error Bs a = Some B -> forced_jac (at_waypoint jids false q s) jids actions forces false B).
Proof.
  intros qs HR Hcl Hc Hk E. unfold solve_com_forward_kinematics in E.
  change (length (q0 :: qs0)) with (S (length qs0)) in E. assert (Ln : S (length qs0) = length qs) by (unfold qs; now rewrite repeat_length). rewrite Ln in E.
  assert (At : forall i, i < S (length qs0) -> nth_error qs i = Some q0) by (intros i Li; unfold qs; now apply nth_error_repeat). clearbody qs. set (n := length qs) in *.
  set (okp := fun a c => exists q com ps, nth_error qs a = Some q /\ is_com R root jsorted ms (at_waypoint jids false q s) com /\
     Forall2 (named_pose (at_waypoint jids false q s)) actions ps /\ c = forced_point mass com (combine forces (map position ps))).
  set (okj := fun a B => exists q, nth_error qs a = Some q /\ forced_jac (at_waypoint jids false q s) jids actions forces false B).
  set (Inv := fun (i : nat) (PJ : mat * mat) =>
    (exists cs rest, fst PJ = map v_list cs ++ rest /\ length rest = n - i /\ (forall row, In row rest -> length row = 3) /\ length cs = i /\
       forall a c, nth_error cs a = Some c -> okp a c) /\
    exists Bs rest, snd PJ = concat Bs ++ rest /\ length rest = 3 * (n - i) /\ (forall B, In B Bs -> length B = 3) /\ length Bs = i /\
       (wj = true -> forall a B, nth_error Bs a = Some B -> okj a B)).
  assert (X : Inv n (P, J)).
  { rewrite <- Ln. apply (waypoint_repeat R root sorted jsorted ms mass jids (com_body jids actions forces wj) q0 qs0 s Inv) with (m := m) (m' := m') (acc := (mat_zero n 3, mat_zero (3 * n) (length jids + 0))); auto.
    - intros. apply query_com_body.
    - intros i acc i' acc' mg. apply settled_com_body.
    - intros i [P0 J0] PJ' m1 m2 R1 G1 Li0 ((cs & rest & EP & Lr & Hr & Lp & Hp) & Bs & rs & EJ & Lrs & HBl & LB & HB) X. unfold com_body in X. set (q := q0).
      assert (Eq : nth_error qs i = Some q) by (unfold q; now apply At).
      cbn [fst snd] in *. subst P0 J0. assert (Li : i < n) by (eapply nth_error_lt; eauto).
      apply bind_inv_ok in X. destruct X as (m3 & com & X1 & X). apply bind_inv_ok in X. destruct X as (m4 & B & X2 & X).
      apply bind_inv_ok in X. destruct X as (m5 & [c B'] & X3 & X). cbn [fst snd] in X.
      apply bind_inv_ok in X. destruct X as (m6 & P1 & X4 & X). apply bind_inv_ok in X. destruct X as (m7 & J1 & X5 & X6).
      apply lift_inv in X4. destruct X4 as [-> X4]. apply lift_inv in X5. destruct X5 as [-> X5]. inversion X6; subst m2 PJ'. clear X6.
      pose proof (get_com_ok _ _ _ _ _ _ _ _ _ _ R1 G1 (has_com_waypoint ms jids false q s Hc) X1) as HC.
      destruct (query_keeps _ _ _ _ _ _ _ _ _ _ _ query_get_com R1 G1 X1) as [R3 G3].
      assert (R4 : (Rep (at_waypoint jids false q s) m4 /\ Good m4) /\ length B = 3 /\
                   (wj = true -> is_com_jacobian R root jsorted ms (at_waypoint jids false q s) jids false B)).
      { destruct wj.
        - pose proof (get_com_jacobian_ok _ _ _ _ _ _ _ _ _ _ _ _ R3 G3 Hk X2) as HJ.
          split; [exact (query_keeps _ _ _ _ _ _ _ _ _ _ _ (query_get_com_jacobian jids false) R3 G3 X2)|]. split; auto. eapply com_jac_len; eauto.
        - inversion X2; subst. split; auto. split; [reflexivity|discriminate]. }
      destruct R4 as ((R4 & G4) & LB3 & HJ).
      destruct (apply_forces_ok jids actions forces false wj _ com B m4 m5 c B' Hk R4 G4 X3) as (_ & _ & ps & Js & Fp & Ec & HF1 & HF0).
      assert (LB' : length B' = 3).
      { destruct wj; [destruct (HF1 eq_refl) as [FJ ->]; eapply forced_mat_len; eauto | now rewrite (HF0 eq_refl)]. }
      split.
      + cbn [fst]. rewrite <- Lp in X4. rewrite <- (map_length v_list cs) in X4.
        destruct (mat_set_row_app 3 (v_list c) _ _ _ eq_refl ltac:(lia) Hr X4) as [L0 ->].
        exists (cs ++ [c]), (skipn 1 rest). split; [rewrite map_app, <- app_assoc; reflexivity|].
        split; [rewrite skipn_length; lia|]. split; [intros row Ir; apply Hr; destruct rest; simpl in *; auto|].
        split; [rewrite app_length; simpl; lia|]. intros a c' Ea. destruct (Nat.lt_ge_cases a (length cs)) as [La|La].
        * rewrite nth_error_app1 in Ea by auto. auto.
        * pose proof (nth_error_lt _ _ _ Ea) as La'. rewrite app_length in La'. simpl in La'.
          rewrite nth_error_app2 in Ea by auto. replace (a - length cs) with 0 in Ea by lia. inversion Ea; subst c'.
          exists q, com, ps. replace a with i by lia. auto.
      + cbn [snd]. assert (LcB : length (concat Bs) = 3 * i) by (rewrite (concat_block_length Bs 3 HBl), LB; lia).
        rewrite <- LcB in X5. destruct (mat_set_block_app _ _ _ _ X5) as [L0 ->]. rewrite LB' in *.
        exists (Bs ++ [B']), (skipn 3 rs). split; [rewrite concat_app; simpl; rewrite app_nil_r, <- app_assoc; reflexivity|].
        split; [rewrite skipn_length; lia|].
        split; [intros B0 IB; apply in_app_or in IB; destruct IB as [IB|[<-|[]]]; auto|].
        split; [rewrite app_length; simpl; lia|]. intros Hw a B0 Ea. destruct (Nat.lt_ge_cases a (length Bs)) as [La|La].
        * rewrite nth_error_app1 in Ea by auto. auto.
        * pose proof (nth_error_lt _ _ _ Ea) as La'. rewrite app_length in La'. simpl in La'.
          rewrite nth_error_app2 in Ea by auto. replace (a - length Bs) with 0 in Ea by lia. inversion Ea; subst B0.
          exists q. replace a with i by lia. split; auto. destruct (HF1 Hw) as [FJ ->]. exists B, Js. auto.
    - split.
      + exists [], (mat_zero n 3). split; auto. unfold mat_zero. rewrite repeat_length. split; [lia|].
        split; [intros row Ir; apply repeat_spec in Ir; subst; reflexivity|]. split; auto. intros [|a]; discriminate.
      + exists [], (mat_zero (3 * n) (length jids + 0)). split; auto. unfold mat_zero. rewrite repeat_length. split; [lia|].
        split; [easy|]. split; auto. intros _ [|a]; discriminate. }
  destruct X as ((cs & rest & EP & Lr & _ & Lp & Hp) & Bs & rs & EJ & Lrs & HBl & LB & HB). cbn [fst snd] in *. rewrite Nat.sub_diag in *. simpl in Lr, Lrs.
  destruct rest; [|discriminate]. destruct rs; [|discriminate]. rewrite app_nil_r in *. split.
  - exists cs. split; auto. split; auto. intros a q c Eq Ec. destruct (Hp a c Ec) as (q' & com & ps & Eq' & H1 & H2 & H3).
    assert (q' = q) by congruence. subst q'. exists com, ps. auto.
  - intros Hw. exists Bs. split; auto. split; auto. split; auto. intros a q B Eq EB. destruct (HB Hw a B EB) as (q' & Eq' & H).
    assert (q' = q) by congruence. now subst q'.
Qed.

End Repeat.
End Recall.
