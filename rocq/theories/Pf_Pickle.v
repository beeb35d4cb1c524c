(** Isolation of Python instances, and what pickling restores. *)
From Coq Require Import String List Arith Lia Bool.
From Verif Require Import Base Num Pose DataStructure Urdf Kin Wrapper Py Spec_Robot Spec_Hist Spec_Load Spec_Py Pf_Base Pf_Hist Pf_Py
  Spec_Jac Inv Pf_FK Pf_Rp Rep Pf_Ops Pf_Reach Pf_Jac Pf_Pose.
Import ListNotations.
Local Open Scope m_scope.

Section Kin.
Context `{A : Arith}.

(* ---- the C++ object: added links and configuration do not interact ---- *)
Definition shape (m : KM) := (root_link_id m, links m, link_ids m, com_dummy_links m, joints m, joint_ids m, rptable m, num_dof m, total_mass m, tstack m).
Definition conf (m : KM) := (joint_angles m, base_pose m).

Lemma shape_conf_same m m' : shape m = shape m' -> conf m = conf m' -> same_model m m'.
Proof. intros E F. unfold shape in E. unfold conf in F. inversion E. inversion F. constructor; congruence. Qed.

Definition kadd (a : AddArgs) : M KM unit :=
  w_add_new_link (a_name a) (a_parent a) (a_pos a) (match a_rpy a with None => v_clear | Some r => r end).
Definition kset (a : SetArgs) : M KM unit :=
  let q := s_q a in let jids := s_jids a in
  match s_base a with
  | BPLANER =>
      assert_ (Nat.eqb (List.length q) (List.length jids + 3)) ;;;
      let b := last_k 3 q in
      set_joint_angles jids (drop_last 3 q) ;;;
      w_set_base_pose [nth 0 b n0; nth 1 b n0; n0; n0; n0; nth 2 b n0]
  | BFLOATING =>
      assert_ (Nat.eqb (List.length q) (List.length jids + 6)) ;;;
      set_joint_angles jids (drop_last 6 q) ;;;
      w_set_base_pose (last_k 6 q)
  | BFIXED =>
      assert_ (Nat.eqb (List.length q) (List.length jids)) ;;;
      set_joint_angles jids q
  end.

(** [f] only looks at and changes the shape (and the cache) *)
Definition shape_only (f : M KM unit) : Prop :=
  forall m m', f m = (m', Ok tt) -> conf m' = conf m /\
    forall n, shape n = shape m -> exists n', f n = (n', Ok tt) /\ shape n' = shape m' /\ conf n' = conf n.
Definition conf_only (f : M KM unit) : Prop :=
  forall m m', f m = (m', Ok tt) -> shape m' = shape m /\
    forall n, conf n = conf m -> exists n', f n = (n', Ok tt) /\ conf n' = conf m' /\ shape n' = shape n.

Lemma kadd_shape a : shape_only (kadd a).
Proof.
  intros m m' E. unfold kadd, w_add_new_link, add_new_link, add_new_link_pose in *. set (pose := mkPose _ _) in *. clearbody pose.
  destruct m as [a1 a2 a3 a4 a5 a6 a7 a8 a9 a10 a11 a12 a13].
  unfold update_rptable, bind, get, put, lift, throw, ret in *. cbn [links link_ids joints joint_ids] in E.
  destruct (assoc (a_name a) a3) eqn:E1; [discriminate|].
  destruct (vget a2 (a_parent a)) eqn:E2; try discriminate.
  destruct (vget (a2 ++ _) (a_parent a)) eqn:E3; try discriminate.
  destruct (vset (a2 ++ _) (a_parent a) _) eqn:E4; try discriminate.
  unfold set_tcache, set_links in E. cbn [links link_ids joints joint_ids] in E.
  destruct (rfor a5 _ _) eqn:E5; try discriminate. unfold set_rptable in E. cbn in E. inversion E; subst. split; [reflexivity|].
  intros [b1 b2 b3 b4 b5 b6 b7 b8 b9 b10 b11 b12 b13] Es. unfold shape in Es. cbn in Es. inversion Es; subst.
  cbn [links link_ids joints joint_ids]. rewrite E1, E2, E3, E4. unfold set_tcache, set_links. cbn [links link_ids joints joint_ids]. rewrite E5.
  unfold set_rptable. cbn. eexists. split; [reflexivity|]. split; reflexivity.
Qed.

Lemma conf_only_bind f g : conf_only f -> conf_only g -> conf_only (f ;;; g).
Proof.
  intros Hf Hg m m' E. apply bind_inv_ok in E. destruct E as (m1 & [] & E1 & E2). destruct (Hf _ _ E1) as [S1 C1]. destruct (Hg _ _ E2) as [S2 C2].
  split; [congruence|]. intros n Cn. destruct (C1 n Cn) as (n1 & F1 & D1 & T1). destruct (C2 n1 D1) as (n2 & F2 & D2 & T2). exists n2. rewrite (bind_ok _ _ _ _ _ F1). split; auto. split; congruence.
Qed.
Lemma conf_only_assert b : conf_only (assert_ b).
Proof. intros m m' E. destruct b; [|discriminate]. inversion E; subst. split; auto. intros n C. exists n. auto. Qed.
Lemma conf_only_clear : conf_only clear_cache.
Proof. intros m m' E. inversion E; subst. split; [reflexivity|]. intros n C. eexists. split; [reflexivity|]. split; [|reflexivity]. exact C. Qed.
Lemma conf_only_ext f g : (forall m, f m = g m) -> conf_only f -> conf_only g.
Proof. intros H C m m' E. rewrite <- H in E. destruct (C _ _ E) as [S1 C1]. split; auto. intros n Cn. destruct (C1 n Cn) as (n' & F & G). exists n'. now rewrite <- H. Qed.
Lemma conf_only_for {B} (l : list B) body : (forall b, conf_only (body b tt)) -> conf_only (for_each l tt body).
Proof.
  intros H. induction l as [|b l IH].
  - intros m m' E. rewrite for_each_nil in E. inversion E; subst. split; auto. intros n C. exists n. rewrite for_each_nil. auto.
  - apply (conf_only_ext (body b tt ;;; for_each l tt body)); [|now apply conf_only_bind].
    intros m. rewrite for_each_cons. unfold bind. destruct (body b tt m) as [m1 [[]|e|u|]]; reflexivity.
Qed.
Lemma conf_only_nc jids q : conf_only (set_joint_angles_nc jids q).
Proof.
  apply conf_only_for. intros ij m m' E. unfold bind, get, lift, put in *. destruct (vget q (fst ij)) as [x|e|u|] eqn:E1; try discriminate.
  destruct (vset (joint_angles m) (snd ij) x) eqn:E2; try discriminate. inversion E; subst. split; [reflexivity|].
  intros k C. unfold conf in C. inversion C as [[C1 C2]]. rewrite C1, E2. eexists. split; [reflexivity|]. unfold conf. cbn. rewrite C2. auto.
Qed.
Lemma conf_only_angles jids q : conf_only (set_joint_angles jids q).
Proof. apply conf_only_bind; [apply conf_only_nc | apply conf_only_clear]. Qed.
Lemma conf_only_base p : conf_only (set_base_pose p).
Proof.
  intros m m' E. unfold set_base_pose, clear_cache, bind, get, put in *. inversion E; subst. split; [reflexivity|]. intros n C. unfold conf in C. inversion C.
  eexists. split; [reflexivity|]. split; [|reflexivity]. unfold conf. cbn. congruence.
Qed.
Lemma conf_only_lift {B} (x : res B) f : (forall b, conf_only (f b)) -> conf_only (bind (lift x) f).
Proof.
  intros H. destruct x as [b|e|u|]; [apply (conf_only_ext (f b)); [reflexivity|apply H]| | |]; intros m m' E; discriminate.
Qed.
Lemma conf_only_w v : conf_only (w_set_base_pose v).
Proof.
  unfold w_set_base_pose. destruct (Nat.eqb (length v) 6); [|intros m m' E; discriminate]. unfold w_set_base_pose6.
  do 6 (apply conf_only_lift; intros ?). apply conf_only_base.
Qed.
Lemma kset_conf a : conf_only (kset a).
Proof.
  unfold kset. destruct (s_base a); apply conf_only_bind; auto using conf_only_assert, conf_only_angles; apply conf_only_bind; auto using conf_only_angles, conf_only_w.
Qed.

(** a mixed sequence of edits; its adds and its sets *)
Inductive kedit := KA (a : AddArgs) | KS (a : SetArgs).
Definition kdo (e : kedit) : M KM unit := match e with KA a => kadd a | KS a => kset a end.
Fixpoint kadds (es : list kedit) : list AddArgs := match es with [] => [] | KA a :: t => a :: kadds t | KS _ :: t => kadds t end.
Fixpoint ksets (es : list kedit) : list SetArgs := match es with [] => [] | KA _ :: t => ksets t | KS a :: t => a :: ksets t end.
Inductive steps : list (M KM unit) -> KM -> KM -> Prop :=
| st_nil m : steps [] m m
| st_cons f fs m m1 m2 : f m = (m1, Ok tt) -> steps fs m1 m2 -> steps (f :: fs) m m2.

(** edits, up to the cache (which clear_cache may have emptied in between) *)
Inductive edited : list kedit -> KM -> KM -> Prop :=
| ed_nil m m' : shape m' = shape m -> conf m' = conf m -> edited [] m m'
| ed_snoc es e m m1 m2 m3 : edited es m m1 -> kdo e m1 = (m2, Ok tt) -> shape m3 = shape m2 -> conf m3 = conf m2 -> edited (es ++ [e]) m m3.

Lemma kadds_app es es' : kadds (es ++ es') = kadds es ++ kadds es'.
Proof. induction es as [|[a|a] es IH]; cbn; auto. now rewrite IH. Qed.
Lemma ksets_app es es' : ksets (es ++ es') = ksets es ++ ksets es'.
Proof. induction es as [|[a|a] es IH]; cbn; auto. now rewrite IH. Qed.
Lemma steps_snoc fs f m m1 m2 : steps fs m m1 -> f m1 = (m2, Ok tt) -> steps (fs ++ [f]) m m2.
Proof. intros H E. induction H as [|g gs m m' m'' Eg Hs IH]; [now repeat econstructor|]. cbn [app]. econstructor; eauto. Qed.

Lemma edited_adds es m m' : edited es m m' -> exists n, steps (map kadd (kadds es)) m n /\ shape n = shape m' /\ conf n = conf m.
Proof.
  intros H. induction H as [m m' E F|es e m m1 m2 m3 H IH E Es Ec].
  - exists m. split; [constructor|auto].
  - destruct IH as (n & St & Sn & Cn). rewrite kadds_app, map_app. destruct e as [a|a]; cbn [kadds map kdo] in *.
    + destruct (kadd_shape a _ _ E) as [C1 H1]. destruct (H1 n Sn) as (n' & E' & Sn' & Cn'). exists n'. split; [now apply (steps_snoc _ _ _ n)|]. split; congruence.
    + rewrite app_nil_r. exists n. split; auto. destruct (kset_conf a _ _ E) as [S1 _]. split; congruence.
Qed.
Lemma edited_sets es m m' : edited es m m' -> forall k, conf k = conf m -> exists n, steps (map kset (ksets es)) k n /\ conf n = conf m' /\ shape n = shape k.
Proof.
  intros H. induction H as [m m' E F|es e m m1 m2 m3 H IH E Es Ec]; intros k Ck.
  - exists k. split; [constructor|]. split; congruence.
  - destruct (IH k Ck) as (n & St & Cn & Sn). rewrite ksets_app, map_app. destruct e as [a|a]; cbn [ksets map kdo] in *.
    + rewrite app_nil_r. exists n. split; auto. destruct (kadd_shape a _ _ E) as [C1 _]. split; congruence.
    + destruct (kset_conf a _ _ E) as [S1 H1]. destruct (H1 n Cn) as (n' & E' & Cn' & Sn'). exists n'. split; [now apply (steps_snoc _ _ _ n)|]. split; congruence.
Qed.
Lemma edited_replayed es m0 m : edited es m0 m ->
  exists m1 m2, steps (map kadd (kadds es)) m0 m1 /\ steps (map kset (ksets es)) m1 m2 /\ same_model m m2.
Proof.
  intros H. destruct (edited_adds _ _ _ H) as (m1 & S1 & E1 & C1). destruct (edited_sets _ _ _ H m1 C1) as (m2 & S2 & C2 & E2). exists m1, m2. split; auto. split; auto.
  apply shape_conf_same; congruence.
Qed.
End Kin.

Section World.
Context `{A : Arith}.
Context (tinyxml : string -> option (list xml)).

(* ---- which lists and objects a call can touch ---- *)
Definition acts (t : nat) (w w' : World) : Prop :=
  length (objs w') = length (objs w) /\ length (heap_add w') = length (heap_add w) /\ length (heap_set w') = length (heap_set w) /\
  (forall j, j <> t -> nth_error (objs w') j = nth_error (objs w) j) /\
  (forall o, nth_error (objs w) t = Some o ->
     (exists o', nth_error (objs w') t = Some o' /\ py_xml o' = py_xml o /\ py_add o' = py_add o /\ py_set o' = py_set o) /\
     (forall r, r <> py_add o -> nth_error (heap_add w') r = nth_error (heap_add w) r) /\
     (forall r, r <> py_set o -> nth_error (heap_set w') r = nth_error (heap_set w) r)) /\
  (nth_error (objs w) t = None -> w' = w).
Definition act_on {B} (t : nat) (f : M World B) : Prop := forall w w' r, f w = (w', r) -> acts t w w'.

Lemma acts_refl t w : acts t w w.
Proof. repeat split; auto. exists o. auto. Qed.
Lemma acts_trans t a b c : acts t a b -> acts t b c -> acts t a c.
Proof.
  intros (L1 & L2 & L3 & H1 & H2 & H3) (K1 & K2 & K3 & G1 & G2 & G3). split; [congruence|]. split; [congruence|]. split; [congruence|]. split; [|split].
  - intros j N. rewrite (G1 j N). auto.
  - intros o E. destruct (H2 o E) as ((o1 & E1 & X1 & X2 & X3) & R1 & R2). destruct (G2 o1 E1) as ((o2 & E2 & Y1 & Y2 & Y3) & S1 & S2). split; [exists o2; repeat split; congruence|].
    split; intros r N; [rewrite S1, R1 by congruence | rewrite S2, R2 by congruence]; auto.
  - intros E. pose proof (H3 E). subst b. auto.
Qed.
Lemma act_ret {B} t (b : B) : act_on t (ret b).
Proof. intros w w' r E. inversion E; subst. apply acts_refl. Qed.
Lemma act_lift {B} t (x : res B) : act_on t (lift x).
Proof. intros w w' r E. inversion E; subst. apply acts_refl. Qed.
Lemma act_throw {B} t e : act_on t (throw e : M World B).
Proof. intros w w' r E. inversion E; subst. apply acts_refl. Qed.
Lemma act_assert t b : act_on t (assert_ b).
Proof. destruct b; [apply act_ret|apply act_throw]. Qed.
Lemma act_bind {B C} t (x : M World B) (f : B -> M World C) : act_on t x -> (forall b, act_on t (f b)) -> act_on t (bind x f).
Proof.
  intros Hx Hf w w' r E. unfold bind in E. destruct (x w) as [w1 [b|e|u|]] eqn:Ex; try (inversion E; subst; exact (Hx _ _ _ Ex)).
  eapply acts_trans; [exact (Hx _ _ _ Ex) | exact (Hf b _ _ _ E)].
Qed.
Lemma act_for_each {B C} t (l : list B) (acc : C) body : (forall b c, act_on t (body b c)) -> act_on t (for_each l acc body).
Proof.
  intros H. revert acc. induction l as [|b l IH]; intros acc w w' r E.
  - rewrite for_each_nil in E. inversion E; subst. apply acts_refl.
  - rewrite for_each_cons in E. exact (act_bind t _ _ (H b acc) (fun c => IH c) w w' r E).
Qed.
Lemma act_get t : act_on t get.
Proof. intros w w' r E. inversion E; subst. apply acts_refl. Qed.
Lemma act_robot {B} t (f : M KM B) : act_on t (with_robot t f).
Proof.
  intros w w' r E. unfold with_robot in E. destruct (nth_error (objs w) t) as [o|] eqn:Eo; [|inversion E; subst; apply acts_refl].
  destruct (py_robot o) as [m|]; [|inversion E; subst; apply acts_refl]. destruct (f m) as [m' x]. inversion E; subst.
  unfold w_put_obj, acts. cbn [objs heap_add heap_set]. rewrite list_set_length. repeat split; auto.
  - intros j N. rewrite nth_error_list_set. destruct (Nat.eqb t j) eqn:Ej; [apply Nat.eqb_eq in Ej; congruence|reflexivity].
  - assert (o0 = o) by congruence. subst o0. rewrite nth_error_list_set, Nat.eqb_refl, (proj2 (Nat.ltb_lt _ _) (nth_error_lt _ _ _ Eo)). cbn [andb]. eexists. split; [reflexivity|]. auto.
  - intros N. congruence.
Qed.
Lemma hist_append_length {B} (l : list (list B)) r a : length (hist_append l r a) = length l.
Proof. unfold hist_append. destruct (nth_error l r); auto. apply list_set_length. Qed.
Lemma hist_append_other {B} (l : list (list B)) r a k : k <> r -> nth_error (hist_append l r a) k = nth_error l k.
Proof. intros N. unfold hist_append. destruct (nth_error l r); auto. rewrite nth_error_list_set. destruct (Nat.eqb r k) eqn:E; [apply Nat.eqb_eq in E; congruence|reflexivity]. Qed.
Lemma hist_append_at {B} (l : list (list B)) r a h : nth_error l r = Some h -> nth_error (hist_append l r a) r = Some (h ++ [a]).
Proof. intros E. unfold hist_append. rewrite E, nth_error_list_set, Nat.eqb_refl, (proj2 (Nat.ltb_lt _ _) (nth_error_lt _ _ _ E)). reflexivity. Qed.
Lemma act_append_set t a : act_on t (append_set t a).
Proof.
  intros w w' r E. unfold append_set in E. destruct (nth_error (objs w) t) as [o|] eqn:Eo; inversion E; subst; [|apply acts_refl].
  unfold acts. cbn [objs heap_add heap_set]. rewrite hist_append_length. repeat split; auto; try (intros; congruence).
  - assert (o0 = o) by congruence. subst o0. exists o. auto.
  - intros r N. assert (o0 = o) by congruence. subst o0. now apply hist_append_other.
Qed.
Lemma act_append_add t a : act_on t (append_add t a).
Proof.
  intros w w' r E. unfold append_add in E. destruct (nth_error (objs w) t) as [o|] eqn:Eo; inversion E; subst; [|apply acts_refl].
  unfold acts. cbn [objs heap_add heap_set]. rewrite hist_append_length. repeat split; auto; try (intros; congruence).
  - assert (o0 = o) by congruence. subst o0. exists o. auto.
  - intros r N. assert (o0 = o) by congruence. subst o0. now apply hist_append_other.
Qed.
Lemma act_add t n p pos rpy : act_on t (py_add_new_link t n p pos rpy).
Proof. apply act_bind; [apply act_append_add|]. intros; apply act_robot. Qed.
Lemma act_set_q t jids q bt : act_on t (py_set_q t jids q bt).
Proof.
  apply act_bind; [apply act_append_set|]. intros _. destruct bt; (apply act_bind; [apply act_assert|intros _]); try apply act_robot;
    (apply act_bind; [apply act_robot|intros _]); apply act_robot.
Qed.
Lemma act_replay t ra rs : act_on t (py_replay t ra rs).
Proof.
  apply act_bind; [apply act_get|]. intros w0. apply act_bind; [apply act_for_each; intros; apply act_add|]. intros _.
  apply act_bind; [apply act_get|]. intros w2. apply act_for_each; intros; apply act_set_q.
Qed.
Lemma act_pdrop {B} t (f : M World B) : act_on t f -> act_on t (pdrop f).
Proof. intros H. apply act_bind; auto. intros; apply act_ret. Qed.

(** methods: every call but the ones that make instances *)
Definition makes (c : call) : bool := match c with C_new _ | C_loads _ | C_copy _ => true | _ => false end.
Lemma act_exec c t : target c = Some t -> makes c = false -> act_on t (py_exec tinyxml c).
Proof.
  intros T Mk. destruct c; cbn [target makes] in *; try discriminate; inversion T; subst; cbn [py_exec]; try apply act_pdrop; try apply act_robot.
  - apply act_set_q.
  - apply act_bind; [|intros b; apply act_bind; [apply act_robot | intros a; apply act_ret]].
    destruct bt; [apply act_ret | apply act_bind; [apply act_robot | intros; apply act_ret] | apply act_robot].
  - apply act_add.
  - unfold py_solve_fk. destruct (norm_qs_fk qs) as [[nd rows]|]; [|apply act_throw]. apply act_bind.
    + destruct bt; apply act_bind; auto using act_assert; intros _; auto using act_ret. destruct (modify_3dof _ nd rows); auto using act_ret, act_throw.
    + intros rows'. apply act_bind; [apply act_robot|]. intros; apply act_ret.
  - unfold py_solve_com_fk. destruct (norm_qs_com qs) as [[nd rows]|]; [|apply act_throw]. apply act_bind.
    + destruct bt; apply act_bind; auto using act_assert; intros _; auto using act_ret. destruct (modify_3dof _ nd rows); auto using act_ret, act_throw.
    + intros rows'. apply act_bind; [destruct actions, forces; auto using act_ret, act_throw|]. intros; apply act_robot.
  - apply act_bind; [apply act_robot|]. intros; apply act_ret.
  - apply act_bind; [apply act_lift|]. intros rows. destruct pairs; [apply act_throw|]. apply act_bind; [apply act_robot|]. intros; apply act_ret.
  - intros w w' r E. unfold py_dumps in E. destruct (nth_error (objs w) t); inversion E; subst; apply acts_refl.
Qed.

(** making an instance from the lists [ra], [rs] *)
Record makes_one (ra rs : nat) (w w' : World) : Prop := {
  mo_old : forall j o, nth_error (objs w) j = Some o -> nth_error (objs w') j = Some o;
  mo_new : forall j o, nth_error (objs w') j = Some o -> nth_error (objs w) j = None ->
             j = length (objs w) /\ length (heap_add w) <= py_add o < length (heap_add w') /\ length (heap_set w) <= py_set o < length (heap_set w');
  mo_la : length (heap_add w) <= length (heap_add w');
  mo_ls : length (heap_set w) <= length (heap_set w');
  mo_add : forall k, k < length (heap_add w) -> k <> ra -> nth_error (heap_add w') k = nth_error (heap_add w) k;
  mo_set : forall k, k < length (heap_set w) -> k <> rs -> nth_error (heap_set w') k = nth_error (heap_set w) k
}.
Lemma makes_one_refl ra rs w : makes_one ra rs w w.
Proof. constructor; auto; intros; congruence. Qed.

Lemma setstate_makes x ra rs w w' r : py_setstate tinyxml x ra rs w = (w', r) -> fine r -> makes_one ra rs w w'.
Proof.
  intros E F. unfold py_setstate in E. destruct (ctor tinyxml x) as [r0|e|u|] eqn:C; try (inversion E; subst; try destruct F; apply makes_one_refl).
  set (w1 := mkW (heap_add w) (heap_set w) (objs w ++ [mkPy x (Some r0) ra rs])) in E.
  destruct (py_replay (length (objs w)) ra rs w1) as [w3 rr] eqn:Er.
  destruct (act_replay _ _ _ _ _ _ Er) as (L1 & L2 & L3 & H1 & H2 & _).
  assert (En : nth_error (objs w1) (length (objs w)) = Some (mkPy x (Some r0) ra rs)). { cbn. rewrite nth_error_app2, Nat.sub_diag by lia. reflexivity. }
  destruct (H2 _ En) as ((o' & Eo & _) & R1 & R2). cbn [py_add py_set] in R1, R2.
  assert (Lw : length (objs w1) = S (length (objs w))). { cbn. rewrite app_length. cbn. lia. }
  assert (Hold : forall j o, nth_error (objs w) j = Some o -> nth_error (objs w3) j = Some o).
  { intros j o Ej. pose proof (nth_error_lt _ _ _ Ej). rewrite H1 by lia. cbn. rewrite nth_error_app1; auto. }
  cbn [heap_add heap_set objs w1] in *.
  destruct rr as [u|e|u|]; [rewrite Eo in E| | |]; inversion E; subst; try destruct F.
  - constructor; cbn [objs heap_add heap_set].
    + intros j o Ej. pose proof (nth_error_lt _ _ _ Ej). rewrite nth_error_list_set. destruct (Nat.eqb (length (objs w)) j) eqn:Q; [apply Nat.eqb_eq in Q; lia|]. cbn [andb]. auto.
    + intros j o Ej N. apply nth_error_None in N. pose proof (nth_error_lt _ _ _ Ej) as Lj. rewrite list_set_length in Lj.
      assert (j = length (objs w)) by lia. subst j. split; auto. rewrite nth_error_list_set, Nat.eqb_refl, (proj2 (Nat.ltb_lt _ _)) in Ej by lia.
      cbn [andb] in Ej. inversion Ej; subst. cbn [py_add py_set]. rewrite !app_length. cbn. lia.
    + rewrite app_length. lia.
    + rewrite app_length. lia.
    + intros k L N. rewrite nth_error_app1 by lia. auto.
    + intros k L N. rewrite nth_error_app1 by lia. auto.
  - constructor; cbn [objs heap_add heap_set]; try lia; auto.
    + intros j o Ej. pose proof (nth_error_lt _ _ _ Ej). rewrite nth_error_firstn_lt by auto. auto.
    + intros j o Ej N. apply nth_error_None in N. apply nth_error_lt in Ej. rewrite firstn_length in Ej. lia.
Qed.

(** every instance has its own histories *)
Record tidy (w : World) : Prop := {
  ti_valid : forall i o, nth_error (objs w) i = Some o -> py_add o < length (heap_add w) /\ py_set o < length (heap_set w);
  ti_own : forall i j o o', nth_error (objs w) i = Some o -> nth_error (objs w) j = Some o' -> i <> j -> py_add o <> py_add o' /\ py_set o <> py_set o'
}.
Lemma tidy_acts t w w' : tidy w -> acts t w w' -> tidy w'.
Proof.
  intros [V O] (L1 & L2 & L3 & H1 & H2 & H3).
  assert (K : forall i o', nth_error (objs w') i = Some o' -> exists o, nth_error (objs w) i = Some o /\ py_add o' = py_add o /\ py_set o' = py_set o).
  { intros i o' E. destruct (Nat.eq_dec i t) as [->|N]; [|rewrite (H1 i N) in E; eauto].
    destruct (nth_error (objs w) t) as [o|] eqn:Eo; [|rewrite (H3 eq_refl) in E; congruence]. destruct (H2 o eq_refl) as ((o1 & E1 & X1 & X2 & X3) & _).
    exists o. assert (o1 = o') by congruence. subst o1. auto. }
  constructor.
  - intros i o E. destruct (K i o E) as (o1 & E1 & -> & ->). rewrite L2, L3. eauto.
  - intros i j o o' E E' N. destruct (K i o E) as (o1 & E1 & -> & ->). destruct (K j o' E') as (o2 & E2 & -> & ->). eauto.
Qed.
Lemma tidy_makes ra rs w w' : tidy w -> makes_one ra rs w w' -> tidy w'.
Proof.
  intros [V O] [H1 H2 L1 L2 H3 H4].
  assert (K : forall i o, nth_error (objs w') i = Some o -> nth_error (objs w) i = Some o \/ (i = length (objs w) /\ length (heap_add w) <= py_add o < length (heap_add w') /\ length (heap_set w) <= py_set o < length (heap_set w'))).
  { intros i o E. destruct (nth_error (objs w) i) as [o1|] eqn:E1; [left; rewrite (H1 _ _ E1) in E; congruence | right; eauto]. }
  constructor.
  - intros i o E. destruct (K i o E) as [E1|(-> & X & Y)]; [|lia]. destruct (V i o E1). lia.
  - intros i j o o' E E' N. destruct (K i o E) as [E1|(-> & X & Y)], (K j o' E') as [E2|(-> & X' & Y')]; eauto; try lia.
    + destruct (V _ _ E1). lia.
    + destruct (V _ _ E2). lia.
Qed.
Lemma tidy_none : tidy no_objects.
Proof. constructor; intros i; destruct i; discriminate. Qed.

Lemma init_makes x w w' r : py_init tinyxml x w = (w', r) -> fine r -> makes_one (length (heap_add w)) (length (heap_set w)) w w'.
Proof.
  intros E F. unfold py_init in E. destruct (String.eqb x ""); [inversion E; subst; apply makes_one_refl|].
  destruct (ctor tinyxml x); inversion E; subst; try destruct F; try apply makes_one_refl.
  constructor; cbn [objs heap_add heap_set].
  - intros j o Ej. rewrite nth_error_app1; auto. eapply nth_error_lt; eauto.
  - intros j o Ej N. apply nth_error_None in N. rewrite nth_error_app2 in Ej by auto. destruct (j - length (objs w)) as [|k] eqn:Q; [|destruct k; discriminate].
    inversion Ej; subst. cbn. rewrite !app_length. cbn. lia.
  - rewrite app_length. lia.
  - rewrite app_length. lia.
  - intros k L _. now rewrite nth_error_app1.
  - intros k L _. now rewrite nth_error_app1.
Qed.
Lemma loads_makes p w w' r : py_loads tinyxml p w = (w', r) -> fine r -> makes_one (length (heap_add w)) (length (heap_set w)) w w'.
Proof.
  intros E F. unfold py_loads in E. pose proof (setstate_makes _ _ _ _ _ _ E F) as [H1 H2 L1 L2 H3 H4]. cbn [objs heap_add heap_set] in *. rewrite !app_length in L1, L2, H3, H4. cbn [length] in L1, L2, H3, H4.
  constructor; auto; try lia.
  - intros j o Ej N. destruct (H2 j o Ej N) as (X & Y & Z). rewrite !app_length in *. cbn [length] in *. lia.
  - intros k L N. rewrite H3 by lia. now rewrite nth_error_app1.
  - intros k L N. rewrite H4 by lia. now rewrite nth_error_app1.
Qed.
Lemma copy_makes i w w' r o : nth_error (objs w) i = Some o -> py_copy tinyxml i w = (w', r) -> fine r -> makes_one (py_add o) (py_set o) w w'.
Proof. intros Eo E F. unfold py_copy in E. rewrite Eo in E. cbn [py_getstate] in E. exact (setstate_makes _ _ _ _ _ _ E F). Qed.

Lemma pdrop_inv {B} (f : M World B) w w' r : pdrop f w = (w', r) -> exists r0, f w = (w', r0) /\ (fine r -> fine r0) /\ (forall b, r0 = Ok b -> r = Ok tt) /\ (r = Ok tt -> exists b, r0 = Ok b).
Proof. unfold pdrop, bind. destruct (f w) as [w1 [b|e|u|]]; intros E; inversion E; subst; eexists; (split; [reflexivity|]); split; auto; split; try discriminate; eauto. Qed.

Lemma exec_keeps c w w' r : tidy w -> py_exec tinyxml c w = (w', r) -> fine r ->
  tidy w' /\ forall i o, nth_error (objs w) i = Some o -> on i c = false ->
    nth_error (objs w') i = Some o /\ nth_error (heap_add w') (py_add o) = nth_error (heap_add w) (py_add o) /\ nth_error (heap_set w') (py_set o) = nth_error (heap_set w) (py_set o).
Proof.
  intros T E F. pose proof T as [V O].
  assert (MK : forall ra rs, makes_one ra rs w w' -> (forall i o, nth_error (objs w) i = Some o -> on i c = false -> py_add o <> ra /\ py_set o <> rs) ->
     tidy w' /\ forall i o, nth_error (objs w) i = Some o -> on i c = false ->
    nth_error (objs w') i = Some o /\ nth_error (heap_add w') (py_add o) = nth_error (heap_add w) (py_add o) /\ nth_error (heap_set w') (py_set o) = nth_error (heap_set w) (py_set o)).
  { intros ra rs H N. split; [exact (tidy_makes _ _ _ _ T H)|]. intros i o Ei Oi. destruct (N i o Ei Oi). destruct (V i o Ei). destruct H as [K1 K2 L1 L2 K3 K4]. auto. }
  destruct (makes c) eqn:Mk.
  - destruct c; try discriminate Mk; cbn [py_exec] in E; apply pdrop_inv in E; destruct E as (r0 & E & F0 & _).
    + apply (MK _ _ (init_makes _ _ _ _ E (F0 F))). intros i o Ei _. destruct (V i o Ei). lia.
    + destruct (nth_error (objs w) i) as [o|] eqn:Eo.
      * apply (MK _ _ (copy_makes _ _ _ _ _ Eo E (F0 F))). intros k o' Ek Ok. assert (k <> i). { intros ->. cbn in Ok. rewrite Nat.eqb_refl in Ok. discriminate. }
        destruct (O k i o' o Ek Eo H). auto.
      * unfold py_copy in E. rewrite Eo in E. inversion E; subst. destruct (F0 F).
    + apply (MK _ _ (loads_makes _ _ _ _ E (F0 F))). intros i o Ei _. destruct (V i o Ei). lia.
  - destruct (target c) as [t|] eqn:Et; [|destruct c; discriminate].
    pose proof (act_exec c t Et Mk _ _ _ E) as Ac. split; [exact (tidy_acts _ _ _ T Ac)|]. intros i o Ei Oi. unfold on in Oi. rewrite Et in Oi. apply Nat.eqb_neq in Oi.
    destruct Ac as (_ & _ & _ & H1 & H2 & H3). rewrite H1 by congruence. split; auto. destruct (nth_error (objs w) t) as [ot|] eqn:Eo; [|rewrite (H3 eq_refl); auto].
    destruct (H2 ot eq_refl) as (_ & R1 & R2). destruct (O i t o ot Ei Eo) as [N1 N2]; [congruence|]. auto.
Qed.
Lemma run_tidy cs : forall w w', tidy w -> py_run tinyxml cs w = Some w' -> tidy w'.
Proof.
  induction cs as [|c cs IH]; intros w w' T E; cbn [py_run] in E; [now inversion E; subst|].
  destruct (py_exec tinyxml c w) as [w1 [u|e|u|]] eqn:Ec; try discriminate; exact (IH _ _ (proj1 (exec_keeps c w w1 _ T Ec I)) E).
Qed.
End World.

Section Replay.
Context `{A : Arith}.
Context (tinyxml : string -> option (list xml)).

Definition upd (i : nat) (o : PyModel) (m : KM) (w : World) : World := w_put_obj i (mkPy (py_xml o) (Some m) (py_add o) (py_set o)) w.
Lemma with_robot_eq {B} i (f : M KM B) w o m : nth_error (objs w) i = Some o -> py_robot o = Some m ->
  with_robot i f w = (upd i o (fst (f m)) w, snd (f m)).
Proof. intros E F. unfold with_robot. rewrite E, F. destruct (f m). reflexivity. Qed.
Lemma upd_same i o m w : nth_error (objs w) i = Some o -> py_robot o = Some m -> upd i o m w = w.
Proof. intros E F. unfold upd, w_put_obj. rewrite list_set_same; [now destruct w|]. rewrite E. destruct o; cbn in *; congruence. Qed.
Lemma upd_twice i o m m' w : upd i (mkPy (py_xml o) (Some m) (py_add o) (py_set o)) m' (upd i o m w) = upd i o m' w.
Proof. unfold upd, w_put_obj. cbn. now rewrite list_set_twice. Qed.
Lemma upd_at i o m w o0 : nth_error (objs w) i = Some o0 -> nth_error (objs (upd i o m w)) i = Some (mkPy (py_xml o) (Some m) (py_add o) (py_set o)).
Proof. intros E. cbn. apply nth_error_list_set_eq. eapply nth_error_lt; eauto. Qed.
Lemma robot_seq {B C} i (f : M KM B) (g : M KM C) w o m : nth_error (objs w) i = Some o -> py_robot o = Some m ->
  (with_robot i f ;;; with_robot i g) w = with_robot i (f ;;; g) w.
Proof.
  intros E F. rewrite (with_robot_eq i (f ;;; g) w o m E F). unfold bind. rewrite (with_robot_eq i f w o m E F).
  destruct (f m) as [m1 [b|e|u|]]; cbn [fst snd]; auto.
  rewrite (with_robot_eq i g _ _ m1 (upd_at i o m1 w o E) eq_refl), upd_twice. reflexivity.
Qed.
Lemma robot_assert {B} i b (f : M KM B) w o m : nth_error (objs w) i = Some o -> py_robot o = Some m ->
  (assert_ b ;;; with_robot i f) w = with_robot i (assert_ b ;;; f) w.
Proof.
  intros E F. destruct b; cbn [assert_].
  - change ((ret tt ;;; with_robot i f) w) with (with_robot i f w). now rewrite !(with_robot_eq i _ w o m E F).
  - rewrite (with_robot_eq i _ w o m E F). unfold bind, throw. cbn [fst snd]. now rewrite (upd_same i o m w E F).
Qed.

Lemma set_q_eq i a w o m : nth_error (objs w) i = Some o -> py_robot o = Some m ->
  py_set_q i (s_jids a) (s_q a) (s_base a) w =
  (upd i o (fst (kset a m)) (mkW (heap_add w) (hist_append (heap_set w) (py_set o) a) (objs w)), snd (kset a m)).
Proof.
  intros E F. unfold py_set_q. set (w1 := mkW (heap_add w) (hist_append (heap_set w) (py_set o) a) (objs w)).
  assert (E0 : append_set i (mkSet (s_jids a) (s_q a) (s_base a)) w = (w1, Ok tt)). { unfold append_set. rewrite E. now destruct a. }
  rewrite (bind_ok _ _ _ _ _ E0). assert (E1 : nth_error (objs w1) i = Some o) by exact E.
  assert (K : forall (f : M World unit), f w1 = with_robot i (kset a) w1 -> f w1 = (upd i o (fst (kset a m)) w1, snd (kset a m))). { intros f ->. now apply with_robot_eq. }
  apply K. clear K. unfold kset. destruct (s_base a).
  - apply (robot_assert i _ _ w1 o m E1 F).
  - rewrite <- (robot_assert i _ _ w1 o m E1 F). destruct (Nat.eqb _ _); [|reflexivity]. exact (robot_seq i _ _ w1 o m E1 F).
  - rewrite <- (robot_assert i _ _ w1 o m E1 F). destruct (Nat.eqb _ _); [|reflexivity]. exact (robot_seq i _ _ w1 o m E1 F).
Qed.
Lemma add_eq i a w o m : nth_error (objs w) i = Some o -> py_robot o = Some m ->
  py_add_new_link i (a_name a) (a_parent a) (a_pos a) (a_rpy a) w =
  (upd i o (fst (kadd a m)) (mkW (hist_append (heap_add w) (py_add o) a) (heap_set w) (objs w)), snd (kadd a m)).
Proof.
  intros E F. unfold py_add_new_link. set (w1 := mkW (hist_append (heap_add w) (py_add o) a) (heap_set w) (objs w)).
  assert (E0 : append_add i (mkAdd (a_name a) (a_parent a) (a_pos a) (a_rpy a)) w = (w1, Ok tt)). { unfold append_add. rewrite E. now destruct a. }
  rewrite (bind_ok _ _ _ _ _ E0). exact (with_robot_eq i (kadd a) w1 o m E F).
Qed.

Lemma replay_add_ok i l : forall w o m m', nth_error (objs w) i = Some o -> py_robot o = Some m -> steps (map kadd l) m m' ->
  exists ha, replay_add i l w = (mkW ha (heap_set w) (list_set (objs w) i (mkPy (py_xml o) (Some m') (py_add o) (py_set o))), Ok tt).
Proof.
  induction l as [|a l IH]; intros w o m m' E F St; cbn [map] in St; inversion St as [?|f fs x m1 y Ef Sf]; subst.
  - exists (heap_add w). unfold replay_add. rewrite for_each_nil, list_set_same; [now destruct w|]. rewrite E. destruct o; cbn in *; congruence.
  - pose proof (add_eq i a w o m E F) as Ea. rewrite Ef in Ea. cbn [fst snd] in Ea. unfold replay_add in *. rewrite for_each_cons, (bind_ok _ _ _ _ _ Ea).
    destruct (IH (upd i o m1 (mkW (hist_append (heap_add w) (py_add o) a) (heap_set w) (objs w))) _ m1 m' (upd_at i o m1 (mkW _ _ (objs w)) o E) eq_refl Sf) as (ha & Eh).
    exists ha. etransitivity; [exact Eh|]. cbn. now rewrite list_set_twice.
Qed.
Lemma replay_set_ok i l : forall w o m m', nth_error (objs w) i = Some o -> py_robot o = Some m -> steps (map kset l) m m' ->
  exists hs, replay_set i l w = (mkW (heap_add w) hs (list_set (objs w) i (mkPy (py_xml o) (Some m') (py_add o) (py_set o))), Ok tt).
Proof.
  induction l as [|a l IH]; intros w o m m' E F St; cbn [map] in St; inversion St as [?|f fs x m1 y Ef Sf]; subst.
  - exists (heap_set w). unfold replay_set. rewrite for_each_nil, list_set_same; [now destruct w|]. rewrite E. destruct o; cbn in *; congruence.
  - pose proof (set_q_eq i a w o m E F) as Ea. rewrite Ef in Ea. cbn [fst snd] in Ea. unfold replay_set in *. rewrite for_each_cons, (bind_ok _ _ _ _ _ Ea).
    destruct (IH (upd i o m1 (mkW (heap_add w) (hist_append (heap_set w) (py_set o) a) (objs w))) _ m1 m' (upd_at i o m1 (mkW _ _ (objs w)) o E) eq_refl Sf) as (ha & Eh).
    exists ha. etransitivity; [exact Eh|]. cbn. now rewrite list_set_twice.
Qed.

Lemma setstate_works x ra rs w la ls m0 m1 m2 : ctor tinyxml x = Ok m0 -> nth_error (heap_add w) ra = Some la -> nth_error (heap_set w) rs = Some ls ->
  steps (map kadd la) m0 m1 -> steps (map kset ls) m1 m2 ->
  exists w', py_setstate tinyxml x ra rs w = (w', Ok (length (objs w))) /\ robot_of w' (length (objs w)) = Some m2.
Proof.
  intros C Ha Hs S1 S2. unfold py_setstate. rewrite C.
  set (o := mkPy x (Some m0) ra rs). set (w1 := mkW _ _ (objs w ++ [o])).
  assert (E1 : nth_error (objs w1) (length (objs w)) = Some o). { cbn. rewrite nth_error_app2, Nat.sub_diag by lia. reflexivity. }
  destruct (replay_add_ok (length (objs w)) la w1 o m0 m1 E1 eq_refl S1) as (ha & Ea).
  set (w2 := mkW ha _ _) in Ea.
  assert (E2 : nth_error (objs w2) (length (objs w)) = Some (mkPy (py_xml o) (Some m1) (py_add o) (py_set o))). { cbn [w2 objs]. apply nth_error_list_set_eq. eapply nth_error_lt; exact E1. }
  destruct (replay_set_ok (length (objs w)) ls w2 _ m1 m2 E2 eq_refl S2) as (hs & Es).
  assert (Er : py_replay (length (objs w)) ra rs w1 = (mkW (heap_add w2) hs (list_set (objs w2) (length (objs w)) (mkPy (py_xml o) (Some m2) (py_add o) (py_set o))), Ok tt)).
  { unfold py_replay. rewrite bind_get. cbn [w1 heap_add]. rewrite (nth_error_nth _ _ _ Ha).
    rewrite (bind_ok _ _ _ _ _ Ea), bind_get. cbn [w2 w1 heap_set]. rewrite (nth_error_nth _ _ _ Hs). exact Es. }
  rewrite Er. cbn [objs heap_add heap_set]. rewrite nth_error_list_set_eq by (eapply nth_error_lt; exact E2).
  eexists. split; [reflexivity|]. unfold robot_of. cbn [objs]. rewrite list_set_twice, nth_error_list_set_eq by (eapply nth_error_lt; exact E2). reflexivity.
Qed.
Lemma loads_ok p w m0 m1 m2 : ctor tinyxml (pk_xml p) = Ok m0 -> steps (map kadd (pk_add p)) m0 m1 -> steps (map kset (pk_set p)) m1 m2 ->
  exists w', py_loads tinyxml p w = (w', Ok (length (objs w))) /\ robot_of w' (length (objs w)) = Some m2.
Proof.
  intros C S1 S2. unfold py_loads.
  apply (setstate_works (pk_xml p) _ _ (mkW (heap_add w ++ [pk_add p]) (heap_set w ++ [pk_set p]) (objs w)) (pk_add p) (pk_set p) m0 m1 m2 C); auto;
    cbn [heap_add heap_set]; rewrite nth_error_app2, Nat.sub_diag by lia; reflexivity.
Qed.

(* ---- a run of recorded calls ---- *)
Definition cleanly (m m' : KM) : Prop := exists ops, run ops m = Some m' /\ fold_left (fun b o => clean_step o b) ops true = true.
Lemma cleanly_refl m : cleanly m m.
Proof. exists []. auto. Qed.
Lemma cleanly_trans a b c : cleanly a b -> cleanly b c -> cleanly a c.
Proof. intros (o1 & R1 & C1) (o2 & R2 & C2). exists (o1 ++ o2). rewrite run_app, R1, fold_left_app, C1. auto. Qed.
Lemma cleanly_op o m m' : exec o m = (m', Ok tt) -> clean_step o true = true -> cleanly m m'.
Proof. intros E C. exists [o]. cbn [run fold_left]. now rewrite E. Qed.
Lemma cleanly_kdo e m m' : kdo e m = (m', Ok tt) -> cleanly m m'.
Proof.
  destruct e as [a|a]; cbn [kdo]; intros E.
  - apply (cleanly_op (Op_add_new_link (a_name a) (a_parent a) (a_pos a) (match a_rpy a with None => v_clear | Some r => r end))); auto.
  - assert (AS : forall b, forall f : M KM unit, forall m m', (assert_ b ;;; f) m = (m', Ok tt) -> f m = (m', Ok tt)) by (intros [|] f k k' Q; [exact Q|discriminate]).
    unfold kset in E. destruct (s_base a); apply AS in E.
    + exact (cleanly_op (Op_set_joint_angles _ _) _ _ E eq_refl).
    + apply bind_inv_ok in E. destruct E as (m1 & [] & E1 & E2). eapply cleanly_trans; [exact (cleanly_op (Op_set_joint_angles _ _) _ _ E1 eq_refl)|].
      exact (cleanly_op (Op_set_base_xyzrpy _) _ _ E2 eq_refl).
    + apply bind_inv_ok in E. destruct E as (m1 & [] & E1 & E2). eapply cleanly_trans; [exact (cleanly_op (Op_set_joint_angles _ _) _ _ E1 eq_refl)|].
      apply (cleanly_op (Op_set_base_xyzrpy _) _ _ E2). cbn [clean_step]. now destruct (Nat.eqb _ 6).
Qed.
Lemma cleanly_steps fs m m' : steps fs m m' -> (forall f, In f fs -> exists e, f = kdo e) -> cleanly m m'.
Proof.
  intros H. induction H as [|f fs m m1 m2 E H IH]; intros K; [apply cleanly_refl|]. destruct (K f (or_introl eq_refl)) as (e & ->).
  eapply cleanly_trans; [exact (cleanly_kdo e _ _ E) | apply IH; intros g I; apply K; now right].
Qed.

Definition tracked (i : nat) (text : string) (m0 : KM) (w : World) : Prop :=
  tidy w /\ exists o m es, nth_error (objs w) i = Some o /\ py_xml o = text /\ py_robot o = Some m /\ (edited es m0 m /\ cleanly m0 m) /\
    nth_error (heap_add w) (py_add o) = Some (kadds es) /\ nth_error (heap_set w) (py_set o) = Some (ksets es).

Lemma edited_still es m0 m m' : edited es m0 m -> shape m' = shape m -> conf m' = conf m -> edited es m0 m'.
Proof. intros H E F. inversion H; subst; [apply ed_nil; congruence | eapply ed_snoc; eauto; congruence]. Qed.
Definition still {B} (f : M KM B) : Prop := forall m, shape (fst (f m)) = shape m /\ conf (fst (f m)) = conf m /\ cleanly m (fst (f m)).
Definition quiet {B} (i : nat) (f : M World B) : Prop := forall text m0 w, tracked i text m0 w -> tracked i text m0 (fst (f w)).
Lemma quiet_robot {B} i (f : M KM B) : still f -> quiet i (with_robot i f).
Proof.
  intros St text m0 w (T & o & m & es & Eo & X & Er & (Ed & Cl) & Ha & Hs). rewrite (with_robot_eq i f w o m Eo Er). cbn [fst].
  destruct (St m) as (S1 & S2 & S3). split.
  - apply (tidy_acts i w); auto. assert (Q : with_robot i f w = (upd i o (fst (f m)) w, snd (f m))) by now apply with_robot_eq. exact (act_robot i f _ _ _ Q).
  - exists (mkPy (py_xml o) (Some (fst (f m))) (py_add o) (py_set o)), (fst (f m)), es. split; [exact (upd_at i o _ w o Eo)|]. repeat split; auto; [eapply edited_still; eauto | eapply cleanly_trans; eauto].
Qed.
Lemma quiet_ret {B} i (b : B) : quiet i (ret b).
Proof. intros text m0 w H. exact H. Qed.
Lemma quiet_bind {B C} i (x : M World B) (f : B -> M World C) : quiet i x -> (forall b, quiet i (f b)) -> quiet i (bind x f).
Proof.
  intros Hx Hf text m0 w H. unfold bind. pose proof (Hx text m0 w H) as H1. destruct (x w) as [w1 [b|e|u|]]; cbn [fst] in *; auto. now apply Hf.
Qed.
Lemma still_pure {B} (f : M KM B) : (forall m, fst (f m) = m) -> still f.
Proof. intros H m. rewrite H. auto using cleanly_refl. Qed.

Lemma quiet_get_q i jids bt : quiet i (py_get_q i jids bt).
Proof.
  apply quiet_bind; [|intros b; apply quiet_bind; [apply quiet_robot, still_pure; reflexivity | intros; apply quiet_ret]].
  destruct bt; [apply quiet_ret | apply quiet_bind; [apply quiet_robot, still_pure; reflexivity | intros; apply quiet_ret] | apply quiet_robot, still_pure; reflexivity].
Qed.
Lemma quiet_limits i jids : quiet i (py_get_joint_limits i jids).
Proof. apply quiet_bind; [apply quiet_robot, still_pure; reflexivity | intros; apply quiet_ret]. Qed.
Lemma quiet_mass i : quiet i (py_total_mass i).
Proof. apply quiet_robot, still_pure; reflexivity. Qed.
Lemma quiet_pdrop {B} i (f : M World B) : quiet i f -> quiet i (pdrop f).
Proof. intros H. apply quiet_bind; auto. intros; apply quiet_ret. Qed.

Lemma exec_tracked i c w w' text m0 : tracked i text m0 w -> py_exec tinyxml c w = (w', Ok tt) -> on i c = true -> recorded c = true -> tracked i text m0 w'.
Proof.
  intros H E On Rc. pose proof H as (T & o & m & es & Eo & X & Er & (Ed & Cl) & Ha & Hs).
  assert (Tw : tidy w') by (exact (proj1 (exec_keeps tinyxml c w w' _ T E I))).
  assert (Q : forall f : M World unit, quiet i f -> f w = (w', Ok tt) -> tracked i text m0 w'). { intros f Hf Ef. pose proof (Hf text m0 w H) as G. now rewrite Ef in G. }
  unfold on in On. destruct c; cbn [target recorded] in *; try discriminate; apply Nat.eqb_eq in On; subst; cbn [py_exec] in E.
  - pose proof (set_q_eq i (mkSet jids q bt) w o m Eo Er) as Es. cbn [s_jids s_q s_base] in Es. rewrite E in Es. inversion Es as [[Ew Ek]].
    split; [rewrite <- Ew; exact Tw|]. set (a := mkSet jids q bt) in *. exists (mkPy (py_xml o) (Some (fst (kset a m))) (py_add o) (py_set o)), (fst (kset a m)), (es ++ [KS a]).
    split; [now apply (upd_at i o _ (mkW _ _ (objs w)) o)|]. split; auto. split; auto. split.
    + assert (Q1 : kdo (KS a) m = (fst (kset a m), Ok tt)) by (cbn [kdo]; destruct (kset a m); cbn in *; congruence).
      split; [eapply ed_snoc; [exact Ed|exact Q1|reflexivity|reflexivity] | eapply cleanly_trans; [exact Cl | exact (cleanly_kdo _ _ _ Q1)]].
    + rewrite kadds_app, ksets_app. cbn [kadds ksets py_add py_set]. rewrite app_nil_r. split; auto. now apply hist_append_at.
  - exact (Q _ (quiet_pdrop i _ (quiet_get_q i jids bt)) E).
  - pose proof (add_eq i (mkAdd name parent pos rpy) w o m Eo Er) as Es. cbn [a_name a_parent a_pos a_rpy] in Es. rewrite E in Es. inversion Es as [[Ew Ek]].
    split; [rewrite <- Ew; exact Tw|]. set (a := mkAdd name parent pos rpy) in *. exists (mkPy (py_xml o) (Some (fst (kadd a m))) (py_add o) (py_set o)), (fst (kadd a m)), (es ++ [KA a]).
    split; [now apply (upd_at i o _ (mkW _ _ (objs w)) o)|]. split; auto. split; auto. split.
    + assert (Q1 : kdo (KA a) m = (fst (kadd a m), Ok tt)) by (cbn [kdo]; destruct (kadd a m); cbn in *; congruence).
      split; [eapply ed_snoc; [exact Ed|exact Q1|reflexivity|reflexivity] | eapply cleanly_trans; [exact Cl | exact (cleanly_kdo _ _ _ Q1)]].
    + rewrite kadds_app, ksets_app. cbn [kadds ksets py_add py_set]. rewrite app_nil_r. split; auto. now apply hist_append_at.
  - exact (Q _ (quiet_pdrop i _ (quiet_limits i jids)) E).
  - refine (Q _ (quiet_robot i _ _) E). intros k. split; [reflexivity|]. split; [reflexivity|]. exact (cleanly_op Op_clear_cache _ _ eq_refl eq_refl).
  - exact (Q _ (quiet_pdrop i _ (quiet_mass i)) E).
  - unfold pdrop, py_dumps, bind in E. rewrite Eo in E. inversion E; subst. exact H.
Qed.
Lemma recorded_tracked i cs text m0 : forall w w', tracked i text m0 w -> run_recorded tinyxml i cs w = Some w' -> tracked i text m0 w'.
Proof.
  induction cs as [|c cs IH]; intros w w' H E; cbn [run_recorded] in E; [inversion E; now subst|].
  assert (O : forall w1 r, py_exec tinyxml c w = (w1, r) -> fine r -> on i c = false -> tracked i text m0 w1).
  { intros w1 r Ec F On. destruct H as (T & o & m & es & Eo & X & Er & (Ed & Cl) & Ha & Hs). destruct (exec_keeps tinyxml c w w1 r T Ec F) as [T1 K]. destruct (K i o Eo On) as (E1 & E2 & E3).
    split; auto. exists o, m, es. repeat split; auto; congruence. }
  destruct (py_exec tinyxml c w) as [w1 [u|e|u|]] eqn:Ec; try discriminate.
  - destruct (on i c) eqn:On; cbn [negb orb] in E.
    + destruct (recorded c) eqn:Rc; [|discriminate]. destruct u. exact (IH _ _ (exec_tracked i c w w1 text m0 H Ec On Rc) E).
    + exact (IH _ _ (O _ _ eq_refl I eq_refl) E).
  - destruct (on i c) eqn:On; [discriminate|]. exact (IH _ _ (O _ _ eq_refl I eq_refl) E).
Qed.
Lemma init_tracked text w w1 i : tidy w -> py_init tinyxml text w = (w1, Ok i) -> exists m0, ctor tinyxml text = Ok m0 /\ tracked i text m0 w1.
Proof.
  intros T E. pose proof (tidy_makes _ _ _ _ T (init_makes tinyxml _ _ _ _ E I)) as T1. unfold py_init in E. destruct (String.eqb text ""); [discriminate|].
  destruct (ctor tinyxml text) as [m0|e|u|]; inversion E; subst. exists m0. split; auto. split; auto. eexists. exists m0, []. split; [cbn; rewrite nth_error_app2, Nat.sub_diag by lia; reflexivity|].
  cbn. repeat split; auto. + now apply ed_nil. + apply cleanly_refl. + rewrite nth_error_app2, Nat.sub_diag by lia; reflexivity. + rewrite nth_error_app2, Nat.sub_diag by lia; reflexivity.
Qed.
Lemma pickled_dumps w i p : pickled w i = Some p -> py_dumps i w = (w, Ok p).
Proof. unfold pickled, py_dumps. destruct (nth_error (objs w) i); intros E; inversion E; reflexivity. Qed.

Lemma tracked_anywhere i text m0 w : ctor tinyxml text = Ok m0 -> tracked i text m0 w ->
  exists p m m', pickled w i = Some p /\ robot_of w i = Some m /\ same_model m m' /\ cleanly m0 m /\ cleanly m0 m' /\
    forall v, exists v', py_loads tinyxml p v = (v', Ok (length (objs v))) /\ robot_of v' (length (objs v)) = Some m'.
Proof.
  intros C (T & o & m & es & Eo & X & Er & (Ed & Cl) & Ha & Hs). destruct (edited_replayed _ _ _ Ed) as (m1 & m2 & S1 & S2 & Sm).
  exists (mkPickle (py_xml o) (kadds es) (ksets es)), m, m2. unfold pickled, robot_of at 1. rewrite Eo. split; [|split; [exact Er|]].
  - now rewrite (nth_error_nth _ _ _ Ha), (nth_error_nth _ _ _ Hs).
  - split; [exact Sm|]. split; [exact Cl|]. split.
    + eapply cleanly_trans; [eapply (cleanly_steps _ _ _ S1) | eapply (cleanly_steps _ _ _ S2)].
      * intros f I. apply in_map_iff in I. destruct I as (a & <- & _). exists (KA a). reflexivity.
      * intros f I. apply in_map_iff in I. destruct I as (a & <- & _). exists (KS a). reflexivity.
    + intros v. apply (loads_ok (mkPickle (py_xml o) (kadds es) (ksets es)) v m0 m1 m2); cbn [pk_xml pk_add pk_set]; auto. now rewrite X.
Qed.
End Replay.

Section Answers.
Context `{A : Arith}.
Lemma Rep_same R root sorted jsorted ms mass s m m' : Rep R root sorted jsorted ms mass s m -> WF m' -> same_model m m' -> Rep R root sorted jsorted ms mass s m'.
Proof.
  intros H W S. destruct S, H. constructor; auto; try congruence.
  - intros N. specialize (rep_rp N). unfold RpExact in *. now rewrite sm_rptable, sm_links, sm_joints.
  - intros N. rewrite sm_rptable. auto.
  - rewrite sm_com, sm_links. exact rep_com.
Qed.
Lemma PoseOf_same m m' i P : same_model m m' -> PoseOf m' i P -> PoseOf m i P.
Proof.
  intros S H. unfold PoseOf in *. destruct S. rewrite sm_links, sm_base in H. 
  assert (E : forall j, tf_plink_to_hlink m' j = tf_plink_to_hlink m j). { intros j. unfold tf_plink_to_hlink. now rewrite sm_angles. }
  induction H as [i l E1 E2|i l p j t P E1 E2 E3 E4 H IH]; [eapply pose_of_root; eauto | eapply pose_of_step; eauto; now rewrite <- E].
Qed.
Lemma same_answers tinyxml text R root sorted jsorted m0 m m' : loadable tinyxml text R root -> ordered R sorted jsorted -> ctor tinyxml text = Ok m0 ->
  cleanly m0 m -> cleanly m0 m' -> same_model m m' ->
  (forall i k k' P P', get_link_pose i m = (k, Ok P) -> get_link_pose i m' = (k', Ok P') -> P' = P) /\
  (forall i jids rt wb k k' J J', (forall x, In x jids -> x < length jsorted) -> get_jacobian i jids rt wb m = (k, Ok J) -> get_jacobian i jids rt wb m' = (k', Ok J') -> J' = J).
Proof.
  intros L O C (o1 & R1 & C1) (o2 & R2 & C2) Sm.
  assert (H1 : reached tinyxml text R root sorted jsorted o1 m) by (split; auto; split; auto; eauto).
  assert (H2 : reached tinyxml text R root sorted jsorted o2 m') by (split; auto; split; auto; eauto).
  destruct (reached_Rep _ _ _ _ _ _ _ _ H1) as [P1 Q1]. destruct (reached_Rep _ _ _ _ _ _ _ _ H2) as [P2 Q2]. specialize (Q1 C1). specialize (Q2 C2).
  assert (G1 : Good m) by (split; auto; apply P1). assert (G2 : Good m') by (split; auto; apply P2). split.
  - intros i k k' P P' X X'. destruct (get_link_pose_ok _ _ _ _ G1 X) as [Y _]. destruct (get_link_pose_ok _ _ _ _ G2 X') as [Y' _].
    exact (pose_of_det _ _ _ _ _ _ (PoseOf_same _ _ _ _ Sm Y') Y).
  - intros i jids rt wb k k' J J' Hk X X'. exact (jacobian_det _ _ _ _ _ _ _ _ _ _ _ _ _ _ _ _ _ P1 (Rep_same _ _ _ _ _ _ _ _ _ P1 (proj1 G2) Sm) G1 G2 Hk X X').
Qed.
End Answers.

Section More.
Context `{A : Arith}.
Context (tinyxml : string -> option (list xml)).

(** adding a name that exists *)
Lemma kadd_known a m : In (a_name a) (map fst (link_ids m)) -> kadd a m = (m, Throw InvalidArgument).
Proof.
  intros I. unfold kadd, w_add_new_link, add_new_link, add_new_link_pose. unfold bind at 1. rewrite bind_get. cbv beta.
  destruct (assoc (a_name a) (link_ids m)) as [x|] eqn:E; [reflexivity|]. apply assoc_none in E. contradiction.
Qed.
Lemma kadd_ids a m m' : kadd a m = (m', Ok tt) -> map fst (link_ids m') = map fst (link_ids m) ++ [a_name a].
Proof.
  intros E. unfold kadd, w_add_new_link, add_new_link, add_new_link_pose in *. set (pose := mkPose _ _) in *. clearbody pose.
  unfold update_rptable, bind, get, put, lift, throw, ret in E.
  destruct (assoc (a_name a) (link_ids m)) eqn:E1; [discriminate|].
  destruct (vget (links m) (a_parent a)) eqn:E2; try discriminate.
  destruct (vget (links m ++ _) (a_parent a)) eqn:E3; try discriminate.
  destruct (vset (links m ++ _) (a_parent a) _) eqn:E4; try discriminate.
  destruct (rfor _ _ _) eqn:E5; try discriminate. inversion E; subst. cbn. unfold ids_insert. now rewrite map_app.
Qed.
Lemma kadd_again a m m' : kadd a m = (m', Ok tt) -> kadd a m' = (m', Throw InvalidArgument).
Proof. intros E. apply kadd_known. rewrite (kadd_ids a m m' E). apply in_or_app. right. now left. Qed.

(** what replaying does to the lists *)
Lemma replay_add_hist i l : forall w o m w' h, nth_error (objs w) i = Some o -> py_robot o = Some m -> nth_error (heap_add w) (py_add o) = Some h ->
  replay_add i l w = (w', Ok tt) ->
  nth_error (heap_add w') (py_add o) = Some (h ++ l) /\ heap_set w' = heap_set w /\
  exists o' m', nth_error (objs w') i = Some o' /\ py_add o' = py_add o /\ py_set o' = py_set o /\ py_robot o' = Some m' /\ steps (map kadd l) m m'.
Proof.
  induction l as [|a l IH]; intros w o m w' h Eo Er Eh E.
  - unfold replay_add in E. rewrite for_each_nil in E. inversion E; subst. rewrite app_nil_r. split; auto. split; auto. exists o, m. repeat split; auto. constructor.
  - unfold replay_add in E. rewrite for_each_cons in E. apply bind_inv_ok in E. destruct E as (w1 & [] & E1 & E2).
    rewrite (add_eq i a w o m Eo Er) in E1. inversion E1 as [[Ew Ek]]. subst w1. clear E1.
    assert (K1 : kadd a m = (fst (kadd a m), Ok tt)) by (destruct (kadd a m); cbn in *; congruence).
    destruct (IH _ (mkPy (py_xml o) (Some (fst (kadd a m))) (py_add o) (py_set o)) _ w' (h ++ [a]) (upd_at i o _ (mkW _ _ (objs w)) o Eo) eq_refl (hist_append_at _ _ _ _ Eh) E2)
      as (H1 & H2 & o' & m' & X1 & X2 & X3 & X4 & X5).
    cbn [py_add py_set] in *. rewrite <- app_assoc in H1. split; auto. split; auto. exists o', m'. repeat split; auto. cbn [map]. econstructor; eauto.
Qed.
Lemma replay_set_hist i l : forall w o m w' h, nth_error (objs w) i = Some o -> py_robot o = Some m -> nth_error (heap_set w) (py_set o) = Some h ->
  replay_set i l w = (w', Ok tt) ->
  nth_error (heap_set w') (py_set o) = Some (h ++ l) /\ heap_add w' = heap_add w /\
  exists o' m', nth_error (objs w') i = Some o' /\ py_add o' = py_add o /\ py_set o' = py_set o /\ py_robot o' = Some m' /\ steps (map kset l) m m'.
Proof.
  induction l as [|a l IH]; intros w o m w' h Eo Er Eh E.
  - unfold replay_set in E. rewrite for_each_nil in E. inversion E; subst. rewrite app_nil_r. split; auto. split; auto. exists o, m. repeat split; auto. constructor.
  - unfold replay_set in E. rewrite for_each_cons in E. apply bind_inv_ok in E. destruct E as (w1 & [] & E1 & E2).
    rewrite (set_q_eq i a w o m Eo Er) in E1. inversion E1 as [[Ew Ek]]. subst w1. clear E1.
    assert (K1 : kset a m = (fst (kset a m), Ok tt)) by (destruct (kset a m); cbn in *; congruence).
    destruct (IH _ (mkPy (py_xml o) (Some (fst (kset a m))) (py_add o) (py_set o)) _ w' (h ++ [a]) (upd_at i o _ (mkW _ _ (objs w)) o Eo) eq_refl (hist_append_at _ _ _ _ Eh) E2)
      as (H1 & H2 & o' & m' & X1 & X2 & X3 & X4 & X5).
    cbn [py_add py_set] in *. rewrite <- app_assoc in H1. split; auto. split; auto. exists o', m'. repeat split; auto. cbn [map]. econstructor; eauto.
Qed.

(** what __setstate__ gives, when it does not raise *)
Lemma setstate_ok x ra rs w w' k ha hs : nth_error (heap_add w) ra = Some ha -> nth_error (heap_set w) rs = Some hs ->
  py_setstate tinyxml x ra rs w = (w', Ok k) ->
  exists m0 m1 m2, ctor tinyxml x = Ok m0 /\ steps (map kadd ha) m0 m1 /\ steps (map kset hs) m1 m2 /\
    k = length (objs w) /\ robot_of w' k = Some m2 /\ pickled w' k = Some (mkPickle x [] []) /\
    nth_error (heap_add w') ra = Some (ha ++ ha) /\ nth_error (heap_set w') rs = Some (hs ++ hs).
Proof.
  intros Ha Hs E. unfold py_setstate in E. destruct (ctor tinyxml x) as [m0|e|u|] eqn:C; try discriminate. exists m0.
  set (w1 := mkW (heap_add w) (heap_set w) (objs w ++ [mkPy x (Some m0) ra rs])) in E. set (n := length (objs w)) in *.
  assert (E1 : nth_error (objs w1) n = Some (mkPy x (Some m0) ra rs)). { cbn. rewrite nth_error_app2, Nat.sub_diag by (subst n; lia). reflexivity. }
  destruct (py_replay n ra rs w1) as [w3 rr] eqn:Er. assert (rr = Ok tt) by (destruct rr as [[]|e|u|]; try discriminate; reflexivity). subst rr.
  pose proof (act_replay _ _ _ _ _ _ Er) as (L1 & L2 & L3 & _ & K2 & _). destruct (K2 _ E1) as ((o3 & E3 & X3 & A3 & S3) & _).
  cbn [py_xml py_add py_set] in X3, A3, S3.
  rewrite E3 in E. inversion E; subst. clear E.
  unfold py_replay in Er. rewrite bind_get in Er. change (heap_add w1) with (heap_add w) in Er. rewrite (nth_error_nth _ _ _ Ha) in Er.
  apply bind_inv_ok in Er. destruct Er as (w2 & [] & Ea & Er). rewrite bind_get in Er.
  destruct (replay_add_hist n ha w1 _ m0 w2 ha E1 eq_refl Ha Ea) as (H1 & H2 & o2 & m1 & Y1 & Y2 & Y3 & Y4 & Y5). cbn [py_add py_set] in *. change (heap_set w1) with (heap_set w) in H2.
  rewrite H2, (nth_error_nth _ _ _ Hs) in Er.
  destruct (replay_set_hist n hs w2 o2 m1 w3 hs Y1 Y4 ltac:(rewrite Y3, H2; exact Hs) Er) as (G1 & G2 & o4 & m2 & Z1 & Z2 & Z3 & Z4 & Z5).
  assert (o4 = o3) by congruence. subst o4. exists m1, m2. split; auto. split; auto. split; auto. split; auto.
  assert (Ln : n < length (objs w3)) by (eapply nth_error_lt; eauto).
  unfold robot_of, pickled. cbn [objs heap_add heap_set]. rewrite nth_error_list_set_eq by auto. cbn [py_xml py_robot py_add py_set]. split; auto. split; [|split].
  - rewrite !app_nth2 by lia. rewrite !Nat.sub_diag. reflexivity.
  - rewrite nth_error_app1, G2 by (pose proof (nth_error_lt _ _ _ Ha) as Q; change (heap_add w1) with (heap_add w) in L2; lia). congruence.
  - rewrite nth_error_app1 by (pose proof (nth_error_lt _ _ _ Hs) as Q; change (heap_set w1) with (heap_set w) in L3; lia). congruence.
Qed.
Lemma loads_inv p w w' k : py_loads tinyxml p w = (w', Ok k) ->
  exists m0 m1 m2, ctor tinyxml (pk_xml p) = Ok m0 /\ steps (map kadd (pk_add p)) m0 m1 /\ steps (map kset (pk_set p)) m1 m2 /\
    robot_of w' k = Some m2 /\ pickled w' k = Some (mkPickle (pk_xml p) [] []).
Proof.
  intros E. unfold py_loads in E.
  assert (Ea : forall B (l : list B) b, nth_error (l ++ [b]) (length l) = Some b) by (intros; rewrite nth_error_app2, Nat.sub_diag by lia; reflexivity).
  destruct (setstate_ok (pk_xml p) (length (heap_add w)) (length (heap_set w)) (mkW (heap_add w ++ [pk_add p]) (heap_set w ++ [pk_set p]) (objs w)) w' k (pk_add p) (pk_set p) (Ea _ (heap_add w) _) (Ea _ (heap_set w) _) E) as (m0 & m1 & m2 & X1 & X2 & X3 & X4 & X5 & X6 & X7 & X8).
  exists m0, m1, m2. auto.
Qed.
Lemma steps_det fs : forall m m1 m2, steps fs m m1 -> steps fs m m2 -> m1 = m2.
Proof.
  induction fs as [|f fs IH]; intros m m1 m2 H1 H2; inversion H1 as [?|f1 fs1 x1 k1 y1 E1 S1]; inversion H2 as [?|f2 fs2 x2 k2 y2 E2 S2]; subst; auto.
  assert (k1 = k2) by congruence. subst. eauto.
Qed.

(** replaying a history that fails *)
Lemma replay_add_fails i l1 a l2 : forall w o m m1 e, nth_error (objs w) i = Some o -> py_robot o = Some m -> steps (map kadd l1) m m1 ->
  snd (kadd a m1) = Throw e -> exists w', replay_add i (l1 ++ a :: l2) w = (w', Throw e).
Proof.
  induction l1 as [|b l1 IH]; intros w o m m1 e Eo Er St Ek; cbn [map app] in *; inversion St as [?|f fs x m2 y Ef Sf]; subst.
  - unfold replay_add. rewrite for_each_cons. unfold bind. rewrite (add_eq i a w o m1 Eo Er), Ek. eauto.
  - unfold replay_add in *. rewrite for_each_cons. pose proof (add_eq i b w o m Eo Er) as Eb. rewrite Ef in Eb. cbn [fst snd] in Eb. rewrite (bind_ok _ _ _ _ _ Eb).
    exact (IH _ _ m2 m1 e (upd_at i o m2 (mkW _ _ (objs w)) o Eo) eq_refl Sf Ek).
Qed.
Lemma setstate_fails x ra rs w l1 a l2 m0 m1 e : ctor tinyxml x = Ok m0 -> nth_error (heap_add w) ra = Some (l1 ++ a :: l2) -> steps (map kadd l1) m0 m1 ->
  snd (kadd a m1) = Throw e -> exists w', py_setstate tinyxml x ra rs w = (w', Throw e).
Proof.
  intros C Ha St Ek. unfold py_setstate. rewrite C. set (n := length (objs w)). set (w1 := mkW _ _ _).
  assert (E1 : nth_error (objs w1) n = Some (mkPy x (Some m0) ra rs)). { cbn. rewrite nth_error_app2, Nat.sub_diag by (subst n; lia). reflexivity. }
  destruct (replay_add_fails n l1 a l2 w1 _ m0 m1 e E1 eq_refl St Ek) as (w2 & E2).
  assert (Er : py_replay n ra rs w1 = (w2, Throw e)). { unfold py_replay. rewrite bind_get. cbn [w1 heap_add]. rewrite (nth_error_nth _ _ _ Ha). unfold bind. now rewrite E2. }
  rewrite Er. eauto.
Qed.
Lemma steps_ids l : forall m m', steps (map kadd l) m m' -> map fst (link_ids m') = map fst (link_ids m) ++ map a_name l.
Proof.
  induction l as [|a l IH]; intros m m' H; cbn [map] in *; inversion H as [?|f fs x m1 y Ef Sf]; subst; [now rewrite app_nil_r|].
  rewrite (IH _ _ Sf), (kadd_ids a _ _ Ef), <- app_assoc. reflexivity.
Qed.
End More.
