(** Models in a shared heap behave like models of their own, while the sharing is harmless. *)
From Coq Require Import QArith String Ascii List Arith Bool Lia.
From Verif Require Import Base Num Pose DataStructure Urdf Kin Heap Spec_Robot Spec_Load Spec_Graph Spec_Heap Pf_Base Pf_Data Inv Pf_Loop Pf_Dag.
Import ListNotations.
Local Open Scope m_scope.

Section PfHeap.
Context `{A : Arith}.

(** the address of the link with index [i] *)
Definition ptr (as_ : list addr) (a : addr) (i : nat) : Prop := nth_error as_ i = Some a.
Definition orel {X Y} (R : X -> Y -> Prop) (o : option X) (o' : option Y) : Prop :=
  match o, o' with None, None => True | Some x, Some y => R x y | _, _ => False end.
Definition jlike (j' j : Joint) : Prop :=
  j_name j' = j_name j /\ j_type j' = j_type j /\ j_axis j' = j_axis j /\ j_origin j' = j_origin j /\ j_limits j' = j_limits j /\ j_id j' = j_id j.

Record cell (as_ : list addr) (e : bool) (l' l : Link) : Prop := {
  ce_name : l_name l' = l_name l;
  ce_id : l_id l' = l_id l;
  ce_in : l_inertial l' = l_inertial l;
  ce_par : orel (ptr as_) (l_parent l') (l_parent l);
  ce_pj : orel jlike (l_pjoint l') (l_pjoint l);
  ce_ch : e = true -> Forall2 (ptr as_) (l_children l') (l_children l) }.

Record mem (as_ : list addr) (k m : KM) : Prop := {
  me_root : root_link_id k = root_link_id m;
  me_lids : link_ids k = link_ids m;
  me_com : Forall2 (ptr as_) (com_dummy_links k) (com_dummy_links m);
  me_joints : Forall2 (fun j' j => jlike j' j /\ orel (ptr as_) (j_child j') (j_child j)) (joints k) (joints m);
  me_jids : joint_ids k = joint_ids m;
  me_angles : joint_angles k = joint_angles m;
  me_base : base_pose k = base_pose m;
  me_rp : rptable k = rptable m;
  me_dof : num_dof k = num_dof m;
  me_mass : total_mass k = total_mass m;
  me_stack : tstack k = tstack m;
  me_cache : tcache k = tcache m }.

Record Sim (e : bool) (hp : Heap) (as_ : list addr) (h : HM) (m : KM) : Prop := {
  s_as : hlinks h = as_;
  s_cells : Forall2 (fun a l => exists l', nth_error hp a = Some (Some l') /\ cell as_ e l' l) as_ (links m);
  s_nodup : NoDup as_;
  s_mem : mem as_ (hk h) m }.

Definition keeps (m m' : KM) : Prop :=
  links m' = links m /\ link_ids m' = link_ids m /\ joints m' = joints m /\ joint_ids m' = joint_ids m.
Lemma keeps_refl m : keeps m m. Proof. repeat split. Qed.
Lemma keeps_trans a b c : keeps a b -> keeps b c -> keeps a c.
Proof. intros (A1 & A2 & A3 & A4) (B1 & B2 & B3 & B4). repeat split; congruence. Qed.

Lemma Forall2_nth1 {X Y} (R : X -> Y -> Prop) l l' i x : Forall2 R l l' -> nth_error l i = Some x -> exists y, nth_error l' i = Some y /\ R x y.
Proof. intros H. revert i. induction H as [|a b l l' H F IH]; intros [|i] E; cbn in E; try discriminate; [inversion E; subst; exists b; now split | now apply IH]. Qed.
Lemma Forall2_nth2 {X Y} (R : X -> Y -> Prop) l l' i y : Forall2 R l l' -> nth_error l' i = Some y -> exists x, nth_error l i = Some x /\ R x y.
Proof. intros H. revert i. induction H as [|a b l l' H F IH]; intros [|i] E; cbn in E; try discriminate; [inversion E; subst; exists a; now split | now apply IH]. Qed.
Lemma Forall2_length' {X Y} (R : X -> Y -> Prop) l l' : Forall2 R l l' -> length l = length l'.
Proof. induction 1; cbn; auto. Qed.
Lemma Forall2_vget {X Y} (R : X -> Y -> Prop) l l' i : Forall2 R l l' ->
  (exists x y, vget l i = Ok x /\ vget l' i = Ok y /\ R x y) \/ (vget l i = UB OutOfBounds /\ vget l' i = UB OutOfBounds).
Proof.
  intros F. unfold vget. destruct (nth_error l i) as [x|] eqn:E.
  - destruct (Forall2_nth1 _ _ _ _ _ F E) as (y & Ey & H). rewrite Ey. left. eauto.
  - right. apply nth_error_None in E. rewrite (Forall2_length' _ _ _ F) in E. apply nth_error_None in E. now rewrite E.
Qed.

(** ** calls that leave the heap alone *)
Section Query.
Variables (e : bool) (hp : Heap) (as_ : list addr).
Local Notation S2 := (Sim e hp as_).

Definition simat {B} (h : HM) (m : KM) (f : M HM B) (g : M KM B) : Prop :=
  snd (f h) = snd (g m) /\ S2 (fst (f h)) (fst (g m)) /\ keeps m (fst (g m)).
Definition simq {B} (f : M HM B) (g : M KM B) : Prop := forall h m, S2 h m -> simat h m f g.

Lemma simat_bind {B C} h m (f : M HM B) g (k : B -> M HM C) k' : simat h m f g ->
  (forall b h' m', S2 h' m' -> simat h' m' (k b) (k' b)) -> simat h m (bind f k) (bind g k').
Proof.
  intros (E & HS & K) H. unfold simat, bind in *. destruct (f h) as [h1 r], (g m) as [m1 r1]. cbn [fst snd] in *. subst r1.
  destruct r as [b|x|u|]; cbn [fst snd]; auto. destruct (H b h1 m1 HS) as (E2 & HS2 & K2). split; auto. split; auto. eapply keeps_trans; eauto.
Qed.
Lemma simat_ret {B} h m (b : B) : S2 h m -> simat h m (ret b) (ret b).
Proof. intros H. split; [reflexivity|]. split; [exact H | apply keeps_refl]. Qed.
Lemma simat_throw {B} h m x : S2 h m -> @simat B h m (throw x) (throw x).
Proof. intros H. split; [reflexivity|]. split; [exact H | apply keeps_refl]. Qed.
Lemma simat_lift {B} h m (r r' : res B) : S2 h m -> r = r' -> simat h m (lift r) (lift r').
Proof. intros H ->. split; [reflexivity|]. split; [exact H | apply keeps_refl]. Qed.
Lemma simat_get2 {B} h m (f : HM -> M HM B) (g : KM -> M KM B) : simat h m (f h) (g m) -> simat h m (bind get f) (bind get g).
Proof. exact (fun H => H). Qed.
Lemma simat_getr {B} h m (f : M HM B) (g : KM -> M KM B) : simat h m f (g m) -> simat h m f (bind get g).
Proof. exact (fun H => H). Qed.
Lemma simat_lift2 {B B' C} h m (r : res B) (r' : res B') (k : B -> M HM C) k' : S2 h m ->
  (exists b b', r = Ok b /\ r' = Ok b' /\ simat h m (k b) (k' b')) \/ (exists u, r = UB u /\ r' = UB u) ->
  simat h m (bind (lift r) k) (bind (lift r') k').
Proof.
  intros HS [(b & b' & -> & -> & H)|(u & -> & ->)]; [exact H|]. split; [reflexivity|]. split; [exact HS | apply keeps_refl].
Qed.
Lemma simat_lift1 {B C} h m (r : res B) (k : B -> M HM C) k' : S2 h m ->
  (forall b, simat h m (k b) (k' b)) -> simat h m (bind (lift r) k) (bind (lift r) k').
Proof. intros HS H. destruct r as [b|x|u|]; [exact (H b)| | |]; (split; [reflexivity|]; split; [exact HS | apply keeps_refl]). Qed.
Lemma simat_for_each {X Y B} (R : X -> Y -> Prop) (body : X -> B -> M HM B) body' l l' : Forall2 R l l' ->
  (forall x y b h m, R x y -> S2 h m -> simat h m (body x b) (body' y b)) ->
  forall b h m, S2 h m -> simat h m (for_each l b body) (for_each l' b body').
Proof.
  intros F H. induction F as [|x y l l' Hxy F IH]; intros b h m HS; cbn [for_each]; [now apply simat_ret|].
  apply simat_bind; [now apply H | intros b' h' m' HS'; now apply IH].
Qed.

Lemma s_obj h m a i : S2 h m -> ptr as_ a i -> exists l' l, obj hp a = Ok l' /\ vget (links m) i = Ok l /\ cell as_ e l' l.
Proof.
  intros HS P. destruct (Forall2_nth1 _ _ _ _ _ (s_cells _ _ _ _ _ HS) P) as (l & El & l' & E' & C). exists l', l.
  unfold obj. rewrite E'. split; [reflexivity|]. split; [now apply vget_ok | exact C].
Qed.
Lemma s_lock h m w w' : S2 h m -> orel (ptr as_) w w' -> lock hp w = w.
Proof.
  intros HS. destruct w as [a|], w' as [i|]; cbn [orel]; try easy. intros P. destruct (s_obj _ _ _ _ HS P) as (l' & l & E & _). unfold obj in E. unfold lock.
  destruct (nth_error hp a) as [[x|]|]; try discriminate. reflexivity.
Qed.

Lemma tf_like k m j' j : joint_angles k = joint_angles m -> jlike j' j -> tf_plink_to_hlink k j' = tf_plink_to_hlink m j.
Proof.
  intros Ea (E1 & E2 & E3 & E4 & E5 & E6). unfold tf_plink_to_hlink, joint_transform. rewrite E2, E3, E4, E6, Ea. reflexivity.
Qed.

Lemma s_walk fuel h m : S2 h m -> forall a i stk, ptr as_ a i -> h_walk_up fuel hp (hk h) a stk = walk_up fuel m i stk.
Proof.
  intros HS. induction fuel as [|fuel IH]; intros a i stk P; [reflexivity|]. cbn [h_walk_up walk_up].
  destruct (s_obj _ _ _ _ HS P) as (l' & l & E' & E & C). rewrite E', E. cbn [rbind].
  rewrite (s_lock _ _ _ _ HS (ce_par _ _ _ _ C)). pose proof (ce_par _ _ _ _ C) as Pp. pose proof (s_mem _ _ _ _ _ HS) as Mm.
  destruct (l_parent l') as [pa|], (l_parent l) as [p|]; cbn [orel] in Pp; try easy; [|now rewrite (me_base _ _ _ Mm)].
  rewrite (ce_id _ _ _ _ C), (me_cache _ _ _ Mm). destruct (get_cache (l_id l) (tcache m)) as [c|x|u|]; auto. cbn [rbind]. destruct c as [tf|]; [reflexivity|].
  pose proof (ce_pj _ _ _ _ C) as Pj. destruct (l_pjoint l') as [j'|], (l_pjoint l) as [j|]; cbn [orel] in Pj; try easy. cbn [deref rbind].
  rewrite (tf_like (hk h) m j' j (me_angles _ _ _ Mm) Pj). destruct (tf_plink_to_hlink m j) as [tf|x|u|]; auto. cbn [rbind].
  destruct (stack_push (l_id l, tf) stk) as [stk'|x|u|]; auto. cbn [rbind]. now apply IH.
Qed.

Lemma mem_scratch s c k m : mem as_ k m -> mem as_ (set_scratch s c k) (set_scratch s c m).
Proof. intros H. destruct H. constructor; auto. Qed.
Lemma mem_angles v k m : mem as_ k m -> mem as_ (set_angles v k) (set_angles v m).
Proof. intros H. destruct H. constructor; auto. Qed.
Lemma mem_tcache v k m : mem as_ k m -> mem as_ (set_tcache v k) (set_tcache v m).
Proof. intros H. destruct H. constructor; auto. Qed.
Lemma mem_base v k m : mem as_ k m -> mem as_ (set_base v k) (set_base v m).
Proof. intros H. destruct H. constructor; auto. Qed.
Lemma mem_rptable v k m : mem as_ k m -> mem as_ (set_rptable v k) (set_rptable v m).
Proof. intros H. destruct H. constructor; auto. Qed.

Lemma sim_set h m k m' : S2 h m -> mem as_ k m' -> links m' = links m -> S2 (mkHM k (hlinks h)) m'.
Proof. intros HS H E. destruct HS as [a b c d]. constructor; auto. now rewrite E. Qed.

Lemma q_inner i : simq (h_get_link_pose_inner hp i) (get_link_pose_inner i).
Proof.
  intros h m HS. pose proof (s_mem _ _ _ _ _ HS) as Mm. unfold simat, h_get_link_pose_inner, get_link_pose_inner. rewrite (me_stack _ _ _ Mm), (me_cache _ _ _ Mm).
  set (stk := stack_reset (tstack m)).
  assert (Ew : (let? a := vget (hlinks h) i in h_walk_up (S (length (stack_data stk))) hp (hk h) a stk) = walk_up (S (length (stack_data stk))) m i stk).
  { unfold vget. rewrite (s_as _ _ _ _ _ HS). destruct (nth_error as_ i) as [a|] eqn:Ea; cbn [rbind]; [now apply s_walk|].
    cbn [walk_up]. apply nth_error_None in Ea. rewrite (Forall2_length' _ _ _ (s_cells _ _ _ _ _ HS)) in Ea. now rewrite (vget_ub _ _ Ea). }
  rewrite Ew. destruct (walk_up _ _ _ _) as [[stk' tf]|x|u|]; cbn [fst snd]; try (split; [reflexivity|]; split; [exact HS | apply keeps_refl]).
  destruct (unwind _ _ _ _) as [[[stk'' c] tf']|x|u|]; cbn [fst snd]; try (split; [reflexivity|]; split; [exact HS | apply keeps_refl]).
  split; [reflexivity|]. split; [|repeat split]. eapply sim_set; eauto. now apply mem_scratch.
Qed.
Lemma q_pose i : simq (h_get_link_pose hp i) (get_link_pose i).
Proof.
  intros h m HS. apply simat_get2. rewrite (me_cache _ _ _ (s_mem _ _ _ _ _ HS)). apply simat_bind; [now apply simat_lift|].
  intros [p|] h' m' HS'; [now apply simat_ret | now apply q_inner].
Qed.

Lemma col_like rt j' j epos erpy einv tf : jlike j' j -> joint_column rt j' epos erpy einv tf = joint_column rt j epos erpy einv tf.
Proof. intros (E1 & E2 & E3 & _). unfold joint_column. now rewrite E2, E3. Qed.

Lemma q_jac_joint rt el epos erpy einv i jid J : simq (h_jacobian_joint hp rt el epos erpy einv i jid J) (jacobian_joint rt el epos erpy einv i jid J).
Proof.
  intros h m HS. apply simat_get2. pose proof (s_mem _ _ _ _ _ HS) as Mm. rewrite (me_rp _ _ _ Mm).
  apply simat_lift1; auto. intros [|]; [|now apply simat_ret].
  apply simat_lift2; auto. destruct (Forall2_vget _ _ _ jid (me_joints _ _ _ Mm)) as [(j' & j & E' & E & Jl & Pc)|(E' & E)]; [|right; eauto].
    left. exists j', j. split; auto. split; auto. apply simat_lift2; auto. rewrite (s_lock _ _ _ _ HS Pc).
    destruct (j_child j') as [c'|], (j_child j) as [c|]; cbn [orel] in Pc; try easy; [|right; exists NullDeref; split; reflexivity]. left. exists c', c. split; auto. split; auto.
    destruct (s_obj _ _ _ _ HS Pc) as (l' & l & F' & F & C). apply simat_lift2; auto. left. exists l', l. split; auto. split; auto.
    rewrite (ce_id _ _ _ _ C). apply simat_bind; [now apply q_pose|]. intros tf h' m' HS'. apply simat_lift; auto. now rewrite (col_like _ _ _ _ _ _ _ Jl).
Qed.

Lemma q_jac_base rt n tf erpy J : simq (h_jacobian_base hp rt n tf erpy J) (jacobian_base rt n tf erpy J).
Proof.
  intros h m HS. apply simat_get2. rewrite (me_root _ _ _ (s_mem _ _ _ _ _ HS)). apply simat_bind; [now apply q_pose|].
  intros tf' h' m' HS'. now apply simat_lift.
Qed.
Lemma Forall2_eq {X} (l : list X) : Forall2 eq l l.
Proof. induction l; constructor; auto. Qed.

Lemma q_jac i jids rt wb : simq (h_get_jacobian hp i jids rt wb) (get_jacobian i jids rt wb).
Proof.
  intros h m HS. unfold h_get_jacobian, get_jacobian. apply simat_bind; [now apply q_pose|]. intros tf h1 m1 HS1.
  apply simat_bind.
  - apply (simat_for_each eq); auto; [apply Forall2_eq|]. intros x y b h2 m2 -> HS2. now apply q_jac_joint.
  - intros J h2 m2 HS2. destruct wb; [now apply q_jac_base | now apply simat_ret].
Qed.

Lemma q_com : simq (h_get_com hp) get_com.
Proof.
  intros h m HS. apply simat_get2. apply simat_bind.
  - apply (simat_for_each (ptr as_)); auto; [apply (s_mem _ _ _ _ _ HS)|]. intros a i [com ms] h1 m1 P HS1. apply simat_getr.
    destruct (s_obj _ _ _ _ HS1 P) as (l' & l & E' & E & C). apply simat_lift2; auto. left. exists l', l. split; auto. split; auto.
    rewrite (ce_in _ _ _ _ C), (ce_id _ _ _ _ C). apply simat_bind; [now apply simat_lift|]. intros ine h2 m2 HS2. apply simat_bind; [now apply q_pose|].
    intros tf h3 m3 HS3. now apply simat_ret.
  - intros [com ms] h1 m1 HS1. now apply simat_ret.
Qed.
Lemma q_com_jac jids wb : simq (h_get_com_jacobian hp jids wb) (get_com_jacobian jids wb).
Proof.
  intros h m HS. unfold h_get_com_jacobian, get_com_jacobian. apply simat_get2. apply simat_bind.
  - apply (simat_for_each (ptr as_)); auto; [apply (s_mem _ _ _ _ _ HS)|]. intros a i [J ms] h1 m1 P HS1. apply simat_getr.
    destruct (s_obj _ _ _ _ HS1 P) as (l' & l & E' & E & C). apply simat_lift2; auto. left. exists l', l. split; auto. split; auto.
    rewrite (ce_in _ _ _ _ C), (ce_id _ _ _ _ C). apply simat_bind; [now apply simat_lift|]. intros ine h2 m2 HS2. apply simat_bind; [now apply q_jac|].
    intros tf h3 m3 HS3. now apply simat_ret.
  - intros [J ms] h1 m1 HS1. now apply simat_ret.
Qed.
Lemma q_inertia : simq (h_get_total_inertia_matrix hp) get_total_inertia_matrix.
Proof.
  intros h m HS. apply simat_bind; [now apply q_com|]. intros com h1 m1 HS1. apply simat_get2.
  apply (simat_for_each (ptr as_)); auto; [apply (s_mem _ _ _ _ _ HS1)|]. intros a i acc h2 m2 P HS2. apply simat_getr.
  destruct (s_obj _ _ _ _ HS2 P) as (l' & l & E' & E & C). apply simat_lift2; auto. left. exists l', l. split; auto. split; auto.
  rewrite (ce_in _ _ _ _ C), (ce_id _ _ _ _ C). destruct (l_inertial l) as [ine|]; [|now apply simat_ret].
  apply simat_bind; [now apply q_pose|]. intros tf h3 m3 HS3. now apply simat_ret.
Qed.
Lemma q_link_names : simq (h_get_link_names hp) (bind get (fun m => ret (get_link_names m))).
Proof.
  intros h m HS. apply simat_get2. rewrite (s_as _ _ _ _ _ HS).
  assert (G : forall l ls acc, Forall2 (fun a l => exists l', nth_error hp a = Some (Some l') /\ cell as_ e l' l) l ls ->
     rfor l acc (fun a acc => let? l := obj hp a in Ok (acc ++ [l_name l])) = Ok (acc ++ map l_name ls)).
  { intros l ls acc F. revert acc. induction F as [|a x l ls (l' & E & C) F IH]; intros acc; cbn [rfor map]; [now rewrite app_nil_r|].
    unfold obj at 1. rewrite E. cbn [rbind]. rewrite IH, (ce_name _ _ _ _ C), <- app_assoc. reflexivity. }
  rewrite (G as_ (links m) [] (s_cells _ _ _ _ _ HS)). cbn [app]. apply simat_ret; auto.
Qed.

(** methods that use no link *)
Definition local_op {B} (f : M KM B) : Prop := forall k m, mem as_ k m ->
  snd (f k) = snd (f m) /\ mem as_ (fst (f k)) (fst (f m)) /\ keeps m (fst (f m)).
Lemma q_onk {B} (f : M KM B) : local_op f -> simq (onk f) f.
Proof.
  intros H h m HS. destruct (H (hk h) m (s_mem _ _ _ _ _ HS)) as (E & Mm & K). unfold simat, onk. destruct (f (hk h)) as [k r], (f m) as [m' r']. cbn [fst snd] in *.
  split; auto. split; auto. eapply sim_set; eauto. apply K.
Qed.
Lemma loc_bind {B C} (f : M KM B) (k : B -> M KM C) : local_op f -> (forall b, local_op (k b)) -> local_op (bind f k).
Proof.
  intros H1 H2 a m Mm. destruct (H1 a m Mm) as (E & Mm1 & K1). unfold bind. destruct (f a) as [a1 r], (f m) as [m1 r1]. cbn [fst snd] in *. subst r1.
  destruct r as [b|x|u|]; cbn [fst snd]; auto. destruct (H2 b a1 m1 Mm1) as (E2 & Mm2 & K2). split; auto. split; auto. eapply keeps_trans; eauto.
Qed.
Lemma loc_for_each {X B} (body : X -> B -> M KM B) l : (forall x b, local_op (body x b)) -> forall b, local_op (for_each l b body).
Proof.
  intros H. induction l as [|x l IH]; intros b; cbn [for_each]; [intros k m Mm; split; [reflexivity|]; split; [exact Mm | apply keeps_refl]|].
  now apply loc_bind.
Qed.
Lemma loc_clear : local_op clear_cache.
Proof. intros k m Mm. unfold clear_cache. rewrite !bind_get. cbn [put fst snd]. rewrite (me_cache _ _ _ Mm). split; [reflexivity|]. split; [now apply mem_tcache | repeat split]. Qed.
Lemma loc_angles_nc jids a : local_op (set_joint_angles_nc jids a).
Proof.
  unfold set_joint_angles_nc. apply loc_for_each. intros [i j] _ k m Mm. rewrite !bind_get. cbn [fst snd]. rewrite (me_angles _ _ _ Mm).
  unfold bind, lift. destruct (vget a i) as [x|x|u|]; cbn [fst snd]; try (split; [reflexivity|]; split; [exact Mm | apply keeps_refl]).
  destruct (vset (joint_angles m) j x) as [v|y|u|]; cbn [put fst snd]; try (split; [reflexivity|]; split; [exact Mm | apply keeps_refl]).
  split; [reflexivity|]. split; [now apply mem_angles | repeat split].
Qed.
Lemma loc_angles jids a : local_op (set_joint_angles jids a).
Proof. apply loc_bind; [apply loc_angles_nc | intros; apply loc_clear]. Qed.
Lemma loc_angle j a : local_op (set_joint_angle j a).
Proof.
  intros k m Mm. unfold set_joint_angle. rewrite !bind_get, (me_angles _ _ _ Mm). unfold bind, lift.
  destruct (vset (joint_angles m) j a) as [v|y|u|]; cbn [put fst snd]; try (split; [reflexivity|]; split; [exact Mm | apply keeps_refl]).
  split; [reflexivity|]. split; [now apply mem_angles | repeat split].
Qed.
Lemma loc_base_nc p : local_op (set_base_pose_nc p).
Proof. intros k m Mm. split; [reflexivity|]. split; [now apply mem_base | repeat split]. Qed.
Lemma loc_base p : local_op (set_base_pose p).
Proof. apply (loc_bind (set_base_pose_nc p) (fun _ => clear_cache)); [apply loc_base_nc | intros; apply loc_clear]. Qed.
Lemma loc_init : local_op set_init_angles.
Proof.
  intros k m Mm. unfold set_init_angles. rewrite !bind_get, !bind_put, (me_dof _ _ _ Mm).
  destruct (loc_clear _ _ (mem_angles (repeat n0 (num_dof m)) _ _ Mm)) as (E & Mm2 & K). split; auto.
Qed.
Lemma loc_read {B} (g : KM -> res B) : (forall k m, mem as_ k m -> g k = g m) -> local_op (bind get (fun m => lift (g m))).
Proof. intros H k m Mm. split; [exact (H k m Mm)|]. split; [exact Mm | apply keeps_refl]. Qed.
Lemma rfor_joints {B} k m (body : Joint -> list B -> res (list B)) jids : mem as_ k m -> (forall j' j acc, jlike j' j -> body j' acc = body j acc) -> forall acc,
  rfor jids acc (fun j acc => let? jt := vget (joints k) j in body jt acc) = rfor jids acc (fun j acc => let? jt := vget (joints m) j in body jt acc).
Proof.
  intros Mm H. induction jids as [|j jids IH]; intros acc; cbn [rfor]; auto.
  destruct (Forall2_vget _ _ _ j (me_joints _ _ _ Mm)) as [(j' & j0 & -> & -> & Jl & _)|(-> & ->)]; cbn [rbind]; auto. rewrite (H _ _ acc Jl).
  destruct (body j0 acc) as [x|x|u|]; cbn [rbind]; auto.
Qed.

Definition reads (c : call) : bool := negb (adds c).
Lemma simq_giving {B} (f : B -> reply) x y : simq x y -> simq (giving f x) (giving f y).
Proof. intros H h m HS. apply simat_bind; [now apply H | intros b h' m' HS'; now apply simat_ret]. Qed.
Lemma reading_giving {B} (f : B -> reply) g (s : HS) : giving f (reading g) s = reading (fun p => giving f (g p)) s.
Proof. destruct s as [p h]. unfold giving, reading, bind, ret. cbn [fst snd]. destruct (g p h) as [h' [b|x|u|]]; reflexivity. Qed.

Lemma call_reads c h m : reads c = true -> S2 h m -> exists h', fst (h_call c (hp, h)) = (hp, h') /\ snd (h_call c (hp, h)) = snd (call_alone c m) /\
  S2 h' (fst (call_alone c m)) /\ keeps m (fst (call_alone c m)).
Proof.
  intros Rc HS. assert (G : exists f : M HM reply, h_call c (hp, h) = (let (h', r) := f h in ((hp, h'), r)) /\ simq f (call_alone c)).
  { assert (W : forall B (f : B -> reply) (g : Heap -> M HM B) y, simq (g hp) y -> exists f0 : M HM reply, giving f (reading g) (hp, h) = (let (h', r) := f0 h in ((hp, h'), r)) /\ simq f0 (giving f y)).
    { intros B f g y H. exists (giving f (g hp)). split; [now rewrite reading_giving | now apply simq_giving]. }
    destruct c; try discriminate; unfold h_call, call_alone; apply W; try apply q_onk.
    - apply loc_angles.
    - apply loc_angles_nc.
    - apply loc_angle.
    - apply loc_base.
    - apply loc_base_nc.
    - apply loc_clear.
    - apply loc_init.
    - apply loc_read. intros k1 m1 Mm. now rewrite (me_angles _ _ _ Mm).
    - apply loc_read. intros k1 m1 Mm. now rewrite (me_jids _ _ _ Mm).
    - apply (loc_read (fun m => Ok (get_joint_names m))). intros k1 m1 Mm. unfold get_joint_names. f_equal. pose proof (me_joints _ _ _ Mm) as F. induction F as [|x y l l' ((E & _) & _) F IH]; cbn [map]; [reflexivity | now rewrite E, IH].
    - apply loc_read. intros k1 m1 Mm. apply (rfor_joints k1 m1 (fun jt acc => match j_type jt with CONTINUOUS => Ok (acc ++ [(NegInf, PosInf)]) | _ => let? l := deref (j_limits jt) in Ok (acc ++ [(Fin (lower l), Fin (upper l))]) end)); auto.
      intros j' j acc (_ & E2 & _ & _ & E5 & _). now rewrite E2, E5.
    - apply loc_read. intros k1 m1 Mm. apply (rfor_joints k1 m1 (fun jt acc => let? l := deref (j_limits jt) in Ok (acc ++ [velocity l]))); auto.
      intros j' j acc (_ & E2 & _ & _ & E5 & _). now rewrite E5.
    - apply loc_read. intros k1 m1 Mm. apply (rfor_joints k1 m1 (fun jt acc => let? l := deref (j_limits jt) in Ok (acc ++ [effort l]))); auto.
      intros j' j acc (_ & E2 & _ & _ & E5 & _). now rewrite E5.
    - apply loc_read. intros k1 m1 Mm. now rewrite (me_lids _ _ _ Mm).
    - apply q_link_names. - apply q_pose. - apply q_jac. - apply q_com. - apply q_com_jac. - apply q_inertia. }
  destruct G as (f & Ef & Hf). destruct (Hf h m HS) as (E & HS' & K). rewrite Ef. destruct (f h) as [h' r]. cbn [fst snd] in *. exists h'. auto.
Qed.

End Query.
End PfHeap.
