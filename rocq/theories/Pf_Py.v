(** Every instance of the Python class wraps a C++ object that a history of calls reached. *)
From Coq Require Import String List Arith Lia Bool.
From Verif Require Import Base Num Pose DataStructure Urdf Kin Wrapper Py Spec_Robot Spec_Hist Spec_Load Spec_Py Pf_Base Pf_Hist.
Import ListNotations.
Local Open Scope m_scope.

Section PfPy.
Context `{A : Arith}.
Context (tinyxml : string -> option (list xml)).

(** instance [o'] is [o] after some calls on its C++ object *)
Definition moved (o o' : PyModel) : Prop :=
  py_xml o' = py_xml o /\ match py_robot o with
                          | None => py_robot o' = None
                          | Some m => exists ops m', run ops m = Some m' /\ py_robot o' = Some m'
                          end.
(** [o] wraps an object made by the constructor and some calls *)
Definition genuine (o : PyModel) : Prop :=
  exists m0 ops m, ctor tinyxml (py_xml o) = Ok m0 /\ run ops m0 = Some m /\ py_robot o = Some m.

Definition evolves (w w' : World) : Prop :=
  length (objs w) <= length (objs w') /\
  (forall i o, nth_error (objs w) i = Some o -> exists o', nth_error (objs w') i = Some o' /\ moved o o') /\
  (forall i o', nth_error (objs w') i = Some o' -> nth_error (objs w) i = None -> genuine o').

Definition fine {B} (r : res B) : Prop := match r with Ok _ | Throw _ => True | _ => False end.
Definition sound {B} (f : M World B) : Prop := forall w w' r, f w = (w', r) -> fine r -> evolves w w'.

Lemma moved_refl o : moved o o.
Proof. split; auto. destruct (py_robot o) as [m|]; auto. exists [], m. auto. Qed.
Lemma moved_trans a b c : moved a b -> moved b c -> moved a c.
Proof.
  intros [E1 H1] [E2 H2]. split; [congruence|]. destruct (py_robot a) as [m|].
  - destruct H1 as (ops & m' & R & E). rewrite E in H2. destruct H2 as (ops' & m'' & R' & E'). exists (ops ++ ops'), m''. split; auto. now rewrite run_app, R.
  - now rewrite H1 in H2.
Qed.
Lemma moved_genuine a b : moved a b -> genuine a -> genuine b.
Proof.
  intros [E H] (m0 & ops & m & C & R & X). rewrite X in H. destruct H as (ops' & m' & R' & E'). exists m0, (ops ++ ops'), m'. rewrite E. split; auto. split; auto.
  now rewrite run_app, R.
Qed.
Lemma evolves_refl w : evolves w w.
Proof. split; [lia|]. split; [intros i o E; exists o; split; auto using moved_refl | intros i o E N; congruence]. Qed.
Lemma evolves_objs w w' : objs w' = objs w -> evolves w w'.
Proof. intros E. unfold evolves. rewrite E. apply (evolves_refl w). Qed.
Lemma evolves_trans a b c : evolves a b -> evolves b c -> evolves a c.
Proof.
  intros (L1 & H1 & G1) (L2 & H2 & G2). split; [lia|]. split.
  - intros i o E. destruct (H1 i o E) as (o1 & E1 & M1). destruct (H2 i o1 E1) as (o2 & E2 & M2). exists o2. split; auto. eapply moved_trans; eauto.
  - intros i o E N. destruct (nth_error (objs b) i) as [o1|] eqn:Eb; [|exact (G2 i o E Eb)].
    destruct (H2 i o1 Eb) as (o2 & E2 & M2). assert (o2 = o) by congruence. subst o2. exact (moved_genuine _ _ M2 (G1 i o1 Eb N)).
Qed.

Lemma sound_ret {B} (b : B) : sound (ret b).
Proof. intros w w' r E _. inversion E; subst. apply evolves_refl. Qed.
Lemma sound_lift {B} (x : res B) : sound (lift x).
Proof. intros w w' r E _. inversion E; subst. apply evolves_refl. Qed.
Lemma sound_throw {B} e : sound (throw e : M World B).
Proof. intros w w' r E _. inversion E; subst. apply evolves_refl. Qed.
Lemma sound_assert b : sound (assert_ b).
Proof. destruct b; [apply sound_ret | apply sound_throw]. Qed.
Lemma sound_bind {B C} (x : M World B) (f : B -> M World C) : sound x -> (forall b, sound (f b)) -> sound (bind x f).
Proof.
  intros Hx Hf w w' r E F. unfold bind in E. destruct (x w) as [w1 [b|e|u|]] eqn:Ex.
  - eapply evolves_trans; [exact (Hx _ _ _ Ex I) | exact (Hf b _ _ _ E F)].
  - inversion E; subst. exact (Hx _ _ _ Ex I).
  - inversion E; subst. destruct F.
  - inversion E; subst. destruct F.
Qed.
Lemma sound_for_each {B C} (l : list B) (acc : C) body : (forall b c, sound (body b c)) -> sound (for_each l acc body).
Proof.
  intros H. revert acc. induction l as [|b l IH]; intros acc.
  - intros w w' r E _. rewrite for_each_nil in E. inversion E; subst. apply evolves_refl.
  - intros w w' r E F. rewrite for_each_cons in E. exact (sound_bind _ _ (H b acc) (fun c => IH c) w w' r E F).
Qed.

(** a method of the C++ object that the histories of Spec_Hist know *)
Definition known {B} (f : M KM B) : Prop := forall m m' r, f m = (m', r) -> fine r -> exists ops, run ops m = Some m'.
Lemma sound_robot {B} i (f : M KM B) : known f -> sound (with_robot i f).
Proof.
  intros K w w' r E F. unfold with_robot in E. destruct (nth_error (objs w) i) as [o|] eqn:Eo; [|inversion E; subst; destruct F].
  destruct (py_robot o) as [m|] eqn:Er.
  - destruct (f m) as [m' x] eqn:Ef. inversion E; subst. destruct (K m m' r Ef F) as (ops & R).
    unfold w_put_obj. split; [cbn; rewrite list_set_length; lia|]. cbn [objs]. split.
    + intros k o' Ek. rewrite nth_error_list_set. destruct (Nat.eq_dec k i) as [->|N].
      * rewrite Nat.eqb_refl, (proj2 (Nat.ltb_lt _ _) (nth_error_lt _ _ _ Eo)). cbn [andb]. eexists. split; [reflexivity|]. assert (o' = o) by congruence. subst o'.
        split; auto. rewrite Er. exists ops, m'. auto.
      * destruct (Nat.eqb i k) eqn:Ei; [apply Nat.eqb_eq in Ei; congruence|]. cbn [andb]. exists o'. split; auto using moved_refl.
    + intros k o' Ek Nk. apply nth_error_None in Nk. apply nth_error_lt in Ek. rewrite list_set_length in Ek. lia.
  - inversion E; subst. apply evolves_refl.
Qed.
Lemma known_exec {B} (f : M KM B) o : (forall m, exec o m = drop f m) -> known f.
Proof.
  intros H m m' r E F. exists [o]. cbn [run]. rewrite H. unfold drop, bind. rewrite E. destruct r; try destruct F; reflexivity.
Qed.
Lemma known_unit (f : M KM unit) o : (forall m, exec o m = f m) -> known f.
Proof. intros H m m' r E F. exists [o]. cbn [run]. rewrite H, E. destruct r; try destruct F; reflexivity. Qed.
Lemma known_pure {B} (f : M KM B) : (forall m, fst (f m) = m) -> known f.
Proof. intros H m m' r E _. exists []. specialize (H m). rewrite E in H. cbn in H. now subst. Qed.

Lemma sound_append_set i a : sound (append_set i a).
Proof. intros w w' r E F. unfold append_set in E. destruct (nth_error (objs w) i); inversion E; subst; [now apply evolves_objs|destruct F]. Qed.
Lemma sound_append_add i a : sound (append_add i a).
Proof. intros w w' r E F. unfold append_add in E. destruct (nth_error (objs w) i); inversion E; subst; [now apply evolves_objs|destruct F]. Qed.
Lemma sound_set_angles i jids q : sound (with_robot i (set_joint_angles jids q)).
Proof. apply sound_robot, (known_unit _ (Op_set_joint_angles jids q)). reflexivity. Qed.
Lemma sound_set_base i v : sound (with_robot i (w_set_base_pose v)).
Proof. apply sound_robot, (known_unit _ (Op_set_base_xyzrpy v)). reflexivity. Qed.
Lemma sound_get_base i : sound (with_robot i w_get_base_pose).
Proof. apply sound_robot, known_pure. reflexivity. Qed.

Lemma sound_set_q i jids q bt : sound (py_set_q i jids q bt).
Proof.
  apply sound_bind; [apply sound_append_set|]. intros _.
  destruct bt; (apply sound_bind; [apply sound_assert|intros _]); auto using sound_set_angles; apply sound_bind; auto using sound_set_angles; intros _; apply sound_set_base.
Qed.
Lemma sound_get_q i jids bt : sound (py_get_q i jids bt).
Proof.
  apply sound_bind; [|intros b; apply sound_bind; [apply sound_robot, known_pure; reflexivity | intros a; apply sound_ret]].
  destruct bt; [apply sound_ret | apply sound_bind; [apply sound_get_base | intros; apply sound_ret] | apply sound_get_base].
Qed.
Lemma sound_add i n p pos rpy : sound (py_add_new_link i n p pos rpy).
Proof.
  apply sound_bind; [apply sound_append_add|]. intros _. apply sound_robot, (known_unit _ (Op_add_new_link n p pos (match rpy with None => v_clear | Some r => r end))). reflexivity.
Qed.
Lemma sound_check bt nj nd rows : sound (check_dof bt nj nd rows).
Proof.
  destruct bt; apply sound_bind; auto using sound_assert; intros _; auto using sound_ret. destruct (modify_3dof nj nd rows); auto using sound_ret, sound_throw.
Qed.
Lemma sound_fk i qs el jids rt bt wj uc : sound (py_solve_fk i qs el jids rt bt wj uc).
Proof.
  unfold py_solve_fk. destruct (norm_qs_fk qs) as [[nd rows]|]; [|apply sound_throw]. apply sound_bind; [apply sound_check|]. intros rows'.
  apply sound_bind; [apply sound_robot, (known_exec _ (Op_solve_fk rows' el jids rt (with_base_of bt) wj uc)); reflexivity|]. intros; apply sound_ret.
Qed.
Lemma sound_com i qs jids ac fo bt wj : sound (py_solve_com_fk i qs jids ac fo bt wj).
Proof.
  unfold py_solve_com_fk. destruct (norm_qs_com qs) as [[nd rows]|]; [|apply sound_throw]. apply sound_bind; [apply sound_check|]. intros rows'.
  apply sound_bind; [destruct ac, fo; auto using sound_ret, sound_throw|]. intros [a f].
  apply sound_robot, (known_exec _ (Op_solve_com_fk rows' jids a f (with_base_of bt) wj)). reflexivity.
Qed.
Lemma sound_sqdists i qs ps jids bt wj uc : sound (py_compute_inter_link_sqdists i qs ps jids bt wj uc).
Proof.
  apply sound_bind; [apply sound_lift|]. intros rows. destruct ps as [|p ps]; [apply sound_throw|].
  apply sound_bind; [apply sound_robot, (known_exec _ (Op_sqdists rows (map fst (p :: ps)) (map snd (p :: ps)) jids (with_base_of bt) wj uc)); reflexivity|].
  intros; apply sound_ret.
Qed.

Lemma evolves_new w x r a s : ctor tinyxml x = Ok r -> evolves w (mkW a s (objs w ++ [mkPy x (Some r) (length (heap_add w)) (length (heap_set w))])).
Proof.
  intros C. split; [cbn; rewrite app_length; lia|]. cbn [objs]. split.
  - intros i o E. exists o. split; auto using moved_refl. rewrite nth_error_app1; auto. eapply nth_error_lt; eauto.
  - intros i o E N. apply nth_error_None in N. rewrite nth_error_app2 in E by auto. destruct (i - length (objs w)) as [|k]; [|destruct k; discriminate]. inversion E; subst.
    exists r, [], r. auto.
Qed.
Lemma evolves_new' w x r a s ra rs : ctor tinyxml x = Ok r -> evolves w (mkW a s (objs w ++ [mkPy x (Some r) ra rs])).
Proof.
  intros C. split; [cbn; rewrite app_length; lia|]. cbn [objs]. split.
  - intros i o E. exists o. split; auto using moved_refl. rewrite nth_error_app1; auto. eapply nth_error_lt; eauto.
  - intros i o E N. apply nth_error_None in N. rewrite nth_error_app2 in E by auto. destruct (i - length (objs w)) as [|k]; [|destruct k; discriminate]. inversion E; subst.
    exists r, [], r. auto.
Qed.
Lemma sound_init x : sound (py_init tinyxml x).
Proof.
  intros w w' r E F. unfold py_init in E. destruct (String.eqb x ""); [inversion E; subst; apply evolves_refl|].
  destruct (ctor tinyxml x) eqn:C; inversion E; subst; try destruct F; try apply evolves_refl. now apply evolves_new'.
Qed.
Lemma evolves_hist w ha hs i o ra rs : nth_error (objs w) i = Some o -> evolves w (mkW ha hs (list_set (objs w) i (mkPy (py_xml o) (py_robot o) ra rs))).
Proof.
  intros Eo. split; [cbn; rewrite list_set_length; lia|]. cbn [objs]. split.
  - intros k o' Ek. rewrite nth_error_list_set. destruct (Nat.eq_dec k i) as [->|N].
    + rewrite Nat.eqb_refl, (proj2 (Nat.ltb_lt _ _) (nth_error_lt _ _ _ Eo)). cbn [andb]. eexists. split; [reflexivity|]. assert (o' = o) by congruence. subst o'. exact (moved_refl o).
    + destruct (Nat.eqb i k) eqn:Ei; [apply Nat.eqb_eq in Ei; congruence|]. cbn [andb]. exists o'. split; auto using moved_refl.
  - intros k o' Ek Nk. apply nth_error_None in Nk. apply nth_error_lt in Ek. rewrite list_set_length in Ek. lia.
Qed.
Lemma sound_get : sound get.
Proof. intros w w' r E _. inversion E; subst. apply evolves_refl. Qed.
Lemma sound_replay i ra rs : sound (py_replay i ra rs).
Proof.
  apply sound_bind; [apply sound_get|]. intros w0. apply sound_bind; [apply sound_for_each; intros; apply sound_add|]. intros _.
  apply sound_bind; [apply sound_get|]. intros w2. apply sound_for_each; intros; apply sound_set_q.
Qed.
Lemma nth_error_firstn_lt {B} n : forall (l : list B) k, k < n -> nth_error (firstn n l) k = nth_error l k.
Proof. induction n as [|n IH]; intros l k L; [lia|]. destruct l as [|x l]; [now destruct k|]. destruct k as [|k]; auto. cbn [firstn nth_error]. apply IH. lia. Qed.
Lemma evolves_dropped w ha hs x w3 : evolves (mkW ha hs (objs w ++ [x])) w3 -> forall ha' hs', evolves w (mkW ha' hs' (firstn (length (objs w)) (objs w3))).
Proof.
  intros (L & H & G) ha' hs'. cbn [objs] in *. rewrite app_length in L. cbn [length] in L. split; [cbn [objs]; rewrite firstn_length; lia|]. cbn [objs]. split.
  - intros k o Ek. pose proof (nth_error_lt _ _ _ Ek) as Lk. rewrite nth_error_firstn_lt by auto. apply H. now rewrite nth_error_app1.
  - intros k o Ek N. apply nth_error_None in N. apply nth_error_lt in Ek. rewrite firstn_length in Ek. lia.
Qed.
Lemma sound_setstate x ra rs : sound (py_setstate tinyxml x ra rs).
Proof.
  intros w w' r E F. unfold py_setstate in E. destruct (ctor tinyxml x) as [r0|e|u|] eqn:C; try (inversion E; subst; try destruct F; apply evolves_refl).
  pose proof (evolves_new' w x r0 (heap_add w) (heap_set w) ra rs C) as H0.
  revert E H0. set (w1 := mkW _ _ _). intros E H0.
  destruct (py_replay (length (objs w)) ra rs w1) as [w3 [u|e|u|]] eqn:Er.
  - pose proof (sound_replay _ _ _ _ _ _ Er I) as H3. pose proof (evolves_trans _ _ _ H0 H3) as H. destruct (nth_error (objs w3) (length (objs w))) as [o|] eqn:Eo; inversion E; subst; auto.
    eapply evolves_trans; [exact H | now apply evolves_hist].
  - inversion E; subst. pose proof (sound_replay _ _ _ _ _ _ Er I) as H3. exact (evolves_dropped _ _ _ _ _ H3 _ _).
  - inversion E; subst. destruct F.
  - inversion E; subst. destruct F.
Qed.
Lemma sound_pdrop {B} (f : M World B) : sound f -> sound (pdrop f).
Proof. intros H. apply sound_bind; auto. intros; apply sound_ret. Qed.
Lemma sound_exec c : sound (py_exec tinyxml c).
Proof.
  destruct c; cbn [py_exec]; try apply sound_pdrop.
  - apply sound_init.
  - apply sound_set_q.
  - apply sound_get_q.
  - apply sound_add.
  - apply sound_fk.
  - apply sound_com.
  - apply sound_robot, (known_exec _ (Op_compute_inertia q jids)). reflexivity.
  - apply sound_bind; [apply sound_robot, known_pure; reflexivity|]. intros; apply sound_ret.
  - apply sound_sqdists.
  - apply sound_robot, (known_unit _ Op_clear_cache). reflexivity.
  - apply sound_robot, known_pure. reflexivity.
  - intros w w' r E F. unfold py_copy in E. destruct (nth_error (objs w) i) as [o|]; [|inversion E; subst; destruct F].
    unfold py_getstate in E. exact (sound_setstate _ _ _ w w' r E F).
  - intros w w' r E F. unfold py_dumps in E. destruct (nth_error (objs w) i); inversion E; subst; [apply evolves_refl|destruct F].
  - intros w w' r E F. unfold py_loads in E. exact (sound_setstate _ _ _ (mkW (heap_add w ++ [pk_add p]) (heap_set w ++ [pk_set p]) (objs w)) w' r E F).
Qed.

Lemma py_run_evolves cs : forall w w', py_run tinyxml cs w = Some w' -> evolves w w'.
Proof.
  induction cs as [|c cs IH]; intros w w' E; cbn [py_run] in E; [inversion E; subst; apply evolves_refl|].
  destruct (py_exec tinyxml c w) as [w1 [u|e|u|]] eqn:Ec; try discriminate; (eapply evolves_trans; [exact (sound_exec c _ _ _ Ec I) | exact (IH _ _ E)]).
Qed.

Lemma genuine_all cs w i o : py_run tinyxml cs no_objects = Some w -> nth_error (objs w) i = Some o -> genuine o.
Proof. intros E Eo. destruct (py_run_evolves cs _ _ E) as (_ & _ & G). apply (G i o Eo). now destruct i. Qed.
End PfPy.
