(** C40-C43: pickling and copying instances of the Python class. *)
From Coq Require Import String List Arith Lia Bool Reals Lra.
From Verif Require Import Base Num Pose DataStructure Urdf Kin Wrapper Py Spec_Robot Spec_Hist Spec_Load Spec_Jac Spec_Py
  Pf_Base Inv Rep Pf_Ops Pf_Name Pf_Reach Pf_Jac Pf_Pose Pf_Local Pf_Hist Pf_Py Pf_Pickle Pf_Shape Pf_PyCalls Pf_Pickle2 RealArith Pf_Real Ex_Robot Thm_Py.
Import ListNotations.
Local Open Scope nat_scope.
Local Open Scope m_scope.

(** C40.  An instance made in any program and then edited by successful set_q and
    add_new_link calls, in any order and mixed with reads and with calls on other instances:
    its pickled form can be loaded, in any process, and gives the same model; the loaded
    model reports the same configuration, poses and Jacobians. *)
Theorem C40_pickle_roundtrip :
  forall (A : Arith) tinyxml cs w0 text w1 i cs' w,
    py_run tinyxml cs no_objects = Some w0 -> py_init tinyxml text w0 = (w1, Ok i) -> run_recorded tinyxml i cs' w1 = Some w ->
    exists p m m', py_dumps i w = (w, Ok p) /\ robot_of w i = Some m /\ same_model m m' /\
      (forall v, exists v' k, py_loads tinyxml p v = (v', Ok k) /\ robot_of v' k = Some m' /\
         (forall j, j < length (objs v) -> robot_of v' j = robot_of v j) /\
         (forall jids bt, snd (py_get_q k jids bt v') = snd (py_get_q i jids bt w))) /\
      (forall R root sorted jsorted, loadable tinyxml text R root -> ordered R sorted jsorted ->
         (forall l n n' P P', get_link_pose l m = (n, Ok P) -> get_link_pose l m' = (n', Ok P') -> P' = P) /\
         (forall l jids rt wb n n' J J', (forall x, In x jids -> x < length jsorted) ->
            get_jacobian l jids rt wb m = (n, Ok J) -> get_jacobian l jids rt wb m' = (n', Ok J') -> J' = J)).
Proof.
  intros A tinyxml cs w0 text w1 i cs' w H0 H1 H2.
  pose proof (run_tidy tinyxml cs _ _ tidy_none H0) as T0.
  destruct (init_tracked tinyxml text w0 w1 i T0 H1) as (m0 & Ec & Tr). apply (recorded_tracked tinyxml i cs' text m0 w1 w) in Tr; [|exact H2].
  destruct (tracked_anywhere tinyxml i text m0 w Ec Tr) as (p & m & m' & Ep & Em & Sm & C1 & C2 & Ld).
  exists p, m, m'. split; [now apply pickled_dumps|]. split; [exact Em|]. split; [exact Sm|]. split.
  - intros v. destruct (Ld v) as (v' & El & Er). exists v', (length (objs v)). split; [exact El|]. split; [exact Er|]. split.
    + intros j Lj. destruct (nth_error (objs v) j) as [o|] eqn:Eo; [|apply nth_error_None in Eo; lia].
      unfold robot_of. rewrite Eo, (mo_old _ _ _ _ (loads_makes tinyxml p v v' _ El Logic.I) j o Eo). reflexivity.
    + intros jids bt. unfold robot_of in Er, Em.
      destruct (nth_error (objs v') (length (objs v))) as [o'|] eqn:Eo'; [|discriminate]. destruct (nth_error (objs w) i) as [o|] eqn:Eo; [|discriminate].
      apply get_q_same with o o' m m'; auto; apply Sm.
  - intros R root sorted jsorted L O. exact (same_answers tinyxml text R root sorted jsorted m0 m m' L O Ec C1 C2 Sm).
Qed.
Print Assumptions C40_pickle_roundtrip.

Definition ex_edits : list call :=
  [C_set_q 0 [1; 0] [n1; n2] BFIXED; C_add_new_link 0 "hand" 3 (V3 n0 n0 n1) None; C_new ex_text; C_get_q 0 [0] BFLOATING;
   C_set_q 0 [0] [n1; n0; n2; n0] BPLANER; C_solve_fk 1 (QsList [[n1; n1]]) [2] [0; 1] XYZW BFIXED true false;
   C_add_new_link 0 "finger" 6 v_clear (Some (V3 n1 n0 n0)); C_clear_cache 0; C_set_q 0 [1] [n0; n1; n2; n0; n0; n0; n1] BFLOATING; C_dumps 0].
Example C40_example : exists w, py_run ex_tinyxml [] no_objects = Some no_objects /\ py_init ex_tinyxml ex_text no_objects = (ex_world, Ok 0) /\
  run_recorded ex_tinyxml 0 ex_edits ex_world = Some w.
Proof.
  assert (B : is_some (run_recorded ex_tinyxml 0 ex_edits ex_world) = true) by (vm_compute; reflexivity).
  destruct (is_some_ex _ B) as (w & E). exists w. split; [reflexivity|]. split; [exact ex_init | exact E].
Qed.

(** C41.  Only for models without edits: loading gives a model that is pickled in the same
    way, and loading that gives the same model again. *)
Theorem C41_pickle_again_partial :
  forall (A : Arith) tinyxml p w w1 k1, pk_add p = [] -> pk_set p = [] -> py_loads tinyxml p w = (w1, Ok k1) ->
    py_dumps k1 w1 = (w1, Ok p) /\
    exists w2 k2, py_loads tinyxml p w1 = (w2, Ok k2) /\ robot_of w2 k2 = robot_of w1 k1.
Proof.
  intros A tinyxml p w w1 k1 Ea Es E. destruct (loads_inv tinyxml p w w1 k1 E) as (m0 & m1 & m2 & Ec & S1 & S2 & Er & Ep).
  destruct p as [x pa ps]. cbn [pk_add pk_set pk_xml] in *. subst. split; [now apply pickled_dumps|].
  destruct (loads_ok tinyxml (mkPickle x [] []) w1 m0 m1 m2 Ec S1 S2) as (w2 & E2 & R2). exists w2, (length (objs w1)). split; [exact E2|]. now rewrite R2, Er.
Qed.
Print Assumptions C41_pickle_again_partial.

Definition ex_a : AddArgs := mkAdd "hand" 3 (V3 n0 n0 n1) None.
Lemma ex_add : exists ma, kadd ex_a ex_m0 = (ma, Ok tt).
Proof.
  assert (B : (match snd (kadd ex_a ex_m0) with Ok _ => true | _ => false end) = true) by (vm_compute; reflexivity).
  revert B. destruct (kadd ex_a ex_m0) as [ma [[]|e|u|]]; cbn [snd]; intros B; try discriminate B. eauto.
Qed.
Lemma ex_add_WF ma : kadd ex_a ex_m0 = (ma, Ok tt) -> WF ma.
Proof.
  intros E. assert (X : run [Op_add_new_link "hand" 3 (V3 n0 n0 n1) v_clear] ex_m0 = Some ma).
  { cbn [run exec]. change (w_add_new_link "hand" 3 (V3 n0 n0 n1) v_clear ex_m0) with (kadd ex_a ex_m0). rewrite E. reflexivity. }
  destruct (reached_Rep _ _ _ _ _ _ _ _ (ex_reached _ ma X)) as [HR _]. apply (rep_wf _ _ _ _ _ _ _ _ HR).
Qed.
(** the example instance after add_new_link("hand") *)
Lemma ex_with_hand : exists ma w, kadd ex_a ex_m0 = (ma, Ok tt) /\ py_add_new_link 0 "hand" 3 (V3 n0 n0 n1) None ex_world = (w, Ok tt) /\
  w = mkW [[ex_a]] [[]] [mkPy ex_text (Some ma) 0 0].
Proof.
  destruct ex_add as (ma & E). exists ma. eexists. split; [exact E|]. split; [|reflexivity].
  pose proof (add_eq 0 ex_a ex_world ex_obj ex_m0 eq_refl eq_refl) as X. rewrite E in X. cbn [fst snd] in X. exact X.
Qed.

(** C41 fails for edited models: the second round trip loses the links added before the
    first. *)
Theorem C41_pickle_twice_refuted :
  exists tinyxml text name parent pos w0 w p w1 k1 p1 w2 k2 m1 m2,
    py_init (A := RA) tinyxml text no_objects = (w0, Ok 0) /\ py_add_new_link 0 name parent pos None w0 = (w, Ok tt) /\
    py_dumps 0 w = (w, Ok p) /\ py_loads tinyxml p w = (w1, Ok k1) /\ py_dumps k1 w1 = (w1, Ok p1) /\ py_loads tinyxml p1 w1 = (w2, Ok k2) /\
    robot_of w2 k1 = Some m1 /\ robot_of w2 k2 = Some m2 /\ In name (get_link_names m1) /\ ~ In name (get_link_names m2).
Proof.
  destruct ex_with_hand as (ma & w & Ea & Ew & Hw). set (p := mkPickle ex_text [ex_a] []).
  destruct (loads_ok ex_tinyxml p w ex_m0 ma ma ex_ctor (st_cons _ [] _ _ _ Ea (st_nil _)) (st_nil _)) as (w1 & E1 & R1).
  destruct (loads_inv ex_tinyxml p w w1 _ E1) as (_ & _ & _ & _ & _ & _ & _ & P1).
  destruct (loads_ok ex_tinyxml (mkPickle ex_text [] []) w1 ex_m0 ex_m0 ex_m0 ex_ctor (st_nil _) (st_nil _)) as (w2 & E2 & R2).
  exists ex_tinyxml, ex_text, "hand"%string, 3, (V3 n0 n0 n1), ex_world, w, p, w1, (length (objs w)), (mkPickle ex_text [] []), w2, (length (objs w1)), ma, ex_m0.
  split; [exact ex_init|]. split; [exact Ew|]. split; [subst w; reflexivity|]. split; [exact E1|]. split; [now apply pickled_dumps|]. split; [exact E2|]. split.
  { unfold robot_of in R1 |- *. destruct (nth_error (objs w1) (length (objs w))) as [o|] eqn:Eo; [|discriminate R1].
    now rewrite (mo_old _ _ _ _ (loads_makes ex_tinyxml _ w1 w2 _ E2 Logic.I) _ o Eo). }
  split; [exact R2|]. split.
  - rewrite <- link_ids_names by exact (ex_add_WF ma Ea). rewrite (kadd_ids ex_a ex_m0 ma Ea). apply in_or_app. right. left. reflexivity.
  - rewrite ex_names. clear. intros H. repeat (destruct H as [H|H]; [discriminate H|]). exact H.
Qed.
Print Assumptions C41_pickle_twice_refuted.

Example C41_example : exists w1 k1, py_loads ex_tinyxml (mkPickle ex_text [] []) no_objects = (w1, Ok k1).
Proof.
  destruct (loads_ok ex_tinyxml (mkPickle ex_text [] []) no_objects ex_m0 ex_m0 ex_m0 ex_ctor (st_nil _) (st_nil _)) as (w2 & E2 & _).
  exists w2, (length (objs no_objects)). exact E2.
Qed.

(** C42 fails: solve_fk moves the joints of the instance but its pickled form does not say
    so. *)
Theorem C42_unrecorded_configuration_refuted :
  exists tinyxml text q elinks w0 w1 PJ p w2 k,
    py_init (A := RA) tinyxml text no_objects = (w0, Ok 0) /\ py_solve_fk 0 (QsList [q]) elinks [0; 1] IGNORE BFIXED true false w0 = (w1, Ok PJ) /\
    py_dumps 0 w1 = (w1, Ok p) /\ py_loads tinyxml p w1 = (w2, Ok k) /\
    snd (py_get_q 0 [0; 1] BFIXED w2) = Ok [1%R; 0%R] /\ snd (py_get_q k [0; 1] BFIXED w2) = Ok [0%R; 0%R].
Proof.
  set (ops := [Op_solve_fk [[n1; n0]] [3] [0; 1] IGNORE false true false]).
  assert (B : is_some (run ops ex_m0) = true) by (vm_compute; reflexivity). destruct (is_some_ex _ B) as (m1 & E1).
  destruct (observe_answer [] (solve_forward_kinematics [[n1; n0]] [3] [0; 1] IGNORE false true false) ex_m0 eq_refl ltac:(vm_compute; reflexivity)) as (m1' & PJ & Ef).
  assert (m1' = m1). { unfold ops in E1. cbn [run exec] in E1. unfold drop in E1. rewrite (bind_ok _ _ _ _ _ Ef) in E1. cbn [ret] in E1. congruence. } subst m1'. clear B.
  set (w1 := mkW [[]] [[]] [mkPy ex_text (Some m1) 0 0]).
  destruct (loads_ok ex_tinyxml (mkPickle ex_text [] []) w1 ex_m0 ex_m0 ex_m0 ex_ctor (st_nil _) (st_nil _)) as (w2 & E2 & R2).
  assert (An : forall m : @KM RA, joint_angles m = [1%R; 0%R] \/ joint_angles m = [0%R; 0%R] -> get_joint_angles [0; 1] m = (m, Ok (joint_angles m))).
  { intros m H. rewrite get_angles_spec by (destruct H as [-> | ->]; intros j [<-|[<-|[]]]; simpl; lia). destruct H as [-> | ->]; reflexivity. }
  assert (A1 : joint_angles m1 = [1%R; 0%R]).
  { destruct (reached_Rep _ _ _ _ _ _ _ _ (ex_reached ops m1 E1)) as [HR _]. rewrite (rep_angles _ _ _ _ _ _ _ _ HR), ex_after.
    unfold ops. cbn. rnum. reflexivity. }
  assert (A0 : joint_angles ex_m0 = [0%R; 0%R]).
  { destruct (reached_Rep _ _ _ _ _ _ _ _ (ex_reached [] ex_m0 eq_refl)) as [HR _]. rewrite (rep_angles _ _ _ _ _ _ _ _ HR), ex_after. cbn. rnum. reflexivity. }
  exists ex_tinyxml, ex_text, [n1; n0], [3], ex_world, w1, PJ, (mkPickle ex_text [] []), w2, (length (objs w1)).
  split; [exact ex_init|]. split.
  { unfold py_solve_fk. cbn [norm_qs_fk np_array forallb length Nat.eqb andb].
    rewrite (bind_ok _ _ ex_world ex_world [[n1; n0]] eq_refl). cbn [with_base_of].
    unfold bind. rewrite (with_robot_eq 0 _ ex_world ex_obj ex_m0 eq_refl eq_refl), Ef. destruct PJ. reflexivity. }
  split; [reflexivity|]. split; [exact E2|]. split.
  - assert (Eo : nth_error (objs w2) 0 = Some (mkPy ex_text (Some m1) 0 0)) by (apply (mo_old _ _ _ _ (loads_makes ex_tinyxml _ w1 w2 _ E2 Logic.I)); reflexivity).
    rewrite (get_q_with 0 [0; 1] w2 _ m1 BFIXED (joint_angles m1) Eo eq_refl (An m1 (or_introl A1))). cbn [snd]. now rewrite A1.
  - unfold robot_of in R2. destruct (nth_error (objs w2) (length (objs w1))) as [o|] eqn:Eo; [|discriminate R2].
    rewrite (get_q_with _ [0; 1] w2 o ex_m0 BFIXED (joint_angles ex_m0) Eo R2 (An ex_m0 (or_intror A0))). cbn [snd]. now rewrite A0.
Qed.
Print Assumptions C42_unrecorded_configuration_refuted.

(** C42, partial: whatever other calls were made on the instance (solvers that move it, also
    ones that raise), as long as it was not copied with copy.copy and its set_q and
    add_new_link calls succeeded, the pickled form loads and gives the same structure: the
    same links, joints, ids, ancestor table, masses.  If every joint and the base are then
    set by set_q, the configuration comes along as well.  Missing: configurations left by an
    unrecorded call. *)
Theorem C42_structure_survives_partial :
  forall (A : Arith) tinyxml cs w0 text w1 i cs' w,
    py_run tinyxml cs no_objects = Some w0 -> py_init tinyxml text w0 = (w1, Ok i) -> run_edited tinyxml i cs' w1 = Some w ->
    exists p m m', py_dumps i w = (w, Ok p) /\ robot_of w i = Some m /\ same_structure m m' /\
      (forall v, exists v' k, py_loads tinyxml p v = (v', Ok k) /\ robot_of v' k = Some m') /\
      (forall jids q w2, (forall k, k < length (joint_angles m) -> In k jids) -> py_set_q i jids q BFLOATING w = (w2, Ok tt) ->
         exists p2 m2 m2', py_dumps i w2 = (w2, Ok p2) /\ robot_of w2 i = Some m2 /\ same_structure m2 m2' /\
           joint_angles m2' = joint_angles m2 /\ base_pose m2' = base_pose m2 /\
           forall v, exists v' k, py_loads tinyxml p2 v = (v', Ok k) /\ robot_of v' k = Some m2' /\
             forall js bt, snd (py_get_q k js bt v') = snd (py_get_q i js bt w2)).
Proof.
  intros A tinyxml cs w0 text w1 i cs' w H0 H1 H2. pose proof (run_tidy tinyxml cs _ _ tidy_none H0) as T0.
  destruct (init_kept tinyxml text w0 w1 i T0 H1) as (m0 & Ec & K). apply (run_kept tinyxml i cs' text m0 w1 w) in K; [|exact H2].
  destruct (kept_anywhere tinyxml i text m0 w Ec K) as (p & m & m' & Ep & Em & Sm & _ & Ld).
  exists p, m, m'. split; [now apply pickled_dumps|]. split; [exact Em|]. split; [exact Sm|]. split.
  - intros v. destruct (Ld v) as (v' & E1 & E2). eauto.
  - intros jids q w2 Hk E. destruct (kept_complete tinyxml i text m0 w jids q w2 m Ec K Em Hk E) as (p2 & m2 & m2' & Ep2 & Em2 & Sm2 & Ea & Eb & Ld2).
    exists p2, m2, m2'. split; [now apply pickled_dumps|]. split; [exact Em2|]. split; [exact Sm2|]. split; [exact Ea|]. split; [exact Eb|].
    intros v. destruct (Ld2 v) as (v' & E1 & E2). exists v', (length (objs v)). split; [exact E1|]. split; [exact E2|].
    intros js bt. unfold robot_of in E2, Em2.
    destruct (nth_error (objs v') (length (objs v))) as [o'|] eqn:Eo'; [|discriminate]. destruct (nth_error (objs w2) i) as [o|] eqn:Eo; [|discriminate].
    apply get_q_same with o o' m2 m2'; auto.
Qed.
Print Assumptions C42_structure_survives_partial.

(** solvers before and after the edits, one of them raising, and a set_q of everything at the end *)
Definition ex_moves : list call :=
  [C_solve_fk 0 (QsList [[n1; n1]]) [2] [0; 1] XYZW BFIXED true false; C_set_q 0 [1; 0] [n1; n2] BFIXED; C_add_new_link 0 "hand" 3 (V3 n0 n0 n1) None;
   C_new ex_text; C_solve_fk 0 (QsList [[n1]]) [2] [0; 1] XYZW BFIXED true false; C_copy 1; C_solve_com_fk 0 (QsList [[n2; n1]]) [0; 1] None None BFIXED true;
   C_set_q 0 [0] [n1; n0; n2; n0] BPLANER; C_add_new_link 0 "finger" 6 v_clear (Some (V3 n1 n0 n0)); C_inertia 0 [n1; n1] [0; 1]].
Example C42_partial_example : exists w w2, py_run ex_tinyxml [] no_objects = Some no_objects /\ py_init ex_tinyxml ex_text no_objects = (ex_world, Ok 0) /\
  run_edited ex_tinyxml 0 ex_moves ex_world = Some w /\ py_set_q 0 [1; 0] [n1; n2; n1; n0; n0; n1; n0; n0] BFLOATING w = (w2, Ok tt).
Proof.
  assert (B : (match run_edited ex_tinyxml 0 ex_moves ex_world with Some w => match snd (py_set_q 0 [1; 0] [n1; n2; n1; n0; n0; n1; n0; n0] BFLOATING w) with Ok _ => true | _ => false end | None => false end) = true) by (vm_compute; reflexivity).
  revert B. generalize (run_edited ex_tinyxml 0 ex_moves ex_world). intros [w|] B; [|discriminate B]. exists w. revert B.
  generalize (py_set_q 0 [1; 0] [n1; n2; n1; n0; n0; n1; n0; n0] BFLOATING w). intros [w2 [[]|e|u|]] B; cbn [snd] in B; try discriminate B. exists w2.
  split; [reflexivity|]. split; [exact ex_init|]. split; reflexivity.
Qed.

(** C43.  copy.copy leaves every C++ object alone, every other instance's pickled form, and
    the pickled form of an original that was never edited.  Missing: originals that were. *)
Theorem C43_copy_partial :
  forall (A : Arith) tinyxml cs w i w' r,
    py_run tinyxml cs no_objects = Some w -> py_copy tinyxml i w = (w', r) -> (exists k, r = Ok k) \/ (exists e, r = Throw e) ->
    (forall j, j < length (objs w) -> robot_of w' j = robot_of w j /\ (j <> i -> pickled w' j = pickled w j)) /\
    (forall text k, r = Ok k -> pickled w i = Some (mkPickle text [] []) -> pickled w' i = pickled w i).
Proof.
  intros A tinyxml cs w i w' r Hc E Hr. pose proof (run_tidy tinyxml cs _ _ tidy_none Hc) as T.
  assert (Fr : fine r) by (destruct Hr as [(k & ->)|(e & ->)]; exact Logic.I).
  unfold py_copy in E. destruct (nth_error (objs w) i) as [o|] eqn:Eo; [|inversion E; subst; contradiction].
  assert (Ec : py_copy tinyxml i w = (w', r)) by (unfold py_copy; rewrite Eo; exact E).
  pose proof (copy_makes tinyxml i w w' r o Eo Ec Fr) as MO. cbn [py_getstate] in E. destruct (ti_valid w T i o Eo) as [V1 V2]. split.
  - intros j Lj. destruct (nth_error (objs w) j) as [oj|] eqn:Ej; [|apply nth_error_None in Ej; lia].
    unfold robot_of, pickled. rewrite Ej, (mo_old _ _ _ _ MO j oj Ej). split; [reflexivity|]. intros Nj.
    destruct (ti_own w T j i oj o Ej Eo Nj) as (N1 & N2). destruct (ti_valid w T j oj Ej) as [U1 U2]. f_equal. f_equal; apply nth_same.
    + exact (mo_add _ _ _ _ MO _ U1 N1).
    + exact (mo_set _ _ _ _ MO _ U2 N2).
  - intros text k -> Ep. unfold pickled in Ep. rewrite Eo in Ep.
    destruct (nth_error (heap_add w) (py_add o)) as [ha|] eqn:Eha; [|apply nth_error_None in Eha; lia].
    destruct (nth_error (heap_set w) (py_set o)) as [hs|] eqn:Ehs; [|apply nth_error_None in Ehs; lia].
    rewrite (nth_error_nth _ _ _ Eha), (nth_error_nth _ _ _ Ehs) in Ep. inversion Ep; subst ha hs.
    destruct (setstate_ok tinyxml (py_xml o) (py_add o) (py_set o) w w' k [] [] Eha Ehs E) as (_ & _ & _ & _ & _ & _ & _ & _ & _ & X1 & X2).
    unfold pickled. rewrite (mo_old _ _ _ _ MO i o Eo), Eo, (nth_error_nth _ _ _ X1), (nth_error_nth _ _ _ X2), (nth_error_nth _ _ _ Eha), (nth_error_nth _ _ _ Ehs). reflexivity.
Qed.
Print Assumptions C43_copy_partial.

(** C43 fails for an edited original: copying it doubles its recorded calls, so that it can
    be neither copied nor unpickled after that. *)
Theorem C43_copy_refuted :
  exists tinyxml text name parent pos w0 w1 w2 k p1 p2,
    py_init (A := RA) tinyxml text no_objects = (w0, Ok 0) /\ py_add_new_link 0 name parent pos None w0 = (w1, Ok tt) /\
    py_dumps 0 w1 = (w1, Ok p1) /\ (forall w, exists w' j, py_loads tinyxml p1 w = (w', Ok j)) /\
    py_copy tinyxml 0 w1 = (w2, Ok k) /\
    py_dumps 0 w2 = (w2, Ok p2) /\ (forall w, exists w', py_loads tinyxml p2 w = (w', Throw InvalidArgument)) /\
    (exists w', py_copy tinyxml 0 w2 = (w', Throw InvalidArgument)).
Proof.
  destruct ex_with_hand as (ma & w1 & Ea & Ew & Hw).
  assert (S1 : steps (map kadd [ex_a]) ex_m0 ma) by (exact (st_cons _ [] _ _ _ Ea (st_nil _))).
  set (oa := mkPy ex_text (Some ma) 0 0) in *.
  pose proof (copy_eq ex_tinyxml 0 w1 oa ltac:(subst w1; reflexivity)) as Ec.
  destruct (setstate_works ex_tinyxml ex_text 0 0 w1 [ex_a] [] ex_m0 ma ma ex_ctor ltac:(subst w1; reflexivity) ltac:(subst w1; reflexivity) S1 (st_nil _)) as (w2 & E2 & _).
  set (k := length (objs w1)) in E2. change (py_setstate ex_tinyxml ex_text 0 0 w1) with (py_setstate ex_tinyxml (py_xml oa) (py_add oa) (py_set oa) w1) in E2. rewrite E2 in Ec.
  destruct (setstate_ok ex_tinyxml (py_xml oa) (py_add oa) (py_set oa) w1 w2 k [ex_a] [] ltac:(subst w1; reflexivity) ltac:(subst w1; reflexivity) E2) as (_ & _ & _ & _ & _ & _ & _ & _ & _ & X1 & X2).
  assert (Eo : nth_error (objs w2) 0 = Some oa) by (apply (mo_old _ _ _ _ (copy_makes ex_tinyxml 0 w1 w2 (Ok k) oa ltac:(subst w1; reflexivity) Ec Logic.I)); subst w1; reflexivity).
  assert (Bad : forall ra rs w, nth_error (heap_add w) ra = Some [ex_a; ex_a] -> exists w', py_setstate ex_tinyxml ex_text ra rs w = (w', Throw InvalidArgument)).
  { intros ra rs w H. apply (setstate_fails ex_tinyxml ex_text ra rs w [ex_a] ex_a [] ex_m0 ma InvalidArgument ex_ctor H S1). rewrite (kadd_again ex_a ex_m0 ma Ea). reflexivity. }
  exists ex_tinyxml, ex_text, "hand"%string, 3, (V3 n0 n0 n1), ex_world, w1, w2, k, (mkPickle ex_text [ex_a] []), (mkPickle ex_text [ex_a; ex_a] []).
  split; [exact ex_init|]. split; [exact Ew|]. split; [subst w1; reflexivity|]. split.
  { intros w. destruct (loads_ok ex_tinyxml (mkPickle ex_text [ex_a] []) w ex_m0 ma ma ex_ctor S1 (st_nil _)) as (w' & E & _). exists w', (length (objs w)). exact E. }
  split; [exact Ec|]. split.
  { apply pickled_dumps. unfold pickled. rewrite Eo. now rewrite (nth_error_nth _ _ _ X1), (nth_error_nth _ _ _ X2). }
  split.
  { intros w. rewrite loads_eq. cbn [pk_xml pk_add pk_set]. apply Bad. cbn [heap_add]. rewrite nth_error_app2, Nat.sub_diag by lia. reflexivity. }
  rewrite (copy_eq ex_tinyxml 0 w2 oa Eo). apply Bad. exact X1.
Qed.
Print Assumptions C43_copy_refuted.

Example C43_example : exists w w' k, py_run ex_tinyxml ex_prog no_objects = Some w /\ py_copy ex_tinyxml 0 w = (w', Ok k).
Proof.
  assert (B : (match py_run ex_tinyxml ex_prog no_objects with Some w => match snd (py_copy ex_tinyxml 0 w) with Ok _ => true | _ => false end | None => false end) = true)
    by (vm_compute; reflexivity).
  destruct C64_example as (w & E). exists w. rewrite E in B. revert B. destruct (py_copy ex_tinyxml 0 w) as [w' [k|e|u|]]; cbn [snd]; intros B; try discriminate B. eauto.
Qed.
