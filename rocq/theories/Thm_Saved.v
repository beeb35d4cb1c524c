(** C99: models loaded from saved robots. *)
From Coq Require Import QArith Reals Lra String List Arith Lia Bool Permutation Sorted.
From Verif Require Import Base Num Pose DataStructure Urdf Kin Wrapper Decimal RealArith TinyXml Spec_Xml Spec_Robot Spec_Hist Spec_Load Spec_Jac Spec_Mass Spec_Body Spec_Saved
  Appear Export Show Spec_Export Print Spec_Print
  Pf_Data Inv Rep Pf_Ctor Pf_Pose Pf_Reach Pf_Mass Pf_Real Pf_Rpy Pf_Body Pf_Xml4 Pf_Xml6 Pf_Print Pf_PrintX Pf_Urdf Pf_Saved Ex_Xml Ex_Robot Thm_Ids Thm_Mass Thm_Appear Thm_Export Thm_Print.
From Flocq Require Import Core.
Import ListNotations.
Local Open Scope string_scope.

(** C99.  A robot is read from a text, exported and saved; models are loaded from both texts.
    The second model loads, it is a model of the same links and joints with their numbers as
    printed, and it has the same link and joint ids and the printed position limits.
    Missing: the origins of joints, which are not written (C92), and attribute values that
    contain "&#x" (C95). *)
Theorem C99_saved_models_partial :
  forall (A : Arith) show text top R root X m,
    document_text text top -> loadable (fun _ => Some top) text R root -> ctor_text text = Ok m -> read_text text = Some X ->
    (forall v, In v (flat_map values top) -> no_reference v) -> (forall x, plain_word (show x)) ->
    (forall x, In x (kinematic_numbers X) -> printable show x) ->
    let saved := SaveFile (exportURDF show X) in
    exists m' R', ctor_text saved = Ok m' /\
      loadable (fun _ => Some (exportURDF show X)) saved R' root /\
      Permutation (r_links R') (map (saved_link show) (r_links R)) /\ Permutation (r_joints R') (map (saved_joint show) (r_joints R)) /\
      get_link_names m' = get_link_names m /\ get_joint_names m' = get_joint_names m /\
      forall jids b, get_joint_position_limits jids m = (m, Ok b) ->
        get_joint_position_limits jids m' = (m', Ok (map (saved_bounds show) b)).
Proof.
  intros A show text top R root X m D L Em E V SH PR saved.
  rewrite (ctor_text_ctor text _ (parse_document _ _ D)) in Em.
  unfold read_text in E. rewrite (parse_document _ _ D) in E.
  destruct (written_read show SH top X) as [W1 _]; [|exact E|].
  { intros v I. split; [exact (document_values _ _ D v I)|exact (V v I)]. }
  destruct (C92_export_partial A show top X E PR) as (X' & EX & ER & _).
  assert (NE : saved <> ""). { intros Z. unfold saved in Z. rewrite Z in W1. discriminate W1. }
  destruct (saved_loads show top text saved R root X X' m NE L E EX ER Em) as (m' & R' & so & js & Em' & L' & PL & PJ & O & O' & _).
  exists m', R'. rewrite (ctor_text_ctor saved _ W1). split; [exact Em'|]. split; [exact L'|]. split; [exact PL|]. split; [exact PJ|].
  assert (H1 : reached (fun _ => Some top) text R root so js [] m) by (split; [exact L|split; [exact O|exists m; split; [exact Em|reflexivity]]]).
  assert (H2 : reached (fun _ => Some (exportURDF show X)) saved R' root (map (saved_link show) so) (map (saved_joint show) js) [] m')
    by (split; [exact L'|split; [exact O'|exists m'; split; [exact Em'|reflexivity]]]).
  destruct (reached_Rep _ _ _ _ _ _ _ _ H1) as [HR1 _]. destruct (reached_Rep _ _ _ _ _ _ _ _ H2) as [HR2 _].
  split; [|split].
  - rewrite (rep_all_links _ _ _ _ _ _ _ _ HR1), (rep_all_links _ _ _ _ _ _ _ _ HR2). unfold all_links, after, abs_run. cbn [fold_left initial as_added].
    rewrite massive_again, map_map. reflexivity.
  - assert (N : forall (R0 : Robot) r0 so0 js0 m0 ms0 s0 (a : num), Rep R0 r0 so0 js0 ms0 a s0 m0 -> get_joint_names m0 = map uj_name js0).
    { intros R0 r0 so0 js0 m0 ms0 s0 a H. symmetry. pose proof (rep_joints _ _ _ _ _ _ _ _ H) as F. unfold get_joint_names. clear - F.
      induction F as [|j J l l' S F IH]; [reflexivity|]. cbn [map]. rewrite IH, (sj_name _ _ S). reflexivity. }
    rewrite (N _ _ _ _ _ _ _ _ HR1), (N _ _ _ _ _ _ _ _ HR2), map_map. reflexivity.
  - intros jids b. exact (limits_again show m m' js jids b (rep_joints _ _ _ _ _ _ _ _ HR1) (rep_joints _ _ _ _ _ _ _ _ HR2)).
Qed.
Print Assumptions C99_saved_models_partial.

(** With the standard stream the saved model always loads and its total mass is the original's
    up to five millionths. *)
Theorem C99_saved_mass_partial :
  forall text top R root (X : @XModel RA) m,
    document_text text top -> loadable (fun _ => Some top) text R root -> ctor_text text = Ok m -> read_text text = Some X ->
    (forall v, In v (flat_map values top) -> no_reference v) ->
    (forall x, In x (kinematic_numbers X) -> size_ok x) ->
    (forall n i, In (n, Some i) (r_links R) -> (0 <= in_mass i)%R) ->
    exists m', ctor_text (SaveFile (exportURDF (A := RA) show6 X)) = Ok m' /\ get_link_names m' = get_link_names m /\ get_joint_names m' = get_joint_names m /\
      (Rabs (total_mass m' - total_mass m) <= 5 / 10 ^ 6 * total_mass m)%R.
Proof.
  intros text top R root X m D L Em E V N Pos.
  assert (PR : forall x, In x (kinematic_numbers X) -> printable (A := RA) show6 x) by (intros x I; apply C94_printed_numbers, N, I).
  assert (Em0 := Em). rewrite (ctor_text_ctor text _ (parse_document _ _ D)) in Em0.
  assert (E0 := E). unfold read_text in E0. rewrite (parse_document _ _ D) in E0.
  destruct (written_read (A := RA) show6 show6_word top X) as [W1 _]; [|exact E0|].
  { intros v I. split; [exact (document_values _ _ D v I)|exact (V v I)]. }
  destruct (C92_export_partial RA show6 top X E0 PR) as (X' & EX & ER & _).
  assert (NE : SaveFile (exportURDF (A := RA) show6 X) <> ""). { intros Z. rewrite Z in W1. discriminate W1. }
  destruct (saved_loads (A := RA) show6 top text _ R root X X' m NE L E0 EX ER Em0) as (m' & R' & so & js & Em' & L' & PL & PJ & O & O' & ML).
  destruct (C99_saved_models_partial RA show6 text top R root X m D L Em E V show6_word PR) as (m1 & R1 & C1 & _ & _ & _ & N1 & N2 & _).
  rewrite (ctor_text_ctor _ _ W1) in C1 |- *. rewrite Em' in C1. injection C1 as <-. exists m'. split; [exact Em'|]. split; [exact N1|]. split; [exact N2|].
  assert (H1 : reached (fun _ => Some top) text R root so js [] m) by (split; [exact L|split; [exact O|exists m; split; [exact Em0|reflexivity]]]).
  assert (H2 : reached (fun _ => Some (exportURDF (A := RA) show6 X)) (SaveFile (exportURDF (A := RA) show6 X)) R' root (map (saved_link (A := RA) show6) so) (map (saved_joint (A := RA) show6) js) [] m')
    by (split; [exact L'|split; [exact O'|exists m'; split; [exact Em'|reflexivity]]]).
  rewrite (C21_total_mass_is_sum_over_document _ _ _ _ _ _ _ _ H1), (C21_total_mass_is_sum_over_document _ _ _ _ _ _ _ _ H2).
  rewrite (rsum_perm _ _ _ PL).
  assert (S : forall n i, In (n, Some i) (r_links R) -> size_ok (in_mass i)).
  { intros n i I. apply N. unfold kinematic_numbers. apply in_or_app. left. change (fm_mi (xm_model X)) with (robot_of X). rewrite ML.
    apply in_flat_map. exists (n, snd (ulink_of (map snd (mi_joints (robot_of X))) (n, Some i))). split.
    - apply in_map_iff. exists (n, Some i). split; [reflexivity|]. eapply Permutation_in; [apply Permutation_sym, (ord_links _ _ _ O)|exact I].
    - cbn [snd]. rewrite ulink_inertial. cbn [of_option snd inertial_numbers]. apply in_or_app. right. left. reflexivity. }
  clear - S Pos. induction (r_links R) as [|[n [i|]] l IH]; unfold rsum in *; cbn [map fold_right saved_link fst snd option_map] in *.
  - rewrite Rminus_diag_eq, Rabs_R0 by reflexivity. lra.
  - specialize (IH (fun n' i' I => Pos n' i' (or_intror I)) (fun n' i' I => S n' i' (or_intror I))).
    destruct (C94_printed_numbers (in_mass i) (S n i (or_introl eq_refl))) as (_ & B & _). rewrite (Rabs_pos_eq (in_mass i)) in B by exact (Pos n i (or_introl eq_refl)).
    cbn [in_mass again_inertial]. cbn [again_inertial in_mass] in IH.
    match goal with |- (Rabs (?a + ?b - (?c + ?d)) <= _)%R => replace (a + b - (c + d))%R with ((a - c) + (b - d))%R by ring; eapply Rle_trans; [apply Rabs_triang|]; assert (Rabs (b - d) <= 5 / 10 ^ 6 * d)%R by exact IH end.
    lra.
  - specialize (IH (fun n' i' I => Pos n' i' (or_intror I)) (fun n' i' I => S n' i' (or_intror I))). rewrite !Rplus_0_l. exact IH.
Qed.
Print Assumptions C99_saved_mass_partial.

(** A concrete robot: the tower of C92, with real numbers. *)
Definition tower_kids : list xml := match tower_top with [XElem _ _ k] => k | _ => [] end.
Definition tower_R : @Robot RA := match robot_of_kids (A := RA) tower_kids with Some r => r | None => mkRobot [] [] end.
Definition tower_j : @UJoint RA := hd dummy_joint (r_joints tower_R).
Lemma tower_links : link_names tower_R = ["a"; "b"].
Proof. reflexivity. Qed.
Lemma tower_joints : r_joints tower_R = [tower_j].
Proof. reflexivity. Qed.
Lemma tower_ends : uj_parent tower_j = "a" /\ uj_child tower_j = "b".
Proof. split; reflexivity. Qed.
Lemma tower_type : uj_type tower_j = REVOLUTE.
Proof. reflexivity. Qed.
Lemma tower_describes : describes tower_top tower_R.
Proof. exists (el "robot" [("name", "tower")] tower_kids), "tower". repeat split; reflexivity. Qed.
Lemma tower_masses : map (fun l => option_map in_mass (snd l)) (r_links tower_R) = [Some (Q2R 1); None].
Proof. reflexivity. Qed.
Global Opaque tower_j.
Lemma tower_loadable : loadable (A := RA) (fun _ => Some tower_top) tower_text tower_R "a".
Proof.
  destruct tower_ends as [P C]. constructor.
  - intros E. apply (f_equal slen) in E. vm_compute in E. discriminate E.
  - exists tower_top. split; [reflexivity|exact tower_describes].
  - constructor.
    + rewrite tower_links. nodup.
    + rewrite tower_joints. repeat constructor; simpl; tauto.
    + intros j. rewrite tower_joints, tower_links. intros [<-|[]]. rewrite P, C. simpl; auto.
    + rewrite tower_links. simpl; auto.
    + intros j. rewrite tower_joints. intros [<-|[]]. rewrite C. discriminate.
    + rewrite tower_joints. repeat constructor; simpl; tauto.
    + intros n. rewrite tower_links. intros [<-|[<-|[]]]; [constructor|]. rewrite <- C. apply (conn_joint _ _ tower_j); [rewrite tower_joints; simpl; auto|]. rewrite P. exact (conn_root _ _).
  - intros j. rewrite tower_joints. intros [<-|[]]. rewrite P, C. split; discriminate.
  - intros j. rewrite tower_joints. intros [<-|[]]. rewrite tower_type. left. left. reflexivity.
  - intros n i I. rewrite tower_links. apply (in_map fst) in I.
    change (map fst (r_links tower_R)) with (link_names tower_R) in I. rewrite tower_links in I. simpl fst in I.
    destruct I as [<-|[<-|[]]]; simpl; intuition discriminate.
Qed.
Lemma rpy_identity : getRPY (A := RA) (@Q4 RA (Q2R 0) (Q2R 0) (Q2R 0) (Q2R 1)) = @V3 RA 0%R 0%R 0%R.
Proof.
  unfold getRPY. rnum. cbn [qx qy qz qw]. rewrite ?RMicromega.Q2R_0, ?RMicromega.Q2R_1, Q2R_99, Q2R_m99.
  unfold Rleb. destruct (Rle_dec _ _) as [L|_]; [exfalso; lra|]. destruct (Rle_dec _ _) as [L|_]; [exfalso; lra|].
  assert (Z : ratan2 0 1 = 0%R). { unfold ratan2. destruct (Rlt_dec 0 1); [|lra]. replace (0 / 1)%R with 0%R by lra. exact atan_0. }
  replace (2 * (0 * 0 + 1 * 0))%R with 0%R by lra. replace (1 * 1 - 0 * 0 - 0 * 0 + 0 * 0)%R with 1%R by lra. replace (1 * 1 + 0 * 0 - 0 * 0 - 0 * 0)%R with 1%R by lra.
  replace (-2 * (0 * 0 - 1 * 0))%R with 0%R by lra. rewrite Z, asin_0. reflexivity.
Qed.
Definition tower_numbers : list R :=
  (let z := [vx (getRPY (A := RA) (@Q4 RA (Q2R 0) (Q2R 0) (Q2R 0) (Q2R 1))); vy (getRPY (A := RA) (@Q4 RA (Q2R 0) (Q2R 0) (Q2R 0) (Q2R 1))); vz (getRPY (A := RA) (@Q4 RA (Q2R 0) (Q2R 0) (Q2R 0) (Q2R 1)))] in
   [Q2R 0; Q2R 0; Q2R 0] ++ z ++ [Q2R 1; Q2R 1; Q2R 0; Q2R 0; Q2R 1; Q2R 0; Q2R 1; Q2R 0; Q2R 0; Q2R 1; Q2R 0; Q2R 0; Q2R 1] ++ z ++
   [Q2R 0; Q2R 1; Q2R 1; Q2R 1; Q2R 1; Q2R 0])%list.
Lemma tower_read : option_map kinematic_numbers (parseURDF_all (A := RA) (Some tower_top)) = Some tower_numbers.
Proof. reflexivity. Qed.
Example C99_example :
  exists (X : @XModel RA) m,
    document_text tower_text tower_top /\ loadable (A := RA) (fun _ => Some tower_top) tower_text tower_R "a" /\
    ctor_text (A := RA) tower_text = Ok m /\ read_text tower_text = Some X /\
    (forall v, In v (flat_map values tower_top) -> no_reference v) /\
    (forall x, In x (kinematic_numbers X) -> size_ok x) /\
    (forall n i, In (n, Some i) (r_links tower_R) -> (0 <= in_mass i)%R).
Proof.
  destruct (parseURDF_all (A := RA) (Some tower_top)) as [X|] eqn:E.
  2:{ pose proof tower_read as T. rewrite E in T. discriminate T. }
  pose proof tower_loadable as L.
  destruct (load_Rep _ _ _ _ L) as (_ & _ & m & _ & Em & _).
  rewrite <- (ctor_text_ctor tower_text _ (parse_document _ _ tower_document)) in Em.
  exists X, m. split; [exact tower_document|]. split; [exact L|]. split; [exact Em|].
  split; [unfold read_text; rewrite (parse_document _ _ tower_document); exact E|]. split; [exact (proj1 (proj2 C96_example))|]. split.
  - pose proof tower_read as T. rewrite E in T. cbn [option_map] in T. injection T as T. intros x I. rewrite T in I. clear - I.
    unfold tower_numbers in I. rewrite rpy_identity, RMicromega.Q2R_0, RMicromega.Q2R_1 in I. cbn [vx vy vz app] in I.
    assert (B : x = 0%R \/ x = 1%R). { cbn [In] in I. repeat (destruct I as [I|I]; [subst x; auto|]). destruct I. }
    destruct B as [-> | ->]; [left; reflexivity|right]. rewrite Rabs_R1. clear.
    split; (change 1%R with (powerRZ 10 0); change 10%R with (IZR radix10); rewrite <- !bpow_powerRZ; apply bpow_le; lia).
  - intros n i I. apply (in_map (fun l => option_map in_mass (snd l))) in I. rewrite tower_masses in I. cbn [snd option_map] in I.
    destruct I as [I|[I|[]]]; [injection I as <-; rewrite RMicromega.Q2R_1; lra|discriminate I].
Qed.

(** C99 in full is false: all numbers of the tower are printed and read back without loss, and
    the saved model has the same links, but its upper link is inside the lower one. *)
Definition named (m : res (@KM rationals)) : list string := match m with Ok k => get_link_names k | _ => [] end.
Definition saved_check : bool :=
  match read_text (A := rationals) tower_text with
  | None => false
  | Some X =>
      let m := ctor_text (A := rationals) tower_text in
      let m' := ctor_text (A := rationals) (SaveFile (exportURDF (A := rationals) show_q X)) in
      forallb (fun x => andb (exactly x) (one_word (show_q x))) (kinematic_numbers X) &&
      (if list_eq_dec string_dec (named m) ["a"; "b"; "a_com"] then true else false) &&
      (if list_eq_dec string_dec (named m') ["a"; "b"; "a_com"] then true else false) &&
      match height m "b", height m' "b" with
      | Some h, Some h' => (h =? 1)%Z && (h' =? 0)%Z
      | _, _ => false
      end
  end%bool.
Theorem C99_saved_models_refuted :
  exists text top (X : @XModel rationals),
    document_text text top /\ (forall v, In v (flat_map values top) -> no_reference v) /\
    (forall x, plain_word (show_q x)) /\ read_text text = Some X /\
    (forall x, In x (kinematic_numbers X) -> printable (A := rationals) show_q x /\ Qeq (again (A := rationals) show_q x) x) /\
    let m := ctor_text (A := rationals) text in
    let m' := ctor_text (A := rationals) (SaveFile (exportURDF (A := rationals) show_q X)) in
    named m = ["a"; "b"; "a_com"] /\ named m' = ["a"; "b"; "a_com"] /\
    height m "b" = Some 1%Z /\ height m' "b" = Some 0%Z.
Proof.
  destruct C96_example as (D & V & SH & _). assert (T : saved_check = true) by (vm_compute; reflexivity). unfold saved_check in T.
  destruct (read_text (A := rationals) tower_text) as [X|] eqn:E; [|discriminate T]. exists tower_text, tower_top, X.
  split; [exact D|]. split; [exact V|]. split; [exact SH|]. split; [exact E|].
  apply andb_prop in T as [T T4]. apply andb_prop in T as [T T3]. apply andb_prop in T as [T1 T2]. split.
  - intros x I. rewrite forallb_forall in T1. specialize (T1 x I). apply andb_prop in T1 as [U1 U3]. unfold exactly in U1.
    unfold printable, again. cbn [str_to_double rationals]. destruct (strToDouble (show_q x)) as [y|]; [|discriminate U1]. apply Qeq_bool_iff in U1.
    split; [|exact U1]. destruct (show_q x) as [|c [|c' t]]; try discriminate U3. split; [discriminate|]. split; [|discriminate].
    split; [|exact Logic.I]. cbn [one_word] in U3. intros ->. discriminate U3.
  - cbv zeta. destruct (list_eq_dec _ _ _) as [N1|]; [|discriminate T2]. destruct (list_eq_dec _ _ _) as [N2|]; [|discriminate T3].
    destruct (height (ctor_text tower_text) "b") as [h|]; [|discriminate T4]. destruct (height _ "b") as [h'|]; [|discriminate T4].
    apply andb_prop in T4 as [U1 U2]. apply Z.eqb_eq in U1, U2. subst. repeat split; assumption.
Qed.
Print Assumptions C99_saved_models_refuted.
