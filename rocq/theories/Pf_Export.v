(** Writing a description and reading it again. *)
From Coq Require Import String Ascii List Arith Lia Permutation Sorted.
From Verif Require Import Base Num Pose DataStructure Urdf Kin Spec_Str Spec_Robot Spec_Hist Spec_Load Spec_Graph Spec_Urdf Pf_Base Pf_Urdf Pf_Load Pf_Str Pf_Read
  Appear Spec_Appear Pf_Appear Export Spec_Export.
Import ListNotations.

Section PfExport.
Context `{A : Arith}.

(** ** joints with and without their extra data *)

Lemma parseJoint_full_ok x : parseJoint_full x = None <-> parseJoint x = None.
Proof.
  unfold parseJoint_full. destruct (parseJoint x) as [j|] eqn:E; [|tauto].
  unfold parseJoint in E. destruct (attribute "name" x); [|discriminate]. destruct (parse_joint_origin x); [|discriminate].
  destruct (attribute "type" x); [|discriminate]. destruct (joint_type_of_string _); [|discriminate]. destruct (parse_axis _ x); [|discriminate].
  destruct (parse_limit _ x); [|discriminate].
  destruct (opt_child_ok "safety_controller" parseJointSafety x) eqn:E1; [|discriminate]. cbn [negb] in E.
  destruct (opt_child_ok "calibration" parseJointCalibration x) eqn:E2; [|discriminate]. cbn [negb] in E.
  destruct (parse_mimic x); [|discriminate]. destruct (opt_child_ok "dynamics" parseJointDynamics x) eqn:E3; [|discriminate].
  clear E. unfold opt_child_ok, read_child in *.
  assert (S : exists sv, match first_child "safety_controller" x with Some e => option_map Some (readJointSafety e) | None => Some None end = Some sv).
  { destruct (first_child "safety_controller" x) as [e|]; [|eauto]. unfold parseJointSafety in E1. unfold readJointSafety.
    destruct (num_attr "soft_lower_limit" _ e); [|discriminate]. destruct (num_attr "soft_upper_limit" _ e); [|discriminate].
    destruct (num_attr "k_position" _ e); [|discriminate]. destruct (req_num_attr "k_velocity" e); [|discriminate]. cbn. eauto. }
  destruct S as (sv & ->).
  assert (S : exists sv, match first_child "calibration" x with Some e => option_map Some (readJointCalibration e) | None => Some None end = Some sv).
  { destruct (first_child "calibration" x) as [e|]; [|eauto]. unfold parseJointCalibration, num_attr in E2. unfold readJointCalibration, opt_num_attr.
    destruct (attribute "rising" e) as [r|]; [destruct (str_to_double r); [|discriminate]|]; (destruct (attribute "falling" e) as [f|]; [destruct (str_to_double f); [|discriminate]|]); cbn; eauto. }
  destruct S as (cv & ->).
  assert (S : exists sv, match first_child "dynamics" x with Some e => option_map Some (readJointDynamics e) | None => Some None end = Some sv).
  { destruct (first_child "dynamics" x) as [e|]; [|eauto]. unfold parseJointDynamics in E3. unfold readJointDynamics.
    destruct (num_attr "damping" _ e); [|discriminate]. destruct (num_attr "friction" _ e); [|discriminate].
    destruct (attribute "damping" e), (attribute "friction" e); try discriminate; cbn; eauto. }
  destruct S as (dv & ->). split; discriminate.
Qed.

Lemma parseJoint_full_joint x j : parseJoint_full x = Some j -> parseJoint x = Some (fj_joint j).
Proof.
  unfold parseJoint_full. destruct (parseJoint x) as [u|]; [|discriminate]. destruct (read_child "safety_controller" _ x); [|discriminate].
  destruct (read_child "calibration" _ x); [|discriminate]. destruct (read_child "dynamics" _ x); [|discriminate]. intros E. inversion E. reflexivity.
Qed.

Definition kjoint (kj : string * FJoint) : string * UJoint := (fst kj, fj_joint (snd kj)).

Lemma insert_kjoint n j l : map kjoint (map_insert n j l) = map_insert n (fj_joint j) (map kjoint l).
Proof. induction l as [|[k b] l IH]; [reflexivity|]. cbn [map_insert map kjoint fst snd]. destruct (String.compare n k); cbn [map kjoint fst snd]; auto. now rewrite IH. Qed.
Lemma assoc_kjoint n l : assoc n (map kjoint l) = option_map fj_joint (assoc n l).
Proof. induction l as [|[k b] l IH]; [reflexivity|]. cbn [assoc map kjoint fst snd]. destruct (String.eqb n k); auto. Qed.

Lemma parse_joints_kjoint l : forall acc, parse_joints l (map kjoint acc) = option_map (map kjoint) (parse_joints_full l acc).
Proof.
  induction l as [|x l IH]; intros acc; [reflexivity|]. cbn [parse_joints parse_joints_full].
  destruct (parseJoint_full x) as [j|] eqn:E.
  - rewrite (parseJoint_full_joint _ _ E), assoc_kjoint. destruct (assoc _ acc); [reflexivity|]. cbn [option_map]. now rewrite <- insert_kjoint.
  - apply parseJoint_full_ok in E. now rewrite E.
Qed.

Lemma all_ok doc X : parseURDF_all doc = Some X -> parseURDF_full doc = Some (xm_model X).
Proof.
  unfold parseURDF_all. destruct doc as [top|]; [|discriminate]. destruct (parseURDF_full (Some top)) as [F|]; [|discriminate].
  destruct (hd_error _); [|discriminate]. destruct (parse_joints_full _ []); [|discriminate]. intros E. inversion E. reflexivity.
Qed.

(** everything is read exactly when the kinematic part is *)
Lemma all_loads doc : parseURDF_all doc = None <-> parseURDF_dom doc = None.
Proof.
  rewrite <- full_kinematics. unfold parseURDF_all. destruct doc as [top|]; [|split; reflexivity].
  destruct (parseURDF_full (Some top)) as [F|] eqn:E; [|split; reflexivity]. cbn [option_map].
  unfold parseURDF_full in E. destruct (hd_error _) as [r|]; [|discriminate]. destruct (attribute "name" r); [|discriminate].
  destruct (negb _); [discriminate|]. unfold parse_robot_kids_full in E. destruct (parse_materials _ []); [|discriminate].
  destruct (parse_links_full _ [] _) as [[fls ?]|]; [|discriminate]. destruct fls; [discriminate|].
  pose proof (parse_joints_kjoint (children "joint" (x_kids r)) []) as K. cbn [map] in K. rewrite K in E.
  destruct (parse_joints_full _ []); [|discriminate]. split; discriminate.
Qed.

(** ** what was read *)

Record Parts (top : list xml) (X : XModel) (r : xml) (ms0 : list (string * Material)) : Prop := {
  pt_robot : hd_error (children "robot" top) = Some r;
  pt_name : attribute "name" r = Some (mi_name (robot_of X));
  pt_mats : parse_materials (children "material" (x_kids r)) [] = Some ms0;
  pt_links : parse_links_full (children "link" (x_kids r)) [] ms0 = Some (fm_links (xm_model X), fm_materials (xm_model X));
  pt_some : fm_links (xm_model X) <> [];
  pt_joints : parse_joints_full (children "joint" (x_kids r)) [] = Some (xm_joints X);
  pt_mij : mi_joints (robot_of X) = map kjoint (xm_joints X);
  pt_tree : initTree (map kjoint (xm_joints X)) (map klink (fm_links (xm_model X))) = Some (mi_links (robot_of X));
  pt_root : initRoot (mi_links (robot_of X)) = Some (mi_root (robot_of X)) }.

Lemma parts top X : parseURDF_all (Some top) = Some X -> exists r ms0, Parts top X r ms0.
Proof.
  unfold parseURDF_all. destruct (parseURDF_full (Some top)) as [F|] eqn:E; [|discriminate].
  unfold parseURDF_full in E. destruct (hd_error (children "robot" top)) as [r|] eqn:E0; [|discriminate]. destruct (attribute "name" r) as [nm|] eqn:E1; [|discriminate].
  destruct (negb _); [discriminate|]. unfold parse_robot_kids_full in E. destruct (parse_materials _ []) as [ms|] eqn:E2; [|discriminate].
  destruct (parse_links_full _ [] _) as [[fls ms']|] eqn:E3; [|discriminate]. destruct fls as [|f fls]; [discriminate|].
  pose proof (parse_joints_kjoint (children "joint" (x_kids r)) []) as K. cbn [map] in K. rewrite K in E.
  destruct (parse_joints_full _ []) as [js|] eqn:E4; [|discriminate]. cbn [option_map] in E.
  change (map (fun kl : string * FLink => (fst kl, fl_link (snd kl))) (f :: fls)) with (map klink (f :: fls)) in E.
  destruct (initTree _ _) as [ls|] eqn:E5; [|discriminate]. destruct (initRoot ls) as [rt|] eqn:E6; [|discriminate]. inversion E. subst F. intros EX. inversion EX. subst X.
  exists r, ms. constructor; cbn [robot_of xm_model xm_joints fm_mi fm_links fm_materials mi_name mi_links mi_joints mi_root]; auto. discriminate.
Qed.

(** ** maps *)

Lemma map_insert_last {B} k (b : B) l : (forall x, In x (map fst l) -> name_lt x k) -> map_insert k b l = l ++ [(k, b)].
Proof.
  induction l as [|[k' b'] l IH]; intros H; [reflexivity|]. cbn [map_insert].
  pose proof (H k' (or_introl eq_refl)) as L. unfold name_lt in L. rewrite String.compare_antisym, L. cbn [CompOpp app].
  rewrite IH; [reflexivity|]. intros x I. apply H. now right.
Qed.
Lemma assoc_new {B} k (l : list (string * B)) : (forall x, In x (map fst l) -> name_lt x k) -> assoc k l = None.
Proof. intros H. apply assoc_none'. intros I. now apply (name_lt_irrefl k), H. Qed.

Lemma sorted_snoc l k l' : StronglySorted name_lt (l ++ k :: l') -> forall x, In x l -> name_lt x k.
Proof.
  induction l as [|y l IH]; intros S x I; [easy|]. cbn [app] in S. inversion S as [|? ? S' F]; subst. destruct I as [<-|I]; [|now apply IH].
  rewrite Forall_forall in F. apply F. apply in_app_iff. right. now left.
Qed.

Lemma insert_in {B} k (b : B) l e : In e (map_insert k b l) -> e = (k, b) \/ In e l.
Proof.
  induction l as [|[k' b'] l IH]; cbn [map_insert].
  - intros [<-|[]]. now left.
  - destruct (String.compare k k'); intros [<-|I]; auto; try (now left; try reflexivity); try (right; now left); try (right; now right).
    destruct (IH I); auto. right. now right.
Qed.

Lemma insert_sorted {B} k (b : B) l : assoc k l = None -> ksorted l -> ksorted (map_insert k b l).
Proof. intros E. apply map_insert_sorted. now apply assoc_none. Qed.

(** ** invariants of what was read *)

Definition joint_read (kj : string * FJoint) : Prop := fst kj = uj_name (fj_joint (snd kj)) /\ exists x, parseJoint_full x = Some (snd kj).
Lemma joints_read l : forall acc r, parse_joints_full l acc = Some r -> ksorted acc -> Forall joint_read acc -> ksorted r /\ Forall joint_read r.
Proof.
  induction l as [|x l IH]; intros acc r E S F; cbn [parse_joints_full] in E; [inversion E; subst; auto|].
  destruct (parseJoint_full x) as [j|] eqn:Ej; [|discriminate]. destruct (assoc _ acc) eqn:Ea; [discriminate|].
  apply IH in E; auto; [now apply insert_sorted|]. rewrite Forall_forall in *. intros e I. apply insert_in in I. destruct I as [->|I]; [|now apply F].
  split; [reflexivity|]. exists x. exact Ej.
Qed.

Definition link_read (kl : string * FLink) : Prop :=
  fst kl = ul_name (fl_link (snd kl)) /\ ul_parent (fl_link (snd kl)) = None /\ ul_pjoint (fl_link (snd kl)) = None /\ ul_children (fl_link (snd kl)) = [].
Lemma assign_link_link f ms : fl_link (fst (assign_link f ms)) = fl_link f.
Proof.
  unfold assign_link. destruct (match fl_visual f with true => _ | false => _ end) as [vs ms1]. destruct (assign_visuals vs ms1). reflexivity.
Qed.
Lemma links_read l : forall acc ms r ms', parse_links_full l acc ms = Some (r, ms') -> ksorted acc -> Forall link_read acc -> ksorted r /\ Forall link_read r.
Proof.
  induction l as [|x l IH]; intros acc ms r ms' E S F; cbn [parse_links_full] in E; [inversion E; subst; auto|].
  destruct (parseLink_full x) as [b f] eqn:Ef. destruct (assoc _ acc) eqn:Ea; [discriminate|]. destruct (assign_link f ms) as [f' ms1] eqn:El.
  pose proof (assign_link_link f ms) as K. rewrite El in K. cbn [fst] in K.
  apply IH in E; auto; [now apply insert_sorted|]. rewrite Forall_forall in *. intros e I. apply insert_in in I. destruct I as [->|I]; [|now apply F].
  unfold link_read. cbn [fst snd]. rewrite K. split; [reflexivity|]. clear - Ef. unfold parseLink_full in Ef.
  destruct (attribute "name" x); [|inversion Ef; cbn; auto]. destruct (option_map parseInertial _) as [[[] i]|].
  2: inversion Ef; cbn; auto.
  all: destruct (parse_all parseVisual _) as [vs []]; cbn [negb] in Ef; [|inversion Ef; cbn; auto].
  all: destruct (parse_all parseCollision _) as [cs []]; cbn [negb] in Ef; inversion Ef; cbn; auto.
Qed.

Definition mat_keyed (km : string * Material) : Prop := fst km = mat_name (snd km).
Definition keyed (ms : list (string * Material)) : Prop := ksorted ms /\ Forall mat_keyed ms.
Lemma insert_existing {B} k (b : B) l : ksorted l -> In k (map fst l) -> map_insert k b l = l.
Proof.
  induction l as [|[k' b'] l IH]; intros S I; [easy|]. cbn [map_insert]. cbn [map fst] in *. inversion S as [|? ? S' F]; subst. destruct (String.compare k k') eqn:E; auto.
  - exfalso. destruct I as [->|I]; [now apply (name_lt_irrefl k)|]. rewrite Forall_forall in F. apply F in I. apply (name_lt_irrefl k). eapply name_lt_trans; [exact E|exact I].
  - destruct I as [->|I]; [|now rewrite IH]. pose proof (String.compare_antisym k k) as Z. rewrite E in Z. discriminate Z.
Qed.
Lemma keyed_insert m ms : keyed ms -> keyed (map_insert (mat_name m) m ms).
Proof.
  intros (S & F). destruct (in_dec string_dec (mat_name m) (map fst ms)) as [I|N].
  - rewrite insert_existing; [split; assumption|assumption|assumption].
  - split; [now apply map_insert_sorted|]. rewrite Forall_forall in *. intros e I. apply insert_in in I. destruct I as [->|I]; [reflexivity|now apply F].
Qed.
Lemma materials_keyed l : forall acc r, parse_materials l acc = Some r -> keyed acc -> keyed r.
Proof.
  induction l as [|x l IH]; intros acc r E K; cbn [parse_materials] in E; [now inversion E; subst|]. destruct (parseMaterial x) as [b m].
  destruct (assoc _ acc); [discriminate|]. apply IH in E; auto. now apply keyed_insert.
Qed.
Lemma assign_keyed v ms : keyed ms -> keyed (snd (fst (assignMaterial v ms))).
Proof.
  unfold assignMaterial. intros K. destruct (vis_material_name v); [exact K|]. destruct (assoc _ ms); [exact K|]. destruct (vis_material v); [now apply keyed_insert|exact K].
Qed.
Lemma visuals_keyed vs : forall ms, keyed ms -> keyed (snd (assign_visuals vs ms)).
Proof.
  induction vs as [|v vs IH]; intros ms K; [exact K|]. cbn [assign_visuals]. pose proof (assign_keyed v ms K) as K1. destruct (assignMaterial v ms) as [[v' ms1] b].
  cbn [fst snd] in K1. specialize (IH _ K1). destruct (assign_visuals vs ms1). exact IH.
Qed.
Lemma link_keyed f ms : keyed ms -> keyed (snd (assign_link f ms)).
Proof.
  intros K. unfold assign_link.
  assert (H : keyed (snd (match fl_visual f, fl_visuals f with
    | true, v :: t => let '(v', ms1, _) := assignMaterial v ms in (v' :: t, ms1)
    | _, vs => (vs, ms) end))).
  { destruct (fl_visual f), (fl_visuals f) as [|v t]; try exact K. pose proof (assign_keyed v ms K) as K1. destruct (assignMaterial v ms) as [[v' ms1] b]. exact K1. }
  destruct (match fl_visual f with true => _ | false => _ end) as [vs ms1]. cbn [snd] in H. pose proof (visuals_keyed vs ms1 H) as H2. destruct (assign_visuals vs ms1). exact H2.
Qed.
Lemma links_keyed l : forall acc ms r ms', parse_links_full l acc ms = Some (r, ms') -> keyed ms -> keyed ms'.
Proof.
  induction l as [|x l IH]; intros acc ms r ms' E K; cbn [parse_links_full] in E; [now inversion E; subst|].
  destruct (parseLink_full x) as [b f]. destruct (assoc _ acc); [discriminate|]. pose proof (link_keyed f ms K) as K1. destruct (assign_link f ms). now apply IH in E.
Qed.

(** ** connecting the links depends on names only *)

Lemma map_update_comm {B C} (g : B -> C) k (f : B -> B) (f' : C -> C) l : (forall b, f' (g b) = g (f b)) ->
  map_update k f' (map (fun kb => (fst kb, g (snd kb))) l) = map (fun kb => (fst kb, g (snd kb))) (map_update k f l).
Proof. intros H. induction l as [|[k' b] l IH]; [reflexivity|]. cbn [map_update map fst snd]. destruct (String.eqb k k'); cbn [map fst snd]; congruence. Qed.
Lemma assoc_map_snd {B C} (g : B -> C) k l : assoc k (map (fun kb => (fst kb, g (snd kb))) l) = option_map g (assoc k l).
Proof. induction l as [|[k' b] l IH]; [reflexivity|]. cbn [assoc map fst snd]. destruct (String.eqb k k'); auto. Qed.
Lemma initTree_comm (g : ULink -> ULink) (h : UJoint -> UJoint) js :
  (forall p c l, set_parent p c (g l) = g (set_parent p c l)) -> (forall c l, add_child c (g l) = g (add_child c l)) ->
  (forall j, uj_parent (h j) = uj_parent j /\ uj_child (h j) = uj_child j) ->
  forall ls, initTree (map (fun kb => (fst kb, h (snd kb))) js) (map (fun kb => (fst kb, g (snd kb))) ls) =
  option_map (map (fun kb => (fst kb, g (snd kb)))) (initTree js ls).
Proof.
  intros G1 G2 H. induction js as [|[jn j] js IH]; intros ls; [reflexivity|]. cbn [map initTree fst snd]. destruct (H j) as (-> & ->).
  destruct (orb (String.eqb (uj_parent j) "") (String.eqb (uj_child j) "")); [reflexivity|]. rewrite !assoc_map_snd.
  destruct (assoc (uj_child j) ls); [|reflexivity]. destruct (assoc (uj_parent j) ls); [|reflexivity]. cbn [option_map].
  rewrite (map_update_comm g _ (set_parent (uj_parent j) jn)) by (intros; apply G1). rewrite (map_update_comm g _ (add_child (uj_child j))) by (intros; apply G2). apply IH.
Qed.
Lemma initRoot_comm (g : ULink -> ULink) ls : (forall l, ul_parent (g l) = ul_parent l) -> initRoot (map (fun kb => (fst kb, g (snd kb))) ls) = initRoot ls.
Proof.
  intros H. unfold initRoot.
  assert (E : filter (fun kl : string * ULink => match ul_parent (snd kl) with Some _ => false | None => true end) (map (fun kb => (fst kb, g (snd kb))) ls) =
    map (fun kb => (fst kb, g (snd kb))) (filter (fun kl : string * ULink => match ul_parent (snd kl) with Some _ => false | None => true end) ls)).
  { induction ls as [|[k l] ls IH]; [reflexivity|]. cbn [map filter fst snd]. rewrite H. destruct (ul_parent l); cbn [map fst snd]; now rewrite IH. }
  rewrite E. destruct (filter _ ls) as [|[a l] [|[b m] t]]; reflexivity.
Qed.

(** ** every visual that has a named material has the one of the model *)

Definition grows (ms ms' : list (string * Material)) : Prop := forall n m, assoc n ms = Some m -> assoc n ms' = Some m.
Definition settled (ms : list (string * Material)) (v : Visual) : Prop :=
  named v /\ forall m, vis_material v = Some m -> vis_material_name v <> ""%string -> assoc (vis_material_name v) ms = Some m.
Lemma settled_grows ms ms' v : grows ms ms' -> settled ms v -> settled ms' v.
Proof. intros G (N & H). split; [exact N|]. intros m E D. now apply G, H. Qed.
Lemma insert_grows k (m : Material) ms : assoc k ms = None -> grows ms (map_insert k m ms).
Proof. intros E n m' E'. rewrite (assoc_insert _ _ _ _ E). destruct (String.eqb_spec n k); [congruence|assumption]. Qed.
Lemma keyed_assoc ms n m : keyed ms -> assoc n ms = Some m -> mat_name m = n.
Proof.
  intros (_ & F). induction ms as [|[k b] ms IH]; [discriminate|]. inversion F as [|? ? F1 F2]; subst. cbn [assoc]. destruct (String.eqb_spec n k); [|now apply IH].
  intros E. inversion E. subst. symmetry. exact F1.
Qed.
Lemma assign_settled v ms : named v -> keyed ms ->
  settled (snd (fst (assignMaterial v ms))) (fst (fst (assignMaterial v ms))) /\ grows ms (snd (fst (assignMaterial v ms))).
Proof.
  intros N K. unfold assignMaterial. destruct (vis_material_name v) as [|ch nm] eqn:En.
  - cbn [fst snd]. split; [split; [exact N|congruence]|intros ?; auto].
  - destruct (assoc (String ch nm) ms) as [m|] eqn:Ea.
    + cbn [fst snd]. split; [|intros ?; auto]. split.
      * intros m' E. cbn [set_material vis_material vis_material_name] in *. inversion E. subst m'. rewrite En. now apply (keyed_assoc ms).
      * intros m' E _. cbn [set_material vis_material vis_material_name] in *. rewrite En. congruence.
    + destruct (vis_material v) as [m|] eqn:Em; cbn [fst snd].
      * assert (Mn : mat_name m = String ch nm) by (rewrite <- En; now apply N). split; [|rewrite Mn; now apply insert_grows].
        split; [exact N|]. intros m' E _. rewrite Em in E. inversion E. subst m'. rewrite En, Mn. rewrite (assoc_insert _ _ _ _ Ea), String.eqb_refl. reflexivity.
      * split; [split; [exact N|congruence]|intros ?; auto].
Qed.
Lemma visuals_settled vs : forall ms, Forall named vs -> keyed ms ->
  Forall (settled (snd (assign_visuals vs ms))) (fst (assign_visuals vs ms)) /\ grows ms (snd (assign_visuals vs ms)).
Proof.
  induction vs as [|v vs IH]; intros ms N K; [split; [constructor|intros ?; auto]|]. inversion N as [|? ? N1 N2]; subst. cbn [assign_visuals].
  pose proof (assign_keyed v ms K) as K1. destruct (assign_settled v ms N1 K) as (S1 & G1). destruct (assignMaterial v ms) as [[v' ms1] b]. cbn [fst snd] in *.
  destruct (IH ms1 N2 K1) as (S2 & G2). destruct (assign_visuals vs ms1) as [vs' ms2]. cbn [fst snd] in *. split.
  - constructor; [|exact S2]. now apply (settled_grows ms1).
  - intros n m E. now apply G2, G1.
Qed.
Lemma link_settled f ms : Forall named (fl_visuals f) -> keyed ms ->
  Forall (settled (snd (assign_link f ms))) (fl_visuals (fst (assign_link f ms))) /\ grows ms (snd (assign_link f ms)).
Proof.
  intros N K. unfold assign_link.
  assert (H : let p := match fl_visual f, fl_visuals f with
    | true, v :: t => let '(v', ms1, _) := assignMaterial v ms in (v' :: t, ms1)
    | _, vs => (vs, ms) end in keyed (snd p) /\ Forall named (fst p) /\ grows ms (snd p)).
  { destruct (fl_visual f), (fl_visuals f) as [|v t]; cbn zeta; cbn [fst snd]; try (split; [exact K|split; [exact N|intros ?; auto]]).
    inversion N as [|? ? N1 N2]; subst. pose proof (assign_keyed v ms K) as K1. destruct (assign_settled v ms N1 K) as ((S1 & _) & G1).
    destruct (assignMaterial v ms) as [[v' ms1] b]. cbn [fst snd] in *. split; [exact K1|]. split; [constructor; assumption|exact G1]. }
  destruct (match fl_visual f with true => _ | false => _ end) as [vs ms1]. cbn zeta in H. cbn [fst snd] in H. destruct H as (K1 & N1 & G1).
  destruct (visuals_settled vs ms1 N1 K1) as (S2 & G2). destruct (assign_visuals vs ms1) as [vs' ms2]. cbn [fst snd fl_visuals] in *. split; [exact S2|].
  intros n m E. now apply G2, G1.
Qed.
Lemma links_settled l : forall acc ms r ms', parse_links_full l acc ms = Some (r, ms') -> keyed ms -> Forall (fun kl => Forall (settled ms) (fl_visuals (snd kl))) acc ->
  Forall (fun kl => Forall (settled ms') (fl_visuals (snd kl))) r.
Proof.
  induction l as [|x l IH]; intros acc ms r ms' E K F; cbn [parse_links_full] in E; [now inversion E; subst|].
  pose proof (parseLink_named x) as N. destruct (parseLink_full x) as [b f]. cbn [snd] in N. destruct (assoc _ acc) eqn:Ea; [discriminate|].
  pose proof (link_keyed f ms K) as K1. destruct (link_settled f ms N K) as (S1 & G1). destruct (assign_link f ms) as [f' ms1]. cbn [fst snd] in *.
  apply IH in E; auto. rewrite Forall_forall in *. intros e I. apply insert_in in I. destruct I as [->|I]; [now rewrite Forall_forall|].
  specialize (F e I). rewrite Forall_forall in *. intros v Iv. apply (settled_grows ms); auto.
Qed.

(** ** reading printed numbers *)
Section Show.
Context (show : num -> string).
Notation P := (printable show).
Notation ag := (again show).

Lemma again_read x : P x -> str_to_double (show x) = Some (ag x).
Proof. intros (_ & _ & H). unfold again. destruct (str_to_double (show x)); [reflexivity|contradiction]. Qed.

Lemma words_values l : Forall P l -> words (values2str show l) (map show l).
Proof.
  induction l as [|x [|y t] IH]; intros F; inversion F as [|? ? (F1 & F2 & _) F3]; subst.
  - constructor.
  - cbn [values2str map]. assert (W : words (append (show x) "") [show x]) by (apply words_word; auto; constructor). rewrite sapp_nil in W. exact W.
  - change (values2str show (x :: y :: t)) with (append (show x) (String " " (values2str show (y :: t)))). cbn [map].
    apply words_word; auto; [right; eauto|]. constructor. now apply IH.
Qed.

Lemma vec_again v : Forall P (vector_numbers v) -> v_init (vec2str show v) = Some (again_vector show v).
Proof.
  intros F. apply v_init_words. exists (show (vx v)), (show (vy v)), (show (vz v)). split; [now apply words_values|].
  unfold vector_numbers in F. inversion F as [|? ? F1 T1]; subst. inversion T1 as [|? ? F2 T2]; subst. inversion T2 as [|? ? F3 T3]; subst. cbn [again_vector vx vy vz].
  split; [|split]; now apply again_read.
Qed.

Lemma pose_again p : Forall P (pose_numbers p) -> parsePose (exportPose show p) = (true, again_pose show p).
Proof.
  intros F. unfold pose_numbers in F. apply Forall_app in F. destruct F as (F1 & F2). unfold parsePose, exportPose, attribute. cbn [assoc String.eqb Ascii.eqb Bool.eqb].
  rewrite (vec_again _ F1). unfold q_init, rot2str. rewrite (vec_again _ F2). reflexivity.
Qed.

Lemma inertial_again i : Forall P (inertial_numbers i) -> parseInertial (exportInertial show i) = (true, again_inertial show i).
Proof.
  intros F. unfold inertial_numbers in F. apply Forall_app in F. destruct F as (F1 & F2).
  unfold parseInertial, exportInertial, first_child. cbn [x_kids children filter String.eqb Ascii.eqb Bool.eqb exportPose hd_error].
  change (XElem "origin" [("xyz"%string, vec2str show (position (in_origin i))); ("rpy"%string, rot2str show (rotation (in_origin i)))] []) with (exportPose show (in_origin i)).
  rewrite (pose_again _ F1). cbn [negb]. unfold req_num_attr, attribute. cbn [assoc String.eqb Ascii.eqb Bool.eqb].
  repeat match goal with H : Forall P (_ :: _) |- _ => let H1 := fresh "H1" in let H2 := fresh "H2" in inversion H as [|? ? H1 H2]; subst; clear H; apply again_read in H1; try rewrite H1 end.
  unfold again_inertial. reflexivity.
Qed.

Lemma children_app tag l l' : children tag (l ++ l') = children tag l ++ children tag l'.
Proof. apply filter_app. Qed.
Lemma children_none {B} (f : B -> xml) tag t l : (forall b, exists a k, f b = XElem t a k) -> t <> tag -> children tag (map f l) = [].
Proof.
  intros H N. induction l as [|b l IH]; [reflexivity|]. cbn [map children filter]. destruct (H b) as (a & k & ->). apply String.eqb_neq in N. rewrite N. exact IH.
Qed.
Lemma children_same {B} (f : B -> xml) t l : (forall b, exists a k, f b = XElem t a k) -> children t (map f l) = map f l.
Proof.
  intros H. induction l as [|b l IH]; [reflexivity|]. cbn [map children filter]. destruct (H b) as (a & k & E). rewrite E at 1. rewrite String.eqb_refl. f_equal. exact IH.
Qed.

Lemma link_again f : Forall P (of_option inertial_numbers (ul_inertial (fl_link f))) ->
  ul_parent (fl_link f) = None -> ul_pjoint (fl_link f) = None -> ul_children (fl_link f) = [] ->
  parseLink (exportLink show f) = again_ulink show (fl_link f).
Proof.
  intros F E1 E2 E3. unfold parseLink, exportLink, attribute, first_child. cbn [assoc String.eqb Ascii.eqb Bool.eqb x_kids].
  rewrite !children_app. rewrite (children_none (exportVisual show) "inertial" "visual") by (try discriminate; unfold exportVisual; eauto).
  rewrite (children_none (exportCollision show) "inertial" "collision") by (try discriminate; unfold exportCollision; eauto).
  unfold again_ulink. rewrite E1, E2, E3. destruct (ul_inertial (fl_link f)) as [i|]; [|reflexivity].
  cbn [of_option] in F. rewrite !app_nil_r. change (children "inertial" [exportInertial show i]) with [exportInertial show i]. cbn [hd_error].
  rewrite (inertial_again _ F). reflexivity.
Qed.

(** ** joints *)

Definition good (u : UJoint) : Prop :=
  uj_type u <> UNKNOWN /\ (uj_limits u = None -> uj_type u <> REVOLUTE /\ uj_type u <> PRISMATIC).
Lemma parse_good x j : parseJoint_full x = Some j -> good (fj_joint j).
Proof.
  intros E. apply parseJoint_full_joint in E. remember (fj_joint j) as u eqn:Eu. clear Eu. unfold parseJoint in E.
  destruct (attribute "name" x); [|discriminate]. destruct (parse_joint_origin x); [|discriminate].
  destruct (attribute "type" x) as [ts|]; [|discriminate]. destruct (joint_type_of_string ts) as [ty|] eqn:Et; [|discriminate]. destruct (parse_axis _ x); [|discriminate].
  destruct (parse_limit _ x) as [lim|] eqn:El; [|discriminate].
  destruct (negb _); [discriminate|]. destruct (negb _); [discriminate|]. destruct (parse_mimic x); [|discriminate]. destruct (negb _); [discriminate|].
  inversion E. subst u. split; cbn [uj_type uj_limits].
  - intros ->. unfold joint_type_of_string in Et. repeat (destruct (String.eqb ts _); [discriminate|]). discriminate.
  - intros ->. unfold parse_limit in El. destruct (first_child "limit" x) as [e|]; [destruct (parseJointLimits e); discriminate|]. destruct ty; split; congruence.
Qed.

Lemma type_again t : t <> UNKNOWN -> exists n, type_name t = Some n /\ joint_type_of_string n = Some t.
Proof. destruct t; intros N; [contradiction|..]; eexists; (split; [reflexivity|]); reflexivity. Qed.

Ltac nums := repeat match goal with H : Forall P (_ :: _) |- _ => let H1 := fresh "N" in let H2 := fresh "N" in inversion H as [|? ? H1 H2]; subst; clear H; apply again_read in H1 end.

Ltac readnums := repeat match goal with H : str_to_double (show ?x) = Some _ |- _ => rewrite ?H; clear H end.

Lemma limits_again l : Forall P [lower l; upper l; effort l; velocity l] -> parseJointLimits (exportJointLimits show l) = Some (again_limits show l).
Proof. intros F. nums. unfold parseJointLimits, exportJointLimits, num_attr, req_num_attr, attribute. cbn [assoc String.eqb Ascii.eqb Bool.eqb]. readnums. reflexivity. Qed.
Lemma dynamics_again d : Forall P [damping d; friction d] -> readJointDynamics (exportJointDynamics show d) = Some (again_dynamics show d).
Proof. intros F. nums. unfold readJointDynamics, exportJointDynamics, num_attr, attribute. cbn [assoc String.eqb Ascii.eqb Bool.eqb]. readnums. reflexivity. Qed.
Lemma safety_again s : Forall P [soft_upper s; soft_lower s; k_position s; k_velocity s] -> readJointSafety (exportJointSafety show s) = Some (again_safety show s).
Proof. intros F. nums. unfold readJointSafety, exportJointSafety, num_attr, req_num_attr, attribute. cbn [assoc String.eqb Ascii.eqb Bool.eqb]. readnums. reflexivity. Qed.
Lemma mimic_again m n : mimic_joint m = n -> Forall P [multiplier m; offset m] ->
  parseJointMimic (XElem "mimic" [("offset", show (offset m)); ("multiplier", show (multiplier m)); ("joint", n)]%string []) = Some (again_mimic show m).
Proof. intros <- F. nums. unfold parseJointMimic, num_attr, attribute. cbn [assoc String.eqb Ascii.eqb Bool.eqb]. readnums. reflexivity. Qed.

(** the child elements of a written joint *)
Definition base_kids (u : UJoint) : list xml :=
  [XElem "axis" [("xyz", vec2str show (uj_axis u))]%string []; XElem "parent" [("link", uj_parent u)]%string []; XElem "child" [("link", uj_child u)]%string []].
Definition written (j : FJoint) : list xml :=
  base_kids (fj_joint j) ++
  match fj_dynamics j with Some d => [exportJointDynamics show d] | None => [] end ++
  match uj_limits (fj_joint j) with Some l => [exportJointLimits show l] | None => [] end ++
  match fj_safety j with Some s => [exportJointSafety show s] | None => [] end ++
  match fj_calibration j with Some c => exportJointCalibration show c | None => [] end ++
  match uj_mimic (fj_joint j) with Some m => exportJointMimic show m | None => [] end.

Lemma calibration_tag c tag : tag <> "calibration"%string -> children tag (exportJointCalibration show c) = [].
Proof. intros N. apply not_eq_sym, String.eqb_neq in N. unfold exportJointCalibration. destruct (falling c), (rising c); cbn [children filter]; rewrite ?N; reflexivity. Qed.
Lemma mimic_tag m tag : tag <> "mimic"%string -> children tag (exportJointMimic show m) = [].
Proof. intros N. apply not_eq_sym, String.eqb_neq in N. unfold exportJointMimic. destruct (mimic_joint m); cbn [children filter]; rewrite ?N; reflexivity. Qed.

Lemma kids_base j : hd_error (children "axis" (written j)) = Some (XElem "axis" [("xyz", vec2str show (uj_axis (fj_joint j)))]%string []) /\
  hd_error (children "parent" (written j)) = Some (XElem "parent" [("link", uj_parent (fj_joint j))]%string []) /\
  hd_error (children "child" (written j)) = Some (XElem "child" [("link", uj_child (fj_joint j))]%string []).
Proof. unfold written. rewrite !(children_app _ (base_kids _)). split; [|split]; reflexivity. Qed.

Lemma kids_origin j : children "origin" (written j) = [].
Proof.
  unfold written. rewrite !children_app. destruct (fj_dynamics j), (uj_limits (fj_joint j)), (fj_safety j), (fj_calibration j), (uj_mimic (fj_joint j));
  rewrite ?calibration_tag, ?mimic_tag by discriminate; reflexivity.
Qed.
Lemma kids_dynamics j : hd_error (children "dynamics" (written j)) = option_map (exportJointDynamics show) (fj_dynamics j).
Proof.
  unfold written. rewrite !children_app. destruct (fj_dynamics j), (uj_limits (fj_joint j)), (fj_safety j), (fj_calibration j), (uj_mimic (fj_joint j));
  rewrite ?calibration_tag, ?mimic_tag by discriminate; reflexivity.
Qed.
Lemma kids_limit j : hd_error (children "limit" (written j)) = option_map (exportJointLimits show) (uj_limits (fj_joint j)).
Proof.
  unfold written. rewrite !children_app. destruct (fj_dynamics j), (uj_limits (fj_joint j)), (fj_safety j), (fj_calibration j), (uj_mimic (fj_joint j));
  rewrite ?calibration_tag, ?mimic_tag by discriminate; reflexivity.
Qed.
Lemma kids_safety j : hd_error (children "safety_controller" (written j)) = option_map (exportJointSafety show) (fj_safety j).
Proof.
  unfold written. rewrite !children_app. destruct (fj_dynamics j), (uj_limits (fj_joint j)), (fj_safety j), (fj_calibration j), (uj_mimic (fj_joint j));
  rewrite ?calibration_tag, ?mimic_tag by discriminate; reflexivity.
Qed.
Lemma kids_calibration j : hd_error (children "calibration" (written j)) = match fj_calibration j with Some c => hd_error (exportJointCalibration show c) | None => None end.
Proof.
  unfold written. rewrite !children_app. destruct (fj_dynamics j), (uj_limits (fj_joint j)), (fj_safety j), (fj_calibration j) as [c|], (uj_mimic (fj_joint j));
  rewrite ?mimic_tag by discriminate; try (unfold exportJointCalibration; destruct (falling c), (rising c)); reflexivity.
Qed.
Lemma kids_mimic j : hd_error (children "mimic" (written j)) = match uj_mimic (fj_joint j) with Some m => hd_error (exportJointMimic show m) | None => None end.
Proof.
  unfold written. rewrite !children_app. destruct (fj_dynamics j), (uj_limits (fj_joint j)), (fj_safety j), (fj_calibration j) as [c|], (uj_mimic (fj_joint j)) as [m|];
  rewrite ?calibration_tag by discriminate; try (unfold exportJointMimic; destruct (mimic_joint m)); reflexivity.
Qed.

Lemma export_kids j : uj_type (fj_joint j) <> UNKNOWN -> x_kids (exportJoint show j) = written j.
Proof. intros N. unfold exportJoint, written. cbn [x_kids]. destruct (uj_type (fj_joint j)); [contradiction|..]; reflexivity. Qed.

Lemma calibration_again c : Forall P (of_option (fun x => [x]) (rising c) ++ of_option (fun x => [x]) (falling c)) ->
  match hd_error (exportJointCalibration show c) with None => Some None | Some e => option_map Some (readJointCalibration e) end =
  Some (match c with mkCalibration None None => None | c => Some (again_calibration show c) end).
Proof.
  intros F. destruct c as [[r|] [f|]]; cbn [rising falling of_option app] in F; nums; unfold exportJointCalibration, readJointCalibration, opt_num_attr, attribute;
  cbn [rising falling hd_error app assoc String.eqb Ascii.eqb Bool.eqb]; readnums; reflexivity.
Qed.

Lemma safety_ok x o : read_child "safety_controller" readJointSafety x = Some o -> opt_child_ok "safety_controller" parseJointSafety x = true.
Proof.
  unfold read_child, opt_child_ok. destruct (first_child _ x) as [e|]; [|reflexivity]. unfold readJointSafety, parseJointSafety.
  destruct (num_attr "soft_lower_limit" _ e); [|discriminate]. destruct (num_attr "soft_upper_limit" _ e); [|discriminate].
  destruct (num_attr "k_position" _ e); [|discriminate]. destruct (req_num_attr "k_velocity" e); [reflexivity|discriminate].
Qed.
Lemma calibration_ok x o : read_child "calibration" readJointCalibration x = Some o -> opt_child_ok "calibration" parseJointCalibration x = true.
Proof.
  unfold read_child, opt_child_ok. destruct (first_child _ x) as [e|]; [|reflexivity]. unfold readJointCalibration, parseJointCalibration, opt_num_attr, num_attr.
  destruct (attribute "rising" e) as [r|]; [destruct (str_to_double r); [|discriminate]|]; (destruct (attribute "falling" e) as [f|]; [destruct (str_to_double f); [|discriminate]|]); reflexivity.
Qed.
Lemma dynamics_ok x o : read_child "dynamics" readJointDynamics x = Some o -> opt_child_ok "dynamics" parseJointDynamics x = true.
Proof.
  unfold read_child, opt_child_ok. destruct (first_child _ x) as [e|]; [|reflexivity]. unfold readJointDynamics, parseJointDynamics.
  destruct (num_attr "damping" _ e); [|discriminate]. destruct (num_attr "friction" _ e); [|discriminate].
  destruct (attribute "damping" e), (attribute "friction" e); try discriminate; reflexivity.
Qed.

Lemma joint_again j : good (fj_joint j) -> Forall P (joint_numbers j) ->
  parseJoint_full (exportJoint show j) = Some (again_joint show pose_clear j).
Proof.
  intros (G1 & G2) F. unfold joint_numbers in F. rewrite !Forall_app in F. destruct F as (F1 & _ & F3 & F4 & F5 & F6 & F7).
  pose proof (export_kids j G1) as K. destruct (kids_base j) as (B1 & B2 & B3). destruct (type_again _ G1) as (tn & T1 & T2).
  assert (ES : read_child "safety_controller" readJointSafety (exportJoint show j) = Some (option_map (again_safety show) (fj_safety j))).
  { unfold read_child, first_child. rewrite K, kids_safety. destruct (fj_safety j); [|reflexivity]. cbn [option_map]. now rewrite safety_again. }
  assert (EC : read_child "calibration" readJointCalibration (exportJoint show j) =
    Some (match fj_calibration j with Some (mkCalibration None None) => None | Some c => Some (again_calibration show c) | None => None end)).
  { unfold read_child, first_child. rewrite K, kids_calibration. destruct (fj_calibration j) as [c|]; [|reflexivity]. cbn [of_option] in F7. rewrite (calibration_again c F7).
    destruct c as [[|] [|]]; reflexivity. }
  assert (ED : read_child "dynamics" readJointDynamics (exportJoint show j) = Some (option_map (again_dynamics show) (fj_dynamics j))).
  { unfold read_child, first_child. rewrite K, kids_dynamics. destruct (fj_dynamics j); [|reflexivity]. cbn [option_map]. now rewrite dynamics_again. }
  assert (EJ : parseJoint (exportJoint show j) = Some (again_ujoint show pose_clear (fj_joint j))).
  { unfold parseJoint. assert (X : attribute "name" (exportJoint show j) = Some (uj_name (fj_joint j))) by reflexivity. rewrite X.
    assert (X1 : parse_joint_origin (exportJoint show j) = Some pose_clear) by (unfold parse_joint_origin, first_child; rewrite K, kids_origin; reflexivity). rewrite X1.
    assert (X2 : attribute "type" (exportJoint show j) = Some tn) by (unfold exportJoint, attribute; rewrite T1; reflexivity). rewrite X2, T2.
    assert (X3 : parse_axis (uj_type (fj_joint j)) (exportJoint show j) = Some (match uj_type (fj_joint j) with FLOATING | FIXED => v_clear | _ => again_vector show (uj_axis (fj_joint j)) end)).
    { unfold parse_axis, first_child. rewrite K, B1. unfold attribute. cbn [assoc String.eqb Ascii.eqb Bool.eqb]. rewrite (vec_again _ F1). destruct (uj_type _); reflexivity. }
    rewrite X3.
    assert (X4 : parse_limit (uj_type (fj_joint j)) (exportJoint show j) = Some (option_map (again_limits show) (uj_limits (fj_joint j)))).
    { unfold parse_limit, first_child. rewrite K, kids_limit. destruct (uj_limits (fj_joint j)) as [l|]; cbn [option_map].
      - now rewrite limits_again.
      - destruct (G2 eq_refl). destruct (uj_type _); congruence. }
    rewrite X4.
    assert (X5 : parse_mimic (exportJoint show j) = Some (match uj_mimic (fj_joint j) with
     | Some m => if String.eqb (mimic_joint m) EmptyString then None else Some (again_mimic show m) | None => None end)).
    { unfold parse_mimic, first_child. rewrite K, kids_mimic. destruct (uj_mimic (fj_joint j)) as [m|]; [|reflexivity]. unfold exportJointMimic.
      destruct (mimic_joint m) as [|ch nm] eqn:Em; [reflexivity|]. cbn [hd_error]. rewrite (mimic_again m _ Em F4). cbn [String.eqb]. reflexivity. }
    rewrite X5.
    assert (X6 : link_ref "parent" (exportJoint show j) = uj_parent (fj_joint j)) by (unfold link_ref, first_child; rewrite K, B2; reflexivity).
    assert (X7 : link_ref "child" (exportJoint show j) = uj_child (fj_joint j)) by (unfold link_ref, first_child; rewrite K, B3; reflexivity).
    rewrite X6, X7, (safety_ok _ _ ES), (calibration_ok _ _ EC), (dynamics_ok _ _ ED). reflexivity. }
  unfold parseJoint_full. rewrite EJ, ES, EC, ED. reflexivity.
Qed.

(** ** the whole description *)

Lemma read_joints l : forall acc, ksorted (acc ++ l) -> Forall joint_read l -> Forall (fun kj => Forall P (joint_numbers (snd kj))) l ->
  parse_joints_full (map (fun kj => exportJoint show (snd kj)) l) (map (fun kj => (fst kj, again_joint show pose_clear (snd kj))) acc) =
  Some (map (fun kj => (fst kj, again_joint show pose_clear (snd kj))) (acc ++ l)).
Proof.
  induction l as [|[n j] l IH]; intros acc S R N; [now rewrite app_nil_r|]. inversion R as [|? ? (R1 & x & R2) R3]; subst. inversion N as [|? ? N1 N2]; subst. cbn [fst snd] in *.
  cbn [map parse_joints_full fst snd]. rewrite (joint_again _ (parse_good _ _ R2) N1). cbn [again_joint fj_joint again_ujoint uj_name]. rewrite <- R1.
  assert (L : forall y, In y (map fst (map (fun kj : string * FJoint => (fst kj, again_joint show pose_clear (snd kj))) acc)) -> name_lt y n).
  { rewrite map_map. cbn [fst]. rewrite map_app in S. cbn [map fst] in S. apply (sorted_snoc _ _ _ S). }
  rewrite (assoc_new _ _ L), (map_insert_last _ _ _ L).
  match goal with |- context [_ ++ [(n, ?b)]] => change [(n, b)] with (map (fun kj : string * FJoint => (fst kj, again_joint show pose_clear (snd kj))) [(n, j)]) end.
  rewrite <- map_app. rewrite IH; auto; rewrite <- app_assoc; [reflexivity|exact S].
Qed.

Lemma read_links l : forall acc, ksorted (acc ++ l) -> Forall link_read l -> Forall (fun kl => Forall P (of_option inertial_numbers (ul_inertial (fl_link (snd kl))))) l ->
  parse_links (map (fun kl => exportLink show (snd kl)) l) (map (fun kl => (fst kl, again_ulink show (snd kl))) (map klink acc)) =
  Some (map (fun kl => (fst kl, again_ulink show (snd kl))) (map klink (acc ++ l))).
Proof.
  induction l as [|[n f] l IH]; intros acc S R N; [now rewrite app_nil_r|]. inversion R as [|? ? (R1 & R2 & R3 & R4) R5]; subst. inversion N as [|? ? N1 N2]; subst. cbn [fst snd] in *.
  cbn [map parse_links fst snd]. rewrite (link_again _ N1 R2 R3 R4). cbn [again_ulink ul_name]. rewrite <- R1.
  assert (L : forall y, In y (map fst (map (fun kl : string * ULink => (fst kl, again_ulink show (snd kl))) (map klink acc))) -> name_lt y n).
  { rewrite !map_map. cbn [fst klink]. rewrite map_app in S. cbn [map fst] in S. apply (sorted_snoc _ _ _ S). }
  rewrite (assoc_new _ _ L), (map_insert_last _ _ _ L).
  change [(n, again_ulink show (fl_link f))] with (map (fun kl : string * ULink => (fst kl, again_ulink show (snd kl))) (map klink [(n, f)])).
  rewrite <- !map_app. rewrite IH; auto; rewrite <- app_assoc; [reflexivity|exact S].
Qed.

Lemma update_inertials k (f : ULink -> ULink) ls : (forall l, ul_inertial (f l) = ul_inertial l) ->
  map (fun kl => ul_inertial (snd kl)) (map_update k f ls) = map (fun kl => ul_inertial (snd kl)) ls.
Proof. intros H. induction ls as [|[k' l] ls IH]; [reflexivity|]. cbn [map_update]. destruct (String.eqb k k'); cbn [map snd]; congruence. Qed.
Lemma tree_inertials js : forall ls r, initTree js ls = Some r -> map (fun kl => ul_inertial (snd kl)) r = map (fun kl => ul_inertial (snd kl)) ls.
Proof.
  induction js as [|[jn j] js IH]; intros ls r E; cbn [initTree] in E; [now inversion E|]. destruct (orb _ _); [discriminate|].
  destruct (assoc _ ls); [|discriminate]. destruct (assoc _ ls); [|discriminate]. apply IH in E. rewrite E, !update_inertials by reflexivity. reflexivity.
Qed.

Lemma materials_again ms : keyed ms -> materials_ok [] (map (fun e => exportMaterial show (snd e)) ms) = true.
Proof.
  intros (S & F). apply materials_iff. split; [|easy]. rewrite map_map.
  rewrite (map_ext_in _ fst).
  - now apply sorted_nodup.
  - intros e I. rewrite Forall_forall in F. symmetry. apply (F e I).
Qed.

Lemma nonempty_match {B C} (l : list B) (x y : C) : l <> [] -> match l with [] => x | _ => y end = y.
Proof. destruct l; [contradiction|reflexivity]. Qed.

Theorem file_again top X : parseURDF_all (Some top) = Some X -> (forall x, In x (kinematic_numbers X) -> P x) ->
  exists X', again_file show X = Some X' /\ robot_of X' = again_robot show (fun _ => pose_clear) (robot_of X) /\
    xm_joints X' = map (fun kj => (fst kj, again_joint show pose_clear (snd kj))) (xm_joints X).
Proof.
  intros E N. destruct (parts _ _ E) as (r & ms0 & [P1 P2 P3 P4 P5 P6 P7 P8 P9]).
  destruct (joints_read _ _ _ P6) as (SJ & RJ); [constructor|constructor|].
  destruct (links_read _ _ _ _ _ P4) as (SL & RL); [constructor|constructor|].
  assert (K : keyed (fm_materials (xm_model X))). { eapply links_keyed; [exact P4|]. eapply materials_keyed; [exact P3|]. split; constructor. }
  assert (NJ : Forall (fun kj => Forall P (joint_numbers (snd kj))) (xm_joints X)).
  { apply Forall_forall. intros kj I. apply Forall_forall. intros x Ix. apply N. unfold kinematic_numbers. apply in_app_iff. right. apply in_flat_map. eauto. }
  assert (NL : Forall (fun kl => Forall P (of_option inertial_numbers (ul_inertial (fl_link (snd kl))))) (fm_links (xm_model X))).
  { apply Forall_forall. intros kl I. apply Forall_forall. intros x Ix. apply N. unfold kinematic_numbers. apply in_app_iff. left.
    apply (in_map (fun kl => ul_inertial (fl_link (snd kl)))) in I. pose proof (tree_inertials _ _ _ P8) as T. rewrite map_map in T. unfold klink in T. cbn [snd] in T.
    rewrite <- T in I. apply in_map_iff in I. destruct I as (kl' & E' & I). apply in_flat_map. exists kl'. split; [exact I|]. now rewrite E'. }
  assert (EJ := read_joints _ [] SJ RJ NJ). assert (EL := read_links _ [] SL RL NL). cbn [app map] in EJ, EL.
  set (kids := map (fun e => exportMaterial show (snd e)) (fm_materials (xm_model X)) ++ map (fun e => exportLink show (snd e)) (fm_links (xm_model X)) ++ map (fun e => exportJoint show (snd e)) (xm_joints X)).
  assert (C1 : children "material" kids = map (fun e => exportMaterial show (snd e)) (fm_materials (xm_model X))).
  { unfold kids. rewrite !children_app, (children_same _ "material"), (children_none _ "material" "link"), (children_none _ "material" "joint"), !app_nil_r; try discriminate; unfold exportMaterial, exportLink, exportJoint; eauto. }
  assert (C2 : children "link" kids = map (fun e => exportLink show (snd e)) (fm_links (xm_model X))).
  { unfold kids. rewrite !children_app, (children_none _ "link" "material"), (children_same _ "link"), (children_none _ "link" "joint"), app_nil_r; try discriminate; unfold exportMaterial, exportLink, exportJoint; eauto. }
  assert (C3 : children "joint" kids = map (fun e => exportJoint show (snd e)) (xm_joints X)).
  { unfold kids. rewrite !children_app, (children_none _ "joint" "material"), (children_none _ "joint" "link"), (children_same _ "joint"); try discriminate; unfold exportMaterial, exportLink, exportJoint; eauto. }
  assert (D : parseURDF_dom (Some (exportURDF show X)) = Some (again_robot show (fun _ => pose_clear) (robot_of X))).
  { unfold parseURDF_dom, exportURDF. fold kids. cbn [children filter String.eqb Ascii.eqb Bool.eqb hd_error attribute assoc version_ok negb x_kids].
    unfold parse_robot_kids. rewrite C1, (materials_again _ K), C2, EL. cbn [negb].
    assert (NE : map (fun kl => (fst kl, again_ulink show (snd kl))) (map klink (fm_links (xm_model X))) <> []) by (destruct (fm_links (xm_model X)); [contradiction|discriminate]).
    rewrite (nonempty_match _ _ _ NE).
    pose proof (parse_joints_kjoint (children "joint" kids) []) as KJ. cbn [map] in KJ. rewrite KJ, C3, EJ. cbn [option_map].
    assert (X1 : map kjoint (map (fun kj => (fst kj, again_joint show pose_clear (snd kj))) (xm_joints X)) = map (fun kj => (fst kj, again_ujoint show pose_clear (snd kj))) (map kjoint (xm_joints X))) by (rewrite !map_map; reflexivity).
    rewrite X1, (initTree_comm (again_ulink show) (again_ujoint show pose_clear)) by (intros; try split; reflexivity). rewrite P8. cbn [option_map].
    rewrite (initRoot_comm (again_ulink show)) by reflexivity. rewrite P9. unfold again_robot. rewrite P7. reflexivity. }
  destruct (parseURDF_all (Some (exportURDF show X))) as [X'|] eqn:EX.
  - exists X'. split; [exact EX|]. pose proof (all_ok _ _ EX) as F. pose proof (full_kinematics (Some (exportURDF show X))) as FK. rewrite F, D in FK. cbn [option_map] in FK.
    split; [now inversion FK|]. assert (H1 : hd_error (children "robot" (exportURDF show X)) = Some (XElem "robot" [("name", mi_name (fm_mi (xm_model X)))]%string kids)) by reflexivity.
    unfold parseURDF_all in EX. rewrite F, H1 in EX. cbn [x_kids] in EX. rewrite C3, EJ in EX. inversion EX. reflexivity.
  - apply all_loads in EX. congruence.
Qed.

(** ** looks *)

Lemma color_again c : Forall (color_printable show) [c_r c; c_g c; c_b c; c_a c] -> color_init (color2str show c) = Some (true, again_color show c).
Proof.
  intros F. unfold color_init.
  assert (Fp : Forall P [c_r c; c_g c; c_b c; c_a c]) by (revert F; apply Forall_impl; intros x (H & _); exact H).
  assert (S : shades (color2str show c) [ag (c_r c); ag (c_g c); ag (c_b c); ag (c_a c)]).
  { exists (map show [c_r c; c_g c; c_b c; c_a c]). split; [now apply words_values|]. cbn [map].
    repeat match goal with H : Forall (color_printable show) (_ :: _) |- _ => let H1 := fresh "H1" in let H2 := fresh "H2" in inversion H as [|? ? (H1 & H2) ?]; subst; clear H; apply again_read in H1 end.
    repeat (constructor; [split; assumption|]). constructor. }
  apply shades_iff in S. rewrite S. reflexivity.
Qed.

Lemma material_again m : Forall (color_printable show) (color_numbers m) -> parseMaterial (exportMaterial show m) = (true, again_material show m).
Proof.
  intros F. unfold parseMaterial, exportMaterial, first_child, attribute. cbn [assoc String.eqb Ascii.eqb Bool.eqb x_kids children filter hd_error].
  rewrite (color_again _ F). unfold again_material. destruct (mat_texture m); reflexivity.
Qed.

Definition mesh_named (g : Geometry) : Prop := forall fn sc, g = Mesh fn sc -> fn <> EmptyString.
Lemma geometry_again g : Forall P (geometry_numbers g) -> mesh_named g -> parseGeometry (Some (exportGeometry show g)) = Some (again_geometry show g).
Proof.
  intros F M. destruct g as [r|d|l r|fn sc]; cbn [geometry_numbers] in F; unfold parseGeometry, exportGeometry, first_element; cbn [x_kids filter hd_error tag_of String.eqb Ascii.eqb Bool.eqb].
  - nums. unfold parseSphere, attribute. cbn [assoc String.eqb Ascii.eqb Bool.eqb]. readnums. reflexivity.
  - unfold parseBox, attribute. cbn [assoc String.eqb Ascii.eqb Bool.eqb]. rewrite (vec_again _ F). reflexivity.
  - nums. unfold parseCylinder, attribute. cbn [assoc String.eqb Ascii.eqb Bool.eqb]. readnums. reflexivity.
  - unfold parseMesh, attribute. specialize (M _ _ eq_refl). destruct fn as [|ch fn]; [contradiction|]. cbn [app assoc String.eqb Ascii.eqb Bool.eqb]. rewrite (vec_again _ F). reflexivity.
Qed.

Lemma visual_again v : named v -> Forall P (pose_numbers (vis_origin v) ++ geometry_numbers (vis_geometry v)) -> mesh_named (vis_geometry v) ->
  Forall (color_printable show) (of_option color_numbers (vis_material v)) -> parseVisual (exportVisual show v) = Some (again_visual show v).
Proof.
  intros N F M C. apply Forall_app in F. destruct F as (F1 & F2). unfold parseVisual, parse_origin, first_child. cbn [exportVisual x_kids].
  assert (E1 : children "origin" ([exportPose show (vis_origin v); exportGeometry show (vis_geometry v)] ++ match vis_material v with Some m => [exportMaterial show m] | None => [] end) = [exportPose show (vis_origin v)]) by (destruct (vis_material v); reflexivity).
  assert (E2 : children "geometry" ([exportPose show (vis_origin v); exportGeometry show (vis_geometry v)] ++ match vis_material v with Some m => [exportMaterial show m] | None => [] end) = [exportGeometry show (vis_geometry v)]) by (destruct (vis_material v); reflexivity).
  rewrite E1, E2. cbn [hd_error]. rewrite (pose_again _ F1), (geometry_again _ F2 M).
  unfold again_visual. destruct (vis_material v) as [m|] eqn:Em; [|reflexivity].
  change (children "material" ([exportPose show (vis_origin v); exportGeometry show (vis_geometry v)] ++ [exportMaterial show m])) with [exportMaterial show m]. cbn [hd_error].
  change (attribute "name" (exportMaterial show m)) with (Some (mat_name m)). cbv iota. cbn [of_option] in C. rewrite (material_again _ C), (N _ Em). reflexivity.
Qed.
Lemma collision_again c : Forall P (pose_numbers (col_origin c) ++ geometry_numbers (col_geometry c)) -> mesh_named (col_geometry c) ->
  parseCollision (exportCollision show c) = Some (again_collision show c).
Proof.
  intros F M. apply Forall_app in F. destruct F as (F1 & F2). unfold parseCollision, parse_origin, first_child. cbn [exportCollision x_kids].
  change (children "origin" [exportPose show (col_origin c); exportGeometry show (col_geometry c)]) with [exportPose show (col_origin c)].
  change (children "geometry" [exportPose show (col_origin c); exportGeometry show (col_geometry c)]) with [exportGeometry show (col_geometry c)].
  cbn [hd_error]. rewrite (pose_again _ F1), (geometry_again _ F2 M). reflexivity.
Qed.
Lemma parse_all_map {B C} (f : xml -> option C) (e : B -> xml) (g : B -> C) l : (forall b, In b l -> f (e b) = Some (g b)) -> parse_all f (map e l) = (map g l, true).
Proof.
  induction l as [|b l IH]; intros H; [reflexivity|]. cbn [map parse_all]. rewrite (H b (or_introl eq_refl)), IH; [reflexivity|]. intros b' I. apply H. now right.
Qed.

Definition link_good (kl : string * FLink) : Prop :=
  Forall P (of_option inertial_numbers (ul_inertial (fl_link (snd kl)))) /\
  (forall v, In v (fl_visuals (snd kl)) -> named v /\ Forall P (pose_numbers (vis_origin v) ++ geometry_numbers (vis_geometry v)) /\ mesh_named (vis_geometry v) /\
     Forall (color_printable show) (of_option color_numbers (vis_material v))) /\
  (forall c, In c (fl_collisions (snd kl)) -> Forall P (pose_numbers (col_origin c) ++ geometry_numbers (col_geometry c)) /\ mesh_named (col_geometry c)).

Lemma flink_again kl : link_read kl -> link_good kl -> parseLink_full (exportLink show (snd kl)) = (true, again_link show (snd kl)).
Proof.
  intros (R1 & R2 & R3 & R4) (G1 & G2 & G3). destruct kl as [n f]. cbn [fst snd] in *.
  assert (K : x_kids (exportLink show f) = match ul_inertial (fl_link f) with Some i => [exportInertial show i] | None => [] end ++ map (exportVisual show) (fl_visuals f) ++ map (exportCollision show) (fl_collisions f)) by reflexivity.
  assert (C1 : children "inertial" (x_kids (exportLink show f)) = match ul_inertial (fl_link f) with Some i => [exportInertial show i] | None => [] end).
  { rewrite K, !children_app. rewrite (children_none (exportVisual show) "inertial" "visual") by (try discriminate; unfold exportVisual; eauto).
    rewrite (children_none (exportCollision show) "inertial" "collision") by (try discriminate; unfold exportCollision; eauto). rewrite !app_nil_r. destruct (ul_inertial (fl_link f)); reflexivity. }
  assert (C2 : children "visual" (x_kids (exportLink show f)) = map (exportVisual show) (fl_visuals f)).
  { rewrite K, !children_app. rewrite (children_same (exportVisual show) "visual") by (unfold exportVisual; eauto).
    rewrite (children_none (exportCollision show) "visual" "collision") by (try discriminate; unfold exportCollision; eauto). rewrite !app_nil_r. destruct (ul_inertial (fl_link f)); reflexivity. }
  assert (C3 : children "collision" (x_kids (exportLink show f)) = map (exportCollision show) (fl_collisions f)).
  { rewrite K, !children_app. rewrite (children_same (exportCollision show) "collision") by (unfold exportCollision; eauto).
    rewrite (children_none (exportVisual show) "collision" "visual") by (try discriminate; unfold exportVisual; eauto). destruct (ul_inertial (fl_link f)); reflexivity. }
  unfold parseLink_full. change (attribute "name" (exportLink show f)) with (Some (ul_name (fl_link f))). cbv iota. unfold first_child. rewrite C1, C2, C3.
  rewrite (parse_all_map _ _ (again_visual show)) by (intros v I; destruct (G2 v I) as (? & ? & ? & ?); now apply visual_again).
  rewrite (parse_all_map _ _ (again_collision show)) by (intros c I; destruct (G3 c I) as (? & ?); now apply collision_again).
  assert (EI : option_map parseInertial (hd_error match ul_inertial (fl_link f) with Some i => [exportInertial show i] | None => [] end) = option_map (fun i => (true, again_inertial show i)) (ul_inertial (fl_link f))).
  { destruct (ul_inertial (fl_link f)) as [i|]; [|reflexivity]. cbn [hd_error option_map]. cbn [of_option] in G1. now rewrite (inertial_again _ G1). }
  rewrite EI. unfold again_link, again_ulink. rewrite R2, R3, R4. destruct (ul_inertial (fl_link f)); cbn [option_map negb]; destruct (fl_visuals f), (fl_collisions f); reflexivity.
Qed.

Definition amats (ms : list (string * Material)) : list (string * Material) := map (fun km => (fst km, again_material show (snd km))) ms.
Lemma assign_again v ms : settled ms v -> assignMaterial (again_visual show v) (amats ms) = (again_visual show v, amats ms, true).
Proof.
  intros (N & H). unfold assignMaterial, again_visual. cbn [vis_material_name vis_material]. destruct (vis_material v) as [m|] eqn:Em; [|reflexivity].
  destruct (vis_material_name v) as [|ch nm] eqn:En; [reflexivity|]. unfold amats at 1. rewrite assoc_map_snd, (H m eq_refl) by discriminate. reflexivity.
Qed.
Lemma assign_visuals_again vs ms : Forall (settled ms) vs -> assign_visuals (map (again_visual show) vs) (amats ms) = (map (again_visual show) vs, amats ms).
Proof. induction 1 as [|v vs H F IH]; [reflexivity|]. cbn [map assign_visuals]. rewrite (assign_again _ _ H), IH. reflexivity. Qed.
Lemma assign_link_again f ms : Forall (settled ms) (fl_visuals f) -> assign_link (again_link show f) (amats ms) = (again_link show f, amats ms).
Proof.
  intros F. unfold assign_link, again_link. cbn [fl_visual fl_visuals fl_link fl_collision fl_collisions].
  pose proof (assign_visuals_again _ _ F) as V. destruct (fl_visuals f) as [|v vs]; [reflexivity|]. cbn [some_left map] in *. inversion F as [|? ? F1 F2]; subst.
  rewrite (assign_again _ _ F1), V. reflexivity.
Qed.

Lemma read_flinks l ms : forall acc, ksorted (acc ++ l) -> Forall link_read l -> Forall link_good l -> Forall (fun kl => Forall (settled ms) (fl_visuals (snd kl))) l ->
  parse_links_full (map (fun kl => exportLink show (snd kl)) l) (map (fun kl => (fst kl, again_link show (snd kl))) acc) (amats ms) =
  Some (map (fun kl => (fst kl, again_link show (snd kl))) (acc ++ l), amats ms).
Proof.
  induction l as [|[n f] l IH]; intros acc S R G V; [now rewrite app_nil_r|]. inversion R as [|? ? R1 R5]; subst. inversion G as [|? ? G1 G2]; subst. inversion V as [|? ? V1 V2]; subst.
  cbn [map parse_links_full]. pose proof (flink_again _ R1 G1) as E. destruct R1 as (R1 & _). cbn [fst snd] in *. rewrite E. cbn [again_link fl_link again_ulink ul_name]. rewrite <- R1.
  fold (again_link show f).
  assert (L : forall y, In y (map fst (map (fun kl : string * FLink => (fst kl, again_link show (snd kl))) acc)) -> name_lt y n).
  { rewrite !map_map. cbn [fst]. rewrite map_app in S. cbn [map fst] in S. apply (sorted_snoc _ _ _ S). }
  rewrite (assoc_new _ _ L), (assign_link_again _ _ V1), (map_insert_last _ _ _ L).
  change [(n, again_link show f)] with (map (fun kl : string * FLink => (fst kl, again_link show (snd kl))) [(n, f)]).
  rewrite <- !map_app. rewrite IH; auto; rewrite <- app_assoc; [reflexivity|exact S].
Qed.
Lemma read_materials l : forall acc, ksorted (acc ++ l) -> Forall mat_keyed l -> Forall (fun km => Forall (color_printable show) (color_numbers (snd km))) l ->
  parse_materials (map (fun e => exportMaterial show (snd e)) l) (amats acc) = Some (amats (acc ++ l)).
Proof.
  induction l as [|[n m] l IH]; intros acc S R G; [now rewrite app_nil_r|]. inversion R as [|? ? R1 R5]; subst. inversion G as [|? ? G1 G2]; subst. cbn [fst snd] in *.
  cbn [map parse_materials snd]. rewrite (material_again _ G1). cbn [again_material mat_name]. unfold mat_keyed in R1. cbn [fst snd] in R1. rewrite <- R1.
  assert (L : forall y, In y (map fst (amats acc)) -> name_lt y n).
  { unfold amats. rewrite !map_map. cbn [fst]. rewrite map_app in S. cbn [map fst] in S. apply (sorted_snoc _ _ _ S). }
  rewrite (assoc_new _ _ L), (map_insert_last _ _ _ L).
  replace (amats acc ++ [(n, again_material show m)]) with (amats (acc ++ [(n, m)])) by (unfold amats; now rewrite map_app).
  rewrite IH; auto; rewrite <- app_assoc; [reflexivity|exact S].
Qed.

Theorem looks_again top X : parseURDF_all (Some top) = Some X ->
  (forall x, In x (kinematic_numbers X ++ look_numbers X) -> P x) -> (forall x, In x (colors X) -> color_printable show x) -> named_meshes X ->
  exists X', again_file show X = Some X' /\ fm_materials (xm_model X') = amats (fm_materials (xm_model X)) /\
    fm_links (xm_model X') = map (fun kl => (fst kl, again_link show (snd kl))) (fm_links (xm_model X)).
Proof.
  intros E N C M. destruct (file_again top X E) as (X' & EX & _). { intros x I. apply N, in_app_iff. now left. }
  exists X'. split; [exact EX|]. unfold again_file in EX. destruct (parts _ _ EX) as (r' & ms0' & [Q1 Q2 Q3 Q4 _ _ _ _ _]).
  destruct (parts _ _ E) as (r & ms0 & [P1 P2 P3 P4 P5 P6 P7 P8 P9]).
  destruct (links_read _ _ _ _ _ P4) as (SL & RL); [constructor|constructor|].
  assert (K0 : keyed ms0) by (eapply materials_keyed; [exact P3|]; split; constructor).
  assert (K : keyed (fm_materials (xm_model X))) by (eapply links_keyed; [exact P4|exact K0]).
  pose proof (links_settled _ _ _ _ _ P4 K0 (Forall_nil _)) as ST.
  assert (GL : Forall link_good (fm_links (xm_model X))).
  { apply Forall_forall. intros kl I. split; [|split].
    - apply Forall_forall. intros x Ix. apply N. apply in_app_iff. left. unfold kinematic_numbers. apply in_app_iff. left.
      apply (in_map (fun kl => ul_inertial (fl_link (snd kl)))) in I. pose proof (tree_inertials _ _ _ P8) as T. rewrite map_map in T. unfold klink in T. cbn [snd] in T.
      rewrite <- T in I. apply in_map_iff in I. destruct I as (kl' & E' & I). apply in_flat_map. exists kl'. split; [exact I|]. now rewrite E'.
    - intros v Iv. split; [|split; [|split]].
      + rewrite Forall_forall in ST. specialize (ST _ I). rewrite Forall_forall in ST. apply (ST _ Iv).
      + apply Forall_forall. intros x Ix. apply N. apply in_app_iff. right. unfold look_numbers. apply in_flat_map. exists kl. split; [exact I|]. apply in_app_iff. left. apply in_flat_map. eauto.
      + destruct kl as [n f]. intros fn sc Eg. exact (proj1 (M n f I) v fn sc Iv Eg).
      + apply Forall_forall. intros x Ix. apply C. unfold colors. apply in_app_iff. right. apply in_flat_map. exists kl. split; [exact I|]. apply in_flat_map. eauto.
    - intros c Ic. split.
      + apply Forall_forall. intros x Ix. apply N. apply in_app_iff. right. unfold look_numbers. apply in_flat_map. exists kl. split; [exact I|]. apply in_app_iff. right. apply in_flat_map. eauto.
      + destruct kl as [n f]. intros fn sc Eg. exact (proj2 (M n f I) c fn sc Ic Eg). }
  assert (GM : Forall (fun km => Forall (color_printable show) (color_numbers (snd km))) (fm_materials (xm_model X))).
  { apply Forall_forall. intros km I. apply Forall_forall. intros x Ix. apply C. unfold colors. apply in_app_iff. left. apply in_flat_map. eauto. }
  set (kids := map (fun e => exportMaterial show (snd e)) (fm_materials (xm_model X)) ++ map (fun e => exportLink show (snd e)) (fm_links (xm_model X)) ++ map (fun e => exportJoint show (snd e)) (xm_joints X)).
  assert (C1 : children "material" kids = map (fun e => exportMaterial show (snd e)) (fm_materials (xm_model X))).
  { unfold kids. rewrite !children_app, (children_same _ "material"), (children_none _ "material" "link"), (children_none _ "material" "joint"), !app_nil_r; try discriminate; unfold exportMaterial, exportLink, exportJoint; eauto. }
  assert (C2 : children "link" kids = map (fun e => exportLink show (snd e)) (fm_links (xm_model X))).
  { unfold kids. rewrite !children_app, (children_none _ "link" "material"), (children_same _ "link"), (children_none _ "link" "joint"), app_nil_r; try discriminate; unfold exportMaterial, exportLink, exportJoint; eauto. }
  assert (H1 : hd_error (children "robot" (exportURDF show X)) = Some (XElem "robot" [("name", mi_name (fm_mi (xm_model X)))]%string kids)) by reflexivity.
  rewrite H1 in Q1. inversion Q1. subst r'. cbn [x_kids] in Q3, Q4. rewrite C1 in Q3. rewrite C2 in Q4.
  destruct K as (SM & KM). pose proof (read_materials _ [] SM KM GM) as RM. change (amats []) with (@nil (string * Material)) in RM. cbn [app] in RM. rewrite RM in Q3. inversion Q3. subst ms0'.
  pose proof (read_flinks _ _ [] SL RL GL ST) as RF. cbn [app map] in RF. rewrite RF in Q4. inversion Q4. split; reflexivity.
Qed.

End Show.

End PfExport.
