(** What exportURDF writes of a description that was read can be printed and read back: its
    strings are values of attributes that were read. *)
From Coq Require Import QArith ZArith Reals String List Arith NArith Ascii Bool Lia.
From Verif Require Import Base Num Pose DataStructure Urdf Kin TinyXml Appear Export Show Print Spec_Xml Spec_Print
  Pf_Xml1 Pf_Xml3 Pf_Xml4 Pf_Xml6 Ex_Xml Pf_Print.
Import ListNotations.
Local Open Scope string_scope.

Section Strings.
Context `{A : Arith} (P : string -> Prop) (P0 : P "").
Definition vals (x : xml) : Prop := forall v, In v (values x) -> P v.
Definition all_vals (l : list xml) : Prop := Forall vals l.

Lemma assoc_in {B} k (l : list (string * B)) b : assoc k l = Some b -> In (k, b) l.
Proof. induction l as [|[k' b'] l IH]; [discriminate|]. cbn. destruct (String.eqb k k') eqn:E; [|auto]. apply String.eqb_eq in E as <-. intros [= ->]. left. reflexivity. Qed.
Lemma attr_vals n x v : vals x -> attribute n x = Some v -> P v.
Proof.
  destruct x as [t l k|]; [|discriminate]. intros V E. apply V. cbn [values]. apply in_or_app. left. apply assoc_in in E.
  exact (in_map snd _ _ E).
Qed.
Lemma kids_vals x : vals x -> all_vals (x_kids x).
Proof.
  destruct x as [t l k|]; [|constructor]. intros V. apply Forall_forall. intros y I v J. apply V. cbn [values]. apply in_or_app. right.
  apply in_flat_map. exists y. split; assumption.
Qed.
Lemma children_vals tag l : all_vals l -> all_vals (children tag l).
Proof. intros V. apply Forall_forall. intros y I. apply filter_In in I as [I _]. exact (proj1 (Forall_forall _ _) V y I). Qed.
Lemma hd_vals l x : all_vals l -> hd_error l = Some x -> vals x.
Proof. destruct l as [|y l]; [discriminate|]. intros V [= <-]. exact (Forall_inv V). Qed.
Lemma first_vals tag x e : vals x -> first_child tag x = Some e -> vals e.
Proof. intros V E. exact (hd_vals _ _ (children_vals tag _ (kids_vals x V)) E). Qed.
Lemma first_element_vals x e : vals x -> first_element x = Some e -> vals e.
Proof.
  intros V E. refine (hd_vals _ _ _ E). apply Forall_forall. intros y I. apply filter_In in I as [I _].
  exact (proj1 (Forall_forall _ _) (kids_vals x V) y I).
Qed.

Definition geometry_strings (g : Geometry) : Prop := match g with Mesh f _ => P f | _ => True end.
Definition material_strings (m : Material) : Prop := P (mat_name m) /\ P (mat_texture m).
Definition visual_strings (v : Visual) : Prop := geometry_strings (vis_geometry v) /\ (forall m, vis_material v = Some m -> material_strings m).
Definition link_strings (l : FLink) : Prop :=
  P (ul_name (fl_link l)) /\ Forall visual_strings (fl_visuals l) /\ Forall (fun c => geometry_strings (col_geometry c)) (fl_collisions l).
Definition joint_strings (j : FJoint) : Prop :=
  let u := fj_joint j in
  P (uj_name u) /\ P (uj_parent u) /\ P (uj_child u) /\ (forall m, uj_mimic u = Some m -> P (mimic_joint m)).
Definition model_strings (X : XModel) : Prop :=
  P (mi_name (fm_mi (xm_model X))) /\ Forall (fun e => material_strings (snd e)) (fm_materials (xm_model X)) /\
  Forall (fun e => link_strings (snd e)) (fm_links (xm_model X)) /\ Forall (fun e => joint_strings (snd e)) (xm_joints X).

Lemma insert_all {B} (Q : B -> Prop) k b (l : list (string * B)) : Q b -> Forall (fun e => Q (snd e)) l -> Forall (fun e => Q (snd e)) (map_insert k b l).
Proof.
  intros H. induction 1 as [|[k' b'] l H' F IH]; [constructor; [exact H|constructor]|]. cbn [map_insert].
  destruct (String.compare k k'); constructor; auto.
Qed.
Lemma assoc_all {B} (Q : B -> Prop) k b (l : list (string * B)) : Forall (fun e => Q (snd e)) l -> assoc k l = Some b -> Q b.
Proof. intros F E. apply assoc_in in E. exact (proj1 (Forall_forall _ _) F _ E). Qed.

Lemma material_read x : vals x -> material_strings (snd (parseMaterial x)).
Proof.
  intros V. unfold parseMaterial. destruct (attribute "name" x) as [n|] eqn:E; [|split; exact P0].
  assert (T : P (match match first_child "texture" x with None => None | Some t => attribute "filename" t end with None => EmptyString | Some f => f end)).
  { destruct (first_child "texture" x) as [t|] eqn:T; [|exact P0]. destruct (attribute "filename" t) as [f|] eqn:F; [|exact P0].
    exact (attr_vals _ _ _ (first_vals _ _ _ V T) F). }
  match goal with |- context [let '(_, _) := ?e in _] => destruct e as [b c] end.
  split; cbn [snd mat_name mat_texture]; [exact (attr_vals _ _ _ V E)|exact T].
Qed.
Lemma geometry_read g x : vals x -> first_child "geometry" x = g -> forall G, parseGeometry g = Some G -> geometry_strings G.
Proof.
  intros V E G. destruct g as [g|]; [|discriminate]. cbn [parseGeometry]. destruct (first_element g) as [s|] eqn:F; [|discriminate].
  assert (VS : vals s) by exact (first_element_vals _ _ (first_vals _ _ _ V E) F).
  destruct (String.eqb (tag_of s) "sphere").
  { unfold parseSphere. destruct (attribute "radius" s); [|discriminate]. destruct (str_to_double _); [|discriminate]. intros [= <-]. exact I. }
  destruct (String.eqb (tag_of s) "box").
  { unfold parseBox. destruct (attribute "size" s); [|discriminate]. destruct (v_init _); [|discriminate]. intros [= <-]. exact I. }
  destruct (String.eqb (tag_of s) "cylinder").
  { unfold parseCylinder. destruct (attribute "length" s); [|discriminate]. destruct (attribute "radius" s); [|discriminate].
    destruct (str_to_double _); [|discriminate]. destruct (str_to_double _); [|discriminate]. intros [= <-]. exact I. }
  destruct (String.eqb (tag_of s) "mesh"); [|discriminate].
  unfold parseMesh. destruct (attribute "filename" s) as [f|] eqn:FN; [|discriminate]. pose proof (attr_vals _ _ _ VS FN) as PF.
  destruct (attribute "scale" s); [destruct (v_init _); [|discriminate]|]; intros [= <-]; exact PF.
Qed.
Lemma visual_read x v : vals x -> parseVisual x = Some v -> visual_strings v.
Proof.
  intros V. unfold parseVisual. destruct (parse_origin x); [|discriminate]. destruct (parseGeometry _) as [g|] eqn:G; [|discriminate].
  pose proof (geometry_read _ x V eq_refl g G) as HG. destruct (first_child "material" x) as [m|] eqn:M.
  - destruct (attribute "name" m); [|discriminate]. pose proof (material_read m (first_vals _ _ _ V M)) as HM. destruct (parseMaterial m) as [ok mat].
    intros [= <-]. split; [exact HG|]. cbn [vis_material]. intros m'. destruct ok; [|discriminate]. intros [= <-]. exact HM.
  - intros [= <-]. split; [exact HG|]. discriminate.
Qed.
Lemma collision_read x c : vals x -> parseCollision x = Some c -> geometry_strings (col_geometry c).
Proof.
  intros V. unfold parseCollision. destruct (parse_origin x); [|discriminate]. destruct (parseGeometry _) as [g|] eqn:G; [|discriminate].
  intros [= <-]. exact (geometry_read _ x V eq_refl g G).
Qed.
Lemma all_read {B} (f : xml -> option B) (Q : B -> Prop) : (forall x b, vals x -> f x = Some b -> Q b) ->
  forall l, all_vals l -> Forall Q (fst (parse_all f l)).
Proof.
  intros H. induction 1 as [|x l V _ IH]; [constructor|]. cbn [parse_all]. destruct (f x) as [b|] eqn:E; [|constructor].
  destruct (parse_all f l) as [r ok]. constructor; [exact (H x b V E)|exact IH].
Qed.
Lemma link_read x : vals x -> link_strings (snd (parseLink_full x)).
Proof.
  intros V. unfold parseLink_full. destruct (attribute "name" x) as [n|] eqn:E; [|repeat split; [exact P0|constructor|constructor]].
  pose proof (attr_vals _ _ _ V E) as PN.
  pose proof (all_read parseVisual visual_strings visual_read _ (children_vals "visual" _ (kids_vals x V))) as HV.
  pose proof (all_read parseCollision _ collision_read _ (children_vals "collision" _ (kids_vals x V))) as HC.
  destruct (parse_all parseVisual _) as [vs ok]. destruct (parse_all parseCollision _) as [cs ok']. cbn [fst] in HV, HC.
  destruct (option_map parseInertial (first_child "inertial" x)) as [[[|] i]|]; cbn [snd];
    try (destruct ok; cbn [negb]); try (destruct ok'; cbn [negb]); split; try exact PN; split; cbn [fl_visuals fl_collisions snd]; try assumption; constructor.
Qed.
Lemma assign_strings v ms v' ms' b : visual_strings v -> Forall (fun e => material_strings (snd e)) ms -> assignMaterial v ms = (v', ms', b) ->
  visual_strings v' /\ Forall (fun e => material_strings (snd e)) ms'.
Proof.
  intros [HG HM] F. unfold assignMaterial. destruct (vis_material_name v) as [|c n]; [intros [= <- <- <-]; split; [split|]; assumption|].
  destruct (assoc (String c n) ms) as [m|] eqn:E.
  - intros [= <- <- <-]. split; [|exact F]. split; [exact HG|]. intros m' [= <-]. exact (assoc_all _ _ _ _ F E).
  - destruct (vis_material v) as [m|] eqn:M; intros [= <- <- <-]; (split; [split; [exact HG|rewrite M; exact HM]|]); [|exact F].
    apply insert_all; [exact (HM m eq_refl)|exact F].
Qed.
Lemma assign_all_strings vs : forall ms vs' ms', Forall visual_strings vs -> Forall (fun e => material_strings (snd e)) ms -> assign_visuals vs ms = (vs', ms') ->
  Forall visual_strings vs' /\ Forall (fun e => material_strings (snd e)) ms'.
Proof.
  induction vs as [|v vs IH]; intros ms vs' ms' V F; cbn [assign_visuals]; [intros [= <- <-]; split; [constructor|exact F]|].
  destruct (assignMaterial v ms) as [[v1 ms1] b] eqn:E. destruct (assign_strings _ _ _ _ _ (Forall_inv V) F E) as [V1 F1].
  destruct (assign_visuals vs ms1) as [t ms2] eqn:E2. destruct (IH _ _ _ (Forall_inv_tail V) F1 E2) as [V2 F2].
  intros [= <- <-]. split; [constructor; assumption|exact F2].
Qed.
Lemma assign_link_strings l ms l' ms' : link_strings l -> Forall (fun e => material_strings (snd e)) ms -> assign_link l ms = (l', ms') ->
  link_strings l' /\ Forall (fun e => material_strings (snd e)) ms'.
Proof.
  intros (N & V & C) F. unfold assign_link.
  assert (S : exists vs ms1, (match fl_visual l, fl_visuals l with
                    | true, v :: t => let '(v', ms1, _) := assignMaterial v ms in (v' :: t, ms1)
                    | _, vs => (vs, ms)
                    end) = (vs, ms1) /\ Forall visual_strings vs /\ Forall (fun e => material_strings (snd e)) ms1).
  { destruct (fl_visual l); [|exists (fl_visuals l), ms; repeat split; assumption].
    destruct (fl_visuals l) as [|v t]; [exists [], ms; repeat split; [constructor|exact F]|].
    destruct (assignMaterial v ms) as [[v1 ms1] b] eqn:E. destruct (assign_strings _ _ _ _ _ (Forall_inv V) F E) as [V1 F1].
    exists (v1 :: t), ms1. split; [reflexivity|]. split; [constructor; [exact V1|exact (Forall_inv_tail V)]|exact F1]. }
  destruct S as (vs & ms1 & -> & V1 & F1). destruct (assign_visuals vs ms1) as [vs' ms2] eqn:E2.
  destruct (assign_all_strings _ _ _ _ V1 F1 E2) as [V2 F2]. intros [= <- <-]. split; [|exact F2]. split; [exact N|]. split; [exact V2|exact C].
Qed.
Lemma links_read l : forall acc ms r ms', all_vals l -> Forall (fun e => link_strings (snd e)) acc -> Forall (fun e => material_strings (snd e)) ms ->
  parse_links_full l acc ms = Some (r, ms') -> Forall (fun e => link_strings (snd e)) r /\ Forall (fun e => material_strings (snd e)) ms'.
Proof.
  induction l as [|x l IH]; intros acc ms r ms' V HA HM; cbn [parse_links_full]; [intros [= <- <-]; split; assumption|].
  pose proof (link_read x (Forall_inv V)) as HL. destruct (parseLink_full x) as [ok lk]. cbn [snd] in HL.
  destruct (assoc _ acc); [discriminate|]. destruct (assign_link lk ms) as [lk' ms1] eqn:E. destruct (assign_link_strings _ _ _ _ HL HM E) as [L1 M1].
  apply IH; [exact (Forall_inv_tail V)|apply insert_all; assumption|exact M1].
Qed.
Lemma materials_read l : forall acc r, all_vals l -> Forall (fun e => material_strings (snd e)) acc -> parse_materials l acc = Some r -> Forall (fun e => material_strings (snd e)) r.
Proof.
  induction l as [|x l IH]; intros acc r V HA; cbn [parse_materials]; [intros [= <-]; exact HA|].
  pose proof (material_read x (Forall_inv V)) as HM. destruct (parseMaterial x) as [ok m]. cbn [snd] in HM. destruct (assoc _ acc); [discriminate|].
  apply IH; [exact (Forall_inv_tail V)|apply insert_all; assumption].
Qed.
Lemma link_ref_read tag x : vals x -> P (link_ref tag x).
Proof.
  intros V. unfold link_ref. destruct (first_child tag x) as [p|] eqn:E; [|exact P0]. destruct (attribute "link" p) eqn:F; [|exact P0].
  exact (attr_vals _ _ _ (first_vals _ _ _ V E) F).
Qed.
Lemma joint_read x j : vals x -> parseJoint_full x = Some j -> joint_strings j.
Proof.
  intros V. unfold parseJoint_full. destruct (parseJoint x) as [u|] eqn:E; [|discriminate].
  destruct (read_child "safety_controller" _ x); [|discriminate]. destruct (read_child "calibration" _ x); [|discriminate]. destruct (read_child "dynamics" _ x); [|discriminate].
  intros [= <-]. unfold joint_strings. cbn [fj_joint]. revert E. unfold parseJoint.
  destruct (attribute "name" x) as [n|] eqn:N; [|discriminate]. destruct (parse_joint_origin x); [|discriminate]. destruct (attribute "type" x); [|discriminate].
  destruct (joint_type_of_string _); [|discriminate]. destruct (parse_axis _ x); [|discriminate]. destruct (parse_limit _ x); [|discriminate].
  destruct (negb _); [discriminate|]. destruct (negb _); [discriminate|]. destruct (parse_mimic x) as [mim|] eqn:M; [|discriminate]. destruct (negb _); [discriminate|].
  intros [= <-]. cbn [uj_name uj_parent uj_child uj_mimic]. split; [exact (attr_vals _ _ _ V N)|]. split; [apply link_ref_read, V|]. split; [apply link_ref_read, V|].
  revert M. unfold parse_mimic. destruct (first_child "mimic" x) as [e|] eqn:E; [|intros [= <-]; discriminate].
  destruct (parseJointMimic e) as [m|] eqn:M; [|discriminate]. intros [= <-] m' [= <-]. revert M. unfold parseJointMimic.
  destruct (attribute "joint" e) as [sj|] eqn:J; [|discriminate]. destruct (num_attr _ _ _); [|discriminate]. destruct (num_attr _ _ _); [|discriminate].
  intros [= <-]. exact (attr_vals _ _ _ (first_vals _ _ _ V E) J).
Qed.
Lemma joints_read l : forall acc r, all_vals l -> Forall (fun e => joint_strings (snd e)) acc -> parse_joints_full l acc = Some r -> Forall (fun e => joint_strings (snd e)) r.
Proof.
  induction l as [|x l IH]; intros acc r V HA; cbn [parse_joints_full]; [intros [= <-]; exact HA|].
  destruct (parseJoint_full x) as [j|] eqn:E; [|discriminate]. pose proof (joint_read x j (Forall_inv V) E) as HJ. destruct (assoc _ acc); [discriminate|].
  apply IH; [exact (Forall_inv_tail V)|apply insert_all; assumption].
Qed.
Lemma model_read top X : all_vals top -> parseURDF_all (Some top) = Some X -> model_strings X.
Proof.
  intros V. unfold parseURDF_all, parseURDF_full. destruct (hd_error (children "robot" top)) as [robot|] eqn:R; [|discriminate].
  assert (VR : vals robot) by exact (hd_vals _ _ (children_vals _ _ V) R). pose proof (kids_vals _ VR) as VK.
  destruct (attribute "name" robot) as [n|] eqn:N; [|discriminate]. destruct (negb _); [discriminate|]. unfold parse_robot_kids_full.
  destruct (parse_materials _ []) as [ms|] eqn:M; [|discriminate]. pose proof (materials_read _ _ _ (children_vals _ _ VK) (Forall_nil _) M) as HM.
  destruct (parse_links_full _ [] ms) as [[fls ms']|] eqn:L; [|discriminate].
  destruct (links_read _ _ _ _ _ (children_vals _ _ VK) (Forall_nil _) HM L) as [HL HM'].
  destruct fls as [|fl fls]; [discriminate|]. destruct (parse_joints _ []); [|discriminate]. destruct (initTree _ _); [|discriminate]. destruct (initRoot _); [|discriminate].
  destruct (parse_joints_full _ []) as [js|] eqn:J; [|discriminate]. pose proof (joints_read _ _ _ (children_vals _ _ VK) (Forall_nil _) J) as HJ.
  intros [= <-]. split; [exact (attr_vals _ _ _ VR N)|]. split; [exact HM'|]. split; [exact HL|exact HJ].
Qed.
End Strings.

(** ** What is written *)
Definition good (v : string) : Prop := utf8_text v /\ no_reference v.
Definition plain_char (c : ascii) : Prop := byte_in 32 126 c /\ c <> "&"%char.
Lemma each_plain_good s : each plain_char s -> good s.
Proof.
  intros E. split; [apply ascii_utf8; revert E; apply each_imp; intros c [[L H] _]; unfold byte_in in *; lia|].
  intros a b ->. apply each_app in E as [_ [[_ E] _]]. exact (E eq_refl).
Qed.
Lemma word_plain s : plain_word s -> each plain_char s.
Proof. apply each_imp. intros c [[L H] N]. split; [unfold byte_in in *; lia|]. intros ->. apply N. cbn. tauto. Qed.
Lemma good_nil : good "".
Proof. apply each_plain_good. exact I. Qed.

Lemma node n l k : nameb n = true -> forallb nameb (map fst l) = true -> nodupb (map fst l) = true -> Forall good (map snd l) ->
  Forall printable_tree k -> printable_tree (XElem n l k).
Proof.
  intros N L D G K. cbn [printable_tree]. split; [apply nameb_ok, N|]. split; [|split; [apply nodupb_ok, D|]].
  - rewrite forallb_forall in L. rewrite Forall_forall in G. apply Forall_forall. intros [a v] J.
    split; [apply nameb_ok, L, (in_map fst _ _ J)|exact (G _ (in_map snd _ _ J))].
  - induction K; [exact I|]. split; assumption.
Qed.

Section Written.
Context `{A : Arith} (show : num -> string) (SH : forall x, plain_word (show x)).
Lemma show_good x : good (show x).
Proof. apply each_plain_good, word_plain, SH. Qed.
Lemma values_good l : good (values2str show l).
Proof.
  apply each_plain_good. induction l as [|x l IH]; [exact I|]. cbn [values2str]. destruct l as [|y l]; [apply word_plain, SH|].
  apply each_app. split; [apply word_plain, SH|]. split; [|exact IH]. split; [unfold byte_in; cbn; lia|discriminate].
Qed.
Ltac written := apply node; [reflexivity|reflexivity|reflexivity|cbn [map snd]; repeat (first [apply Forall_nil|apply Forall_cons]); first [assumption|apply show_good|apply values_good]|repeat (first [apply Forall_nil|apply Forall_cons])].
Lemma pose_written p : printable_tree (exportPose show p).
Proof. unfold exportPose. written. Qed.
Lemma material_written m : material_strings good m -> printable_tree (exportMaterial show m).
Proof.
  intros [N T]. unfold exportMaterial. written; [|written]. destruct (mat_texture m); written.
Qed.
Lemma geometry_written g : geometry_strings good g -> printable_tree (exportGeometry show g).
Proof.
  intros G. unfold exportGeometry. written. destruct g as [r|d|l r|f s]; [written|written|written|].
  cbn in G. destruct f as [|c f]; written.
Qed.
Lemma inertial_written i : printable_tree (exportInertial show i).
Proof. unfold exportInertial. written; [written|apply pose_written|written]. Qed.
Lemma visual_written v : visual_strings good v -> printable_tree (exportVisual show v).
Proof.
  intros [G M]. unfold exportVisual. apply node; try reflexivity; [constructor|]. apply Forall_app. split.
  - constructor; [apply pose_written|]. constructor; [apply geometry_written, G|constructor].
  - destruct (vis_material v) as [m|]; [|constructor]. constructor; [apply material_written, M; reflexivity|constructor].
Qed.
Lemma collision_written c : geometry_strings good (col_geometry c) -> printable_tree (exportCollision show c).
Proof. intros G. unfold exportCollision. written; [apply pose_written|apply geometry_written, G]. Qed.
Lemma link_written l : link_strings good l -> printable_tree (exportLink show l).
Proof.
  intros (N & V & C). unfold exportLink. apply node; try reflexivity; [constructor; [exact N|constructor]|]. rewrite !Forall_app. split; [|split].
  - destruct (ul_inertial (fl_link l)); [|constructor]. constructor; [apply inertial_written|constructor].
  - apply Forall_map. revert V. apply Forall_impl. exact visual_written.
  - apply Forall_map. revert C. apply Forall_impl. exact collision_written.
Qed.
Lemma joint_written j : joint_strings good j -> printable_tree (exportJoint show j).
Proof.
  intros (N & PA & CH & M). unfold exportJoint. set (u := fj_joint j) in *.
  assert (T : forall t, type_name (uj_type u) = Some t -> good t).
  { intros t. destruct (uj_type u); intros [= <-]; apply each_plain_good; cbn; unfold plain_char, byte_in; cbn; repeat split; try lia; discriminate. }
  apply node; [reflexivity|destruct (type_name (uj_type u)); reflexivity|destruct (type_name (uj_type u)); reflexivity| |].
  - constructor; [exact N|]. destruct (type_name (uj_type u)) as [t|]; [constructor; [exact (T t eq_refl)|constructor]|constructor].
  - rewrite !Forall_app. split; [destruct (type_name (uj_type u)); constructor; [apply pose_written|constructor]|]. split; [|split; [|split; [|split; [|split]]]].
    + constructor; [|constructor; [|constructor; [|constructor]]]; written.
    + destruct (fj_dynamics j); repeat (first [apply Forall_nil|apply Forall_cons]). written.
    + destruct (uj_limits u); repeat (first [apply Forall_nil|apply Forall_cons]). written.
    + destruct (fj_safety j); repeat (first [apply Forall_nil|apply Forall_cons]). written.
    + destruct (fj_calibration j) as [c|]; [|constructor]. unfold exportJointCalibration. destruct (falling c), (rising c); repeat (first [apply Forall_nil|apply Forall_cons]); written.
    + destruct (uj_mimic u) as [m|]; [|constructor]. unfold exportJointMimic. specialize (M m eq_refl). destruct (mimic_joint m); repeat (first [apply Forall_nil|apply Forall_cons]). written.
Qed.
Lemma robot_written X : model_strings good X -> exists x, exportURDF show X = [x] /\ printable_tree x.
Proof.
  intros (N & M & L & J). eexists. split; [reflexivity|]. apply node; try reflexivity; [constructor; [exact N|constructor]|]. rewrite !Forall_app. split; [|split].
  - apply Forall_map. revert M. apply Forall_impl. intros e. apply material_written.
  - apply Forall_map. revert L. apply Forall_impl. intros e. apply link_written.
  - apply Forall_map. revert J. apply Forall_impl. intros e. apply joint_written.
Qed.
Lemma written_read top X :
  (forall v, In v (flat_map values top) -> utf8_text v /\ no_reference v) -> parseURDF_all (Some top) = Some X ->
  tinyxml_parse (SaveFile (exportURDF show X)) = Ok (Some (exportURDF show X)) /\
  tinyxml_parse (stream_out (exportURDF show X)) = Ok (Some (exportURDF show X)).
Proof.
  intros V E. assert (VT : all_vals good top).
  { apply Forall_forall. intros x I v J. apply V, in_flat_map. exists x. split; assumption. }
  destruct (robot_written X (model_read good good_nil top X VT E)) as (x & -> & PX). destruct (saved_document x PX) as [D1 D2].
  split; [exact (parse_document _ _ D1)|exact (parse_document _ _ D2)].
Qed.
End Written.

(** values of a document in UTF-8 are in UTF-8 *)
Lemma spelled_utf8 Q txt v : spells Q txt v -> utf8_text v.
Proof.
  induction 1 as [|u t v U _ _ IH|w c t v I _ IH|ds c t v _ _ B _ _ IH|ds c t v _ _ B _ _ IH]; [constructor|constructor; assumption| | |]; apply cons_utf8; try assumption.
  cbn in I. repeat (destruct I as [I|I]; [injection I as <- <-; unfold byte_in; cbn; lia|]). destruct I.
Qed.
Lemma attrs_values ats l : attrs_text ats l -> Forall utf8_text (map snd l).
Proof. induction 1; constructor; [eapply spelled_utf8; eassumption|assumption]. Qed.
Lemma elements_values :
  (forall t x, element_text t x -> Forall utf8_text (values x)) /\ (forall t k, content_text t k -> Forall utf8_text (flat_map values k)).
Proof.
  apply element_content_ind; intros; cbn [values flat_map]; try (apply Forall_app; split); try assumption; try constructor; try (eapply attrs_values; eassumption).
Qed.
Lemma misc_values t k : misc_text t k -> flat_map values k = [].
Proof. induction 1; cbn [flat_map values]; auto. Qed.
Lemma document_values text nodes : document_text text nodes -> forall v, In v (flat_map values nodes) -> utf8_text v.
Proof.
  intros (pre & kp & el & x & post & kq & -> & PP & E & M & ->) v. rewrite flat_map_app. cbn [flat_map]. rewrite (misc_values _ _ M), app_nil_r.
  assert (KP : flat_map values kp = []) by (destruct PP; cbn [flat_map values]; eauto using misc_values).
  rewrite KP. cbn [app]. intros I. exact (proj1 (Forall_forall _ _) (proj1 elements_values _ _ E) v I).
Qed.

(** ** How streams print numbers *)
Definition num_char (c : ascii) : Prop := digit c \/ c = "."%char \/ c = "-"%char \/ c = "+"%char \/ c = "e"%char.
Lemma digits_plain k : forall z, each num_char (zdigits k z).
Proof.
  induction k as [|k IH]; intros z; [exact I|]. cbn [zdigits]. apply each_app. split; [apply IH|]. split; [|exact I]. left. unfold digit, byte_in, digit_char.
  pose proof (Z.mod_pos_bound z 10 eq_refl) as B. unfold N_of_ascii. 
  assert (X : N_of_ascii (ascii_of_nat (Z.to_nat (48 + z mod 10))) = Z.to_N (48 + z mod 10)).
  { unfold ascii_of_nat. rewrite N_ascii_embedding; lia. }
  unfold N_of_ascii in X. rewrite X. lia.
Qed.
Lemma strip_plain s : each num_char s -> each num_char (strip0 s).
Proof.
  induction s as [|c s IH]; [auto|]. intros [C E]. cbn [strip0]. specialize (IH E). destruct (strip0 s); [destruct (Ascii.eqb c "0"); [exact I|split; [exact C|exact I]]|].
  split; assumption.
Qed.
Lemma pointed_plain ip fd : each num_char ip -> each num_char fd -> each num_char (pointed ip fd).
Proof.
  intros H1 H2. unfold pointed. pose proof (strip_plain fd H2) as H3. destruct (strip0 fd); [exact H1|]. apply each_app. split; [exact H1|]. split; [right; left; reflexivity|exact H3].
Qed.
Lemma take_plain n : forall s, each num_char s -> each num_char (stake n s) /\ each num_char (Show.sdrop n s).
Proof.
  induction n as [|n IH]; intros [|c s] E; cbn [stake Show.sdrop]; try (split; [exact I|exact E]); try (split; exact I).
  destruct E as [C E]. destruct (IH s E) as [H1 H2]. split; [split; assumption|exact H2].
Qed.
Lemma zeros_plain n : each num_char (zeros n).
Proof. induction n as [|n IH]; [exact I|]. split; [left; unfold digit, byte_in; cbn; lia|exact IH]. Qed.
Lemma print_g_plain m e : each num_char (print_g m e).
Proof.
  assert (Z0 : each num_char "0") by (split; [left; unfold digit, byte_in; cbn; lia|exact I]).
  unfold print_g. cbv zeta. destruct ((-4 <=? e) && (e <? 0))%Z%bool.
  - apply pointed_plain; [exact Z0|]. apply each_app. split; [apply zeros_plain|apply digits_plain].
  - destruct ((0 <=? e) && (e <? 6))%Z%bool; [apply pointed_plain; apply take_plain, digits_plain|].
    apply each_app. split; [apply pointed_plain; apply take_plain, digits_plain|]. unfold exp_part. split; [do 4 right; reflexivity|].
    split; [destruct (e <? 0)%Z; [do 2 right; left|do 3 right; left]; reflexivity|apply digits_plain].
Qed.
Lemma num_word s : each num_char s -> plain_word s.
Proof.
  apply each_imp. intros c [[L H]|[-> |[-> |[-> | ->]]]]; try (split; [unfold byte_in; cbn; lia|cbn; intuition discriminate]).
  split; [unfold byte_in; lia|]. cbn. intuition (subst c; cbn in L, H; lia).
Qed.
Lemma show6_word x : plain_word (show6 x).
Proof.
  apply num_word. unfold show6. destruct (Req_EM_T x 0); [split; [left; unfold digit, byte_in; cbn; lia|exact I]|]. cbv zeta.
  destruct (Rlt_dec x 0); [|apply print_g_plain]. cbn [append]. split; [do 2 right; left; reflexivity|apply print_g_plain].
Qed.
