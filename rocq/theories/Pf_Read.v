(** The reading functions compute the meaning of Spec_Urdf. *)
From Coq Require Import QArith ZArith String Ascii List Lia Bool.
From Verif Require Import Base Num Pose Urdf Decimal Spec_Str Spec_Robot Spec_Urdf Pf_Str.
Import ListNotations.
Local Open Scope string_scope.

Section Read.
Context `{A : Arith}.

Definition has_tag (tag : string) (x : xml) : bool := match x with XElem t _ _ => String.eqb t tag | XOther => false end.

Lemma tagged_iff tag x : tagged tag x <-> has_tag tag x = true.
Proof.
  split. { intros (a & k & ->). cbn. apply String.eqb_refl. }
  destruct x as [t a k|]; cbn; [|discriminate]. intros E. apply String.eqb_eq in E. subst. eexists; eauto.
Qed.

Lemma elements_iff tag kids : forall es, elements tag kids es <-> es = children tag kids.
Proof.
  induction kids as [|x kids IH]; intros es.
  - split; [inversion 1; reflexivity|]. intros ->. constructor.
  - unfold children. cbn [filter]. change (match x with XElem t _ _ => String.eqb t tag | XOther => false end) with (has_tag tag x).
    destruct (has_tag tag x) eqn:E.
    + split. { inversion 1; subst. { f_equal. apply IH; assumption. } exfalso. match goal with H : ~ tagged _ _ |- _ => apply H end. apply tagged_iff; exact E. }
      intros ->. apply els_take; [apply tagged_iff; exact E|]. apply IH. reflexivity.
    + split. { inversion 1; subst. { exfalso. match goal with H : tagged _ _ |- _ => apply tagged_iff in H; congruence end. } apply IH; assumption. }
      intros ->. apply els_skip; [rewrite tagged_iff; congruence|]. apply IH. reflexivity.
Qed.

Lemma inside_iff x kids : inside x kids <-> kids = x_kids x.
Proof. destruct x; cbn; tauto. Qed.

Lemma child_iff x tag e : child x tag e <-> first_child tag x = Some e.
Proof.
  unfold child, first_child. split.
  - intros (kids & es & I & E). apply inside_iff in I. subst. apply elements_iff in E. rewrite <- E. reflexivity.
  - intros H. destruct (children tag (x_kids x)) as [|e' es] eqn:E; [discriminate|]. injection H as ->.
    exists (x_kids x), es. split; [apply inside_iff; reflexivity|]. apply elements_iff. auto.
Qed.
Lemma no_child_iff x tag : no_child x tag <-> first_child tag x = None.
Proof.
  unfold no_child, first_child. split.
  - intros (kids & I & E). apply inside_iff in I. subst. apply elements_iff in E. rewrite <- E. reflexivity.
  - intros H. destruct (children tag (x_kids x)) as [|e' es] eqn:E; [|discriminate]. exists (x_kids x). split; [apply inside_iff; reflexivity|]. apply elements_iff. auto.
Qed.

Lemma assoc_split {B} n (l : list (string * B)) v : assoc n l = Some v <-> exists before after, l = (before ++ (n, v) :: after)%list /\ ~ In n (map fst before).
Proof.
  induction l as [|[k b] l IH]; cbn.
  - split; [discriminate|]. intros ([|? ?] & ? & ? & ?); discriminate.
  - destruct (String.eqb_spec n k) as [<-|N].
    + split. { intros [= ->]. exists [], l. split; auto. }
      intros ([|[k' b'] before] & after & E & NI); cbn in E; injection E as; subst; [congruence|]. exfalso. apply NI. cbn. auto.
    + rewrite IH. split.
      * intros (before & after & -> & NI). exists ((k, b) :: before), after. split; auto. cbn. intros [E|I]; [congruence|auto].
      * intros ([|[k' b'] before] & after & E & NI); cbn in E; injection E as; subst; [congruence|]. exists before, after. split; auto. intros I. apply NI. cbn. auto.
Qed.
Lemma assoc_none {B} n (l : list (string * B)) : assoc n l = None <-> ~ In n (map fst l).
Proof.
  induction l as [|[k b] l IH]; cbn; [tauto|]. destruct (String.eqb_spec n k) as [<-|N]; [split; [discriminate|tauto]|].
  rewrite IH. split; [intros H [E|I]; [congruence|auto]|auto].
Qed.

Lemma has_attr_iff x n v : has_attr x n v <-> attribute n x = Some v.
Proof.
  unfold has_attr, attribute. destruct x as [t a k|].
  - rewrite assoc_split. split; [intros (? & b & c & ? & E & NI); injection E as -> -> ->; eauto|]. intros (b & c & -> & NI). eauto 10.
  - split; [intros (? & ? & ? & ? & E & _); discriminate|discriminate].
Qed.
Lemma no_attr_iff x n : no_attr x n <-> attribute n x = None.
Proof.
  unfold no_attr, attribute. destruct x as [t a k|]; [|split; [reflexivity|discriminate]].
  rewrite assoc_none. split; [intros H; eapply H; reflexivity|]. intros H ? ? ? [= -> -> ->]. exact H.
Qed.

Lemma number_or_iff x n d v : number_or x n d v <-> num_attr n d x = Some v.
Proof.
  unfold number_or, num_attr. rewrite no_attr_iff. setoid_rewrite has_attr_iff.
  destruct (attribute n x) as [s|]; split.
  - intros [[? _]|(s' & [= ->] & ?)]; [discriminate|assumption].
  - intros H. right. eauto.
  - intros [[_ ->]|(s' & ? & ?)]; [reflexivity|discriminate].
  - intros [= ->]. auto.
Qed.
Lemma a_number_iff x n v : a_number x n v <-> req_num_attr n x = Some v.
Proof.
  unfold a_number, req_num_attr. setoid_rewrite has_attr_iff. destruct (attribute n x) as [s|]; split.
  - intros (s' & [= ->] & ?); assumption.
  - eauto.
  - intros (? & ? & ?); discriminate.
  - discriminate.
Qed.
Lemma triple_iff s v : triple s v <-> v_init s = Some v.
Proof. symmetry. apply v_init_words. Qed.
Lemma well_formed_iff x n : well_formed x n <-> exists v, num_attr n n0 x = Some v.
Proof. unfold well_formed. setoid_rewrite number_or_iff. reflexivity. Qed.

Lemma origin_reads_iff e P : origin_reads e P <-> parsePose e = (true, P).
Proof.
  unfold origin_reads, parsePose. rewrite !no_attr_iff. setoid_rewrite has_attr_iff. setoid_rewrite triple_iff. unfold q_init, pose_clear, q_clear, v_clear.
  destruct P as [p q]; cbn [position rotation].
  destruct (attribute "xyz" e) as [s|]; destruct (attribute "rpy" e) as [r|]; split.
  - intros [[[? _]|(s' & [= <-] & ->)] [[? _]|(r' & v & [= <-] & -> & ->)]]; try discriminate. reflexivity.
  - destruct (v_init s) as [v|] eqn:Ev; [|discriminate]. destruct (v_init r) as [w|] eqn:Ew; [|discriminate]. intros [= <- <-]. split; right; eauto.
  - intros [[[? _]|(s' & [= <-] & ->)] [[_ ->]|(r' & v & ? & _)]]; try discriminate. reflexivity.
  - destruct (v_init s) as [v|] eqn:Ev; [|discriminate]. intros [= <- <-]. split; [right|left]; eauto.
  - intros [[[_ ->]|(s' & ? & _)] [[? _]|(r' & v & [= <-] & -> & ->)]]; try discriminate. reflexivity.
  - destruct (v_init r) as [w|] eqn:Ew; [|discriminate]. intros [= <- <-]. split; [left|right]; eauto.
  - intros [[[_ ->]|(s' & ? & _)] [[_ ->]|(r' & v & ? & _)]]; try discriminate. reflexivity.
  - intros [= <- <-]. auto.
Qed.

Lemma type_word_iff s t : type_word s t <-> joint_type_of_string s = Some t.
Proof.
  unfold type_word, joint_type_of_string. cbn [In].
  repeat match goal with |- context [String.eqb s ?c] => destruct (String.eqb_spec s c) as [->|?] end;
  (split; [intros H; repeat destruct H as [H|H]; try injection H as <- <-; try congruence; try contradiction|intros [= <-] || intros [=]; tauto]).
Qed.

Lemma end_reads_iff x tag n : end_reads x tag n <-> link_ref tag x = n.
Proof.
  unfold end_reads, link_ref. rewrite no_child_iff. setoid_rewrite child_iff. setoid_rewrite has_attr_iff. setoid_rewrite no_attr_iff.
  destruct (first_child tag x) as [e|].
  - split.
    + intros [(e' & [= <-] & ->)|[[(e' & [= <-] & ->)|?] ->]]; try reflexivity; discriminate.
    + destruct (attribute "link" e) as [s|] eqn:E; intros <-; eauto 10.
  - split; [intros [(? & ? & _)|[_ ->]]; [discriminate|reflexivity]|]. intros <-. auto.
Qed.

Lemma limit_reads_iff e l : limit_reads e l <-> parseJointLimits e = Some l.
Proof.
  unfold limit_reads, parseJointLimits. rewrite !number_or_iff, !a_number_iff. destruct l as [a b c d]; cbn [lower upper effort velocity]. split.
  - intros (-> & -> & -> & ->). reflexivity.
  - destruct (num_attr "lower" n0 e) as [d0|], (num_attr "upper" n0 e) as [d1|], (req_num_attr "effort" e) as [d2|], (req_num_attr "velocity" e) as [d3|]; try discriminate. intros [= -> -> -> ->]. auto.
Qed.
Lemma mimic_reads_iff e m : mimic_reads e m <-> parseJointMimic e = Some m.
Proof.
  unfold mimic_reads, parseJointMimic. rewrite !number_or_iff, has_attr_iff. destruct m as [a b c]; cbn [mimic_joint multiplier offset]. split.
  - intros (-> & -> & ->). reflexivity.
  - destruct (attribute "joint" e) as [d0|], (num_attr "multiplier" n1 e) as [d1|], (num_attr "offset" n0 e) as [d2|]; try discriminate. intros [= -> -> ->]. auto.
Qed.
Lemma axis_reads_iff x v : axis_reads x v <-> parse_axis REVOLUTE x = Some v.
Proof.
  unfold axis_reads, parse_axis, v_clear. rewrite no_child_iff. setoid_rewrite child_iff. setoid_rewrite has_attr_iff. setoid_rewrite no_attr_iff. setoid_rewrite triple_iff.
  destruct (first_child "axis" x) as [e|].
  - split.
    + intros [[? _]|[(e' & [= <-] & -> & ->)|(e' & s & [= <-] & -> & ->)]]; try reflexivity; discriminate.
    + intros H. right. destruct (attribute "xyz" e) as [s|] eqn:E; [right; eauto|]. injection H as <-. left; eauto.
  - split; [intros [[_ ->]|[(? & ? & _)|(? & ? & ? & _)]]; [reflexivity|discriminate..]|]. intros [= <-]. auto.
Qed.

Lemma origin_or_none_iff x P : origin_or_none x P <-> parse_joint_origin x = Some P.
Proof.
  unfold origin_or_none, parse_joint_origin. rewrite no_child_iff. setoid_rewrite child_iff. setoid_rewrite origin_reads_iff.
  destruct (first_child "origin" x) as [e|].
  - split. { intros [[? _]|(e' & [= <-] & ->)]; [discriminate|reflexivity]. }
    destruct (parsePose e) as [[] p] eqn:E; [|discriminate]. intros [= <-]. right. eauto.
  - split; [intros [[_ ->]|(? & ? & _)]; [reflexivity|discriminate]|]. intros [= <-]. auto.
Qed.

Lemma axis_of ty x v :
  (if (match ty with FLOATING | FIXED => true | _ => false end) then v = V3 n0 n0 n0 else axis_reads x v) <-> parse_axis ty x = Some v.
Proof. destruct ty; try apply axis_reads_iff; (split; [intros ->; reflexivity|intros [= <-]; reflexivity]). Qed.

Lemma limit_of ty x l :
  match l with
  | Some l => exists e, child x "limit" e /\ limit_reads e l
  | None => no_child x "limit" /\ ty <> REVOLUTE /\ ty <> PRISMATIC
  end <-> parse_limit ty x = Some l.
Proof.
  unfold parse_limit. destruct l as [l|].
  - setoid_rewrite child_iff. setoid_rewrite limit_reads_iff. destruct (first_child "limit" x) as [e|].
    + split. { intros (e' & [= <-] & ->). reflexivity. } destruct (parseJointLimits e) eqn:E; [|discriminate]. intros [= <-]. eauto.
    + split; [intros (? & ? & _); discriminate|]. destruct ty; discriminate.
  - rewrite no_child_iff. destruct (first_child "limit" x) as [e|].
    + split; [intros [? _]; discriminate|]. destruct (parseJointLimits e); discriminate.
    + split; [intros (_ & ? & ?); destruct ty; congruence|]. destruct ty; try discriminate; intros _; repeat split; congruence.
Qed.

Lemma mimic_of x m :
  match m with
  | Some m => exists e, child x "mimic" e /\ mimic_reads e m
  | None => no_child x "mimic"
  end <-> parse_mimic x = Some m.
Proof.
  unfold parse_mimic. destruct m as [m|].
  - setoid_rewrite child_iff. setoid_rewrite mimic_reads_iff. destruct (first_child "mimic" x) as [e|].
    + split. { intros (e' & [= <-] & ->). reflexivity. } destruct (parseJointMimic e) eqn:E; [|discriminate]. intros [= <-]. eauto.
    + split; [intros (? & ? & _); discriminate|discriminate].
  - rewrite no_child_iff. destruct (first_child "mimic" x) as [e|].
    + split; [discriminate|]. destruct (parseJointMimic e); discriminate.
    + tauto.
Qed.

Lemma opt_child_of x tag f (P : xml -> Prop) : (forall e, f e = true <-> P e) ->
  (no_child x tag \/ exists e, child x tag e /\ P e) <-> opt_child_ok tag f x = true.
Proof.
  intros FP. unfold opt_child_ok. rewrite no_child_iff. setoid_rewrite child_iff. destruct (first_child tag x) as [e|].
  - rewrite FP. split; [intros [?|(e' & [= <-] & ?)]; [discriminate|assumption]|eauto].
  - tauto.
Qed.

Lemma safety_iff e : parseJointSafety e = true <->
  exists v, a_number e "k_velocity" v /\ well_formed e "soft_lower_limit" /\ well_formed e "soft_upper_limit" /\ well_formed e "k_position".
Proof.
  unfold parseJointSafety. setoid_rewrite a_number_iff. setoid_rewrite well_formed_iff.
  destruct (num_attr "soft_lower_limit" n0 e) as [d0|], (num_attr "soft_upper_limit" n0 e) as [d1|], (num_attr "k_position" n0 e) as [d2|], (req_num_attr "k_velocity" e) as [d3|];
  (split; [try discriminate; intros _; eauto 10|intros (v & H1 & [? H2] & [? H3] & [? H4]); first [reflexivity|discriminate H1|discriminate H2|discriminate H3|discriminate H4]]).
Qed.
Lemma calibration_iff e : parseJointCalibration e = true <-> well_formed e "rising" /\ well_formed e "falling".
Proof.
  unfold parseJointCalibration. rewrite !well_formed_iff. destruct (num_attr "rising" n0 e) as [d0|], (num_attr "falling" n0 e) as [d1|];
  (split; [try discriminate; intros _; eauto 10|intros ([? H1] & [? H2]); first [reflexivity|discriminate H1|discriminate H2]]).
Qed.
Lemma dynamics_iff e : parseJointDynamics e = true <-> well_formed e "damping" /\ well_formed e "friction" /\ ~ (no_attr e "damping" /\ no_attr e "friction").
Proof.
  unfold parseJointDynamics. rewrite !well_formed_iff, !no_attr_iff.
  destruct (num_attr "damping" n0 e) as [d0|], (num_attr "friction" n0 e) as [d1|];
  try (split; [discriminate|intros ([? H1] & [? H2] & _); first [discriminate H1|discriminate H2]]).
  destruct (attribute "damping" e), (attribute "friction" e);
  (split; [try discriminate; intros _; repeat split; eauto; intros [? ?]; discriminate|]); try reflexivity. intros (_ & _ & H). exfalso. apply H. auto.
Qed.

Theorem joint_reads_iff x j : parseJoint x = Some j <-> joint_reads x j.
Proof.
  assert (J : joint_reads x j <->
    (attribute "name" x = Some (uj_name j) /\ (exists s, attribute "type" x = Some s /\ joint_type_of_string s = Some (uj_type j)) /\
     parse_joint_origin x = Some (uj_origin j) /\ link_ref "parent" x = uj_parent j /\ link_ref "child" x = uj_child j /\
     parse_axis (uj_type j) x = Some (uj_axis j) /\ parse_limit (uj_type j) x = Some (uj_limits j) /\ parse_mimic x = Some (uj_mimic j) /\
     opt_child_ok "safety_controller" parseJointSafety x = true /\ opt_child_ok "calibration" parseJointCalibration x = true /\
     opt_child_ok "dynamics" parseJointDynamics x = true)).
  { rewrite <- (opt_child_of x _ _ _ safety_iff), <- (opt_child_of x _ _ _ calibration_iff), <- (opt_child_of x _ _ _ dynamics_iff).
    rewrite <- limit_of, <- mimic_of, <- axis_of, <- origin_or_none_iff, <- !end_reads_iff, <- has_attr_iff.
    setoid_rewrite <- has_attr_iff. setoid_rewrite <- type_word_iff. split.
    - intros [N T O P C X L M S1 S2 S3]. repeat split; auto. destruct S1 as [?|(e & v & ? & ?)]; eauto.
    - intros (N & T & O & P & C & X & L & M & S1 & S2 & S3). constructor; auto. destruct S1 as [?|(e & ? & v & ?)]; [auto|]. right. eauto. }
  rewrite J. unfold parseJoint. destruct j as [n ty ax p c o l m]; cbn [uj_name uj_type uj_axis uj_parent uj_child uj_origin uj_limits uj_mimic]. split.
  - destruct (attribute "name" x) as [name|] eqn:E1; [|discriminate]. destruct (parse_joint_origin x) eqn:E2; [|discriminate].
    destruct (attribute "type" x) as [ts|] eqn:E3; [|discriminate]. destruct (joint_type_of_string ts) as [ty'|] eqn:E4; [|discriminate].
    destruct (parse_axis ty' x) eqn:E5; [|discriminate]. destruct (parse_limit ty' x) eqn:E6; [|discriminate].
    destruct (opt_child_ok "safety_controller" _ x) eqn:E7; cbn [negb]; [|discriminate]. destruct (opt_child_ok "calibration" _ x) eqn:E8; cbn [negb]; [|discriminate].
    cbn [negb]. destruct (parse_mimic x) eqn:E9; [|discriminate]. destruct (opt_child_ok "dynamics" _ x) eqn:E10; cbn [negb]; [|discriminate]. cbn [negb].
    intros [= <- <- <- <- <- <- <- <-]. repeat split; eauto.
  - intros (-> & (s & -> & T) & -> & <- & <- & E5 & E6 & -> & -> & -> & ->). rewrite T, E5, E6. reflexivity.
Qed.

Lemma inertial_reads_iff x i : inertial_reads x i <-> parseInertial x = (true, i).
Proof.
  unfold inertial_reads. rewrite origin_or_none_iff. setoid_rewrite child_iff. setoid_rewrite a_number_iff.
  unfold parseInertial, parse_joint_origin. destruct i as [o m a b c d e f]; cbn [in_origin in_mass ixx ixy ixz iyy iyz izz].
  set (P := match first_child "origin" x with None => (true, pose_clear) | Some o => parsePose o end).
  assert (EP : (match first_child "origin" x with None => Some pose_clear | Some o => let (ok, p) := parsePose o in if ok then Some p else None end) =
               (let (ok, p) := P in if ok then Some p else None)) by (unfold P; destruct (first_child "origin" x); reflexivity).
  rewrite EP. clearbody P. destruct P as [[] p].
  - cbn [negb]. split.
    + intros ([= ->] & (em & -> & ->) & (ei & -> & -> & -> & -> & -> & -> & ->)). reflexivity.
    + destruct (first_child "mass" x) as [em|]; [|discriminate]. destruct (req_num_attr "value" em) eqn:Em; [|discriminate].
      destruct (first_child "inertia" x) as [ei|]; [|discriminate].
      destruct (req_num_attr "ixx" ei) eqn:E1, (req_num_attr "ixy" ei) eqn:E2, (req_num_attr "ixz" ei) eqn:E3, (req_num_attr "iyy" ei) eqn:E4,
        (req_num_attr "iyz" ei) eqn:E5, (req_num_attr "izz" ei) eqn:E6; try discriminate.
      intros [= -> -> -> -> -> -> -> ->]. split; [reflexivity|]. split; eauto 12.
  - cbn [negb]. split; [intros (? & _); discriminate|discriminate].
Qed.

Lemma parsePose_keeps e P : parsePose e = (false, P) ->
  rotation P = Q4 n0 n0 n0 n1 /\
  ((exists s, has_attr e "xyz" s /\ triple s (position P)) \/ ((forall s v, has_attr e "xyz" s -> ~ triple s v) /\ position P = V3 n0 n0 n0)).
Proof.
  setoid_rewrite has_attr_iff. setoid_rewrite triple_iff. unfold parsePose, pose_clear, q_clear, v_clear.
  destruct (attribute "xyz" e) as [s|] eqn:E1.
  - destruct (v_init s) as [v|] eqn:E2.
    + destruct (attribute "rpy" e) as [r|]; [destruct (q_init r); [discriminate|]|discriminate]. intros [= <-]. cbn. split; [reflexivity|]. left. eauto.
    + intros [= <-]. cbn. split; [reflexivity|]. right. split; [|reflexivity]. intros s' v [= <-]. congruence.
  - destruct (attribute "rpy" e) as [r|]; [destruct (q_init r); [discriminate|]|discriminate]. intros [= <-]. cbn. split; [reflexivity|]. right. split; [discriminate|reflexivity].
Qed.
Lemma parsePose_keeps_det e P P' : parsePose e = (false, P) -> rotation P' = Q4 n0 n0 n0 n1 ->
  ((exists s, has_attr e "xyz" s /\ triple s (position P')) \/ ((forall s v, has_attr e "xyz" s -> ~ triple s v) /\ position P' = V3 n0 n0 n0)) -> P' = P.
Proof.
  intros E R' H. destruct (parsePose_keeps _ _ E) as (R & K). destruct P as [p q], P' as [p' q']; cbn in *. subst. f_equal.
  setoid_rewrite has_attr_iff in H. setoid_rewrite triple_iff in H. setoid_rewrite has_attr_iff in K. setoid_rewrite triple_iff in K.
  destruct H as [(s & H1 & H2)|(H1 & ->)], K as [(s' & K1 & K2)|(K1 & ->)]; try congruence.
  - exfalso. exact (K1 _ _ H1 H2).
  - exfalso. exact (H1 _ _ K1 K2).
Qed.

(** a malformed inertial element *)
Lemma inertial_keeps_iff x i : fst (parseInertial x) = false -> (snd (parseInertial x) = i <-> inertial_keeps x i).
Proof.
  intros F. unfold inertial_keeps. rewrite origin_or_none_iff. destruct i as [o m a b c d e f]; cbn [in_origin in_mass ixx ixy ixz iyy iyz izz].
  assert (F' : parseInertial x = (false, snd (parseInertial x))) by (destruct (parseInertial x); cbn in *; congruence).
  unfold parseInertial in *. unfold parse_joint_origin.
  destruct (first_child "origin" x) as [eo|] eqn:Eo; [destruct (parsePose eo) as [ok P] eqn:EP|set (ok := true) in *; set (P := pose_clear) in *; assert (EP : True) by exact I].
  - destruct ok; cbn [negb] in *.
    + (* the origin is fine *)
      assert (G : forall e', child x "origin" e' -> (forall P, ~ origin_reads e' P) -> False).
      { intros e' C N. apply child_iff in C. rewrite Eo in C. injection C as <-. apply (N P). apply origin_reads_iff. exact EP. }
      assert (M : forall v, (exists e, child x "mass" e /\ a_number e "value" v) <-> (match first_child "mass" x with Some em => req_num_attr "value" em | None => None end) = Some v).
      { intros v. setoid_rewrite child_iff. setoid_rewrite a_number_iff. destruct (first_child "mass" x); split; [intros (? & [= <-] & ?); assumption|eauto|intros (? & ? & _); discriminate|discriminate]. }
      assert (M0 : (forall e v, child x "mass" e -> ~ a_number e "value" v) <-> (match first_child "mass" x with Some em => req_num_attr "value" em | None => None end) = None).
      { setoid_rewrite child_iff. setoid_rewrite a_number_iff. destruct (first_child "mass" x) as [em|]; [|split; [reflexivity|discriminate]].
        split; [intros H; destruct (req_num_attr "value" em) eqn:E; [exfalso; eapply H; [reflexivity|exact E]|reflexivity]|]. intros E e' v [= <-] H. congruence. }
      rewrite M, M0. clear M M0.
      destruct (first_child "mass" x) as [em|]; [destruct (req_num_attr "value" em) as [mv|]|].
      * assert (S : snd (match first_child "inertia" x with
                    | Some ix => match req_num_attr "ixx" ix, req_num_attr "ixy" ix, req_num_attr "ixz" ix, req_num_attr "iyy" ix, req_num_attr "iyz" ix, req_num_attr "izz" ix with
                      | Some a, Some b, Some c, Some d, Some e, Some f => (true, mkInertial P mv a b c d e f)
                      | _, _, _, _, _, _ => (false, mkInertial P mv n0 n0 n0 n0 n0 n0) end
                    | None => (false, mkInertial P mv n0 n0 n0 n0 n0 n0) end) = mkInertial P mv n0 n0 n0 n0 n0 n0).
        { destruct (first_child "inertia" x) as [ix|]; [|reflexivity].
          destruct (req_num_attr "ixx" ix), (req_num_attr "ixy" ix), (req_num_attr "ixz" ix), (req_num_attr "iyy" ix), (req_num_attr "iyz" ix), (req_num_attr "izz" ix);
            try reflexivity. cbn in F. discriminate. }
        rewrite S. split.
        -- intros [= <- <- <- <- <- <- <- <-]. repeat split; auto.
        -- intros (-> & -> & -> & -> & -> & -> & [(e' & C & N & _)|([= ->] & [[= ->]|(? & _)])]); [exfalso; eauto|reflexivity|discriminate].
      * cbn. split; [intros [= <- <- <- <- <- <- <- <-]; repeat split; auto|].
        intros (-> & -> & -> & -> & -> & -> & [(e' & C & N & _)|([= ->] & [?|(_ & ->)])]); [exfalso; eauto|discriminate|reflexivity].
      * cbn. split; [intros [= <- <- <- <- <- <- <- <-]; repeat split; auto|].
        intros (-> & -> & -> & -> & -> & -> & [(e' & C & N & _)|([= ->] & [?|(_ & ->)])]); [exfalso; eauto|discriminate|reflexivity].
    + cbn. assert (NR : forall Q, ~ origin_reads eo Q) by (intros Q H; apply origin_reads_iff in H; congruence).
      split.
      * intros [= <- <- <- <- <- <- <- <-]. repeat split; auto. left. exists eo. split; [apply child_iff; exact Eo|]. split; [exact NR|]. split; [reflexivity|]. apply parsePose_keeps. exact EP.
      * intros (-> & -> & -> & -> & -> & -> & [(e' & C & _ & -> & R & K)|(? & _)]); [|discriminate]. apply child_iff in C. rewrite Eo in C. injection C as <-.
        rewrite (parsePose_keeps_det _ _ _ EP R K). reflexivity.
  - cbn [negb] in *. subst ok.
      assert (G : forall e', child x "origin" e' -> False).
      { intros e' C. apply child_iff in C. congruence. }
      assert (M : forall v, (exists e, child x "mass" e /\ a_number e "value" v) <-> (match first_child "mass" x with Some em => req_num_attr "value" em | None => None end) = Some v).
      { intros v. setoid_rewrite child_iff. setoid_rewrite a_number_iff. destruct (first_child "mass" x); split; [intros (? & [= <-] & ?); assumption|eauto|intros (? & ? & _); discriminate|discriminate]. }
      assert (M0 : (forall e v, child x "mass" e -> ~ a_number e "value" v) <-> (match first_child "mass" x with Some em => req_num_attr "value" em | None => None end) = None).
      { setoid_rewrite child_iff. setoid_rewrite a_number_iff. destruct (first_child "mass" x) as [em|]; [|split; [reflexivity|discriminate]].
        split; [intros H; destruct (req_num_attr "value" em) eqn:E; [exfalso; eapply H; [reflexivity|exact E]|reflexivity]|]. intros E e' v [= <-] H. congruence. }
      rewrite M, M0. clear M M0.
      destruct (first_child "mass" x) as [em|]; [destruct (req_num_attr "value" em) as [mv|]|].
      * assert (S : snd (match first_child "inertia" x with
                    | Some ix => match req_num_attr "ixx" ix, req_num_attr "ixy" ix, req_num_attr "ixz" ix, req_num_attr "iyy" ix, req_num_attr "iyz" ix, req_num_attr "izz" ix with
                      | Some a, Some b, Some c, Some d, Some e, Some f => (true, mkInertial P mv a b c d e f)
                      | _, _, _, _, _, _ => (false, mkInertial P mv n0 n0 n0 n0 n0 n0) end
                    | None => (false, mkInertial P mv n0 n0 n0 n0 n0 n0) end) = mkInertial P mv n0 n0 n0 n0 n0 n0).
        { destruct (first_child "inertia" x) as [ix|]; [|reflexivity].
          destruct (req_num_attr "ixx" ix), (req_num_attr "ixy" ix), (req_num_attr "ixz" ix), (req_num_attr "iyy" ix), (req_num_attr "iyz" ix), (req_num_attr "izz" ix);
            try reflexivity. cbn in F. discriminate. }
        cbn [negb] in *. rewrite S. split.
        -- intros [= <- <- <- <- <- <- <- <-]. repeat split; auto.
        -- intros (-> & -> & -> & -> & -> & -> & [(e' & C & N & _)|([= ->] & [[= ->]|(? & _)])]); [exfalso; eauto|reflexivity|discriminate].
      * cbn. split; [intros [= <- <- <- <- <- <- <- <-]; repeat split; auto|].
        intros (-> & -> & -> & -> & -> & -> & [(e' & C & N & _)|([= ->] & [?|(_ & ->)])]); [exfalso; eauto|discriminate|reflexivity].
      * cbn. split; [intros [= <- <- <- <- <- <- <- <-]; repeat split; auto|].
        intros (-> & -> & -> & -> & -> & -> & [(e' & C & N & _)|([= ->] & [?|(_ & ->)])]); [exfalso; eauto|discriminate|reflexivity].
Qed.

Lemma malformed_iff x : malformed x <-> fst (parseInertial x) = false.
Proof.
  unfold malformed. setoid_rewrite inertial_reads_iff. destruct (parseInertial x) as [[] i]; cbn.
  - split; [|discriminate]. intros H. exfalso. exact (H i eq_refl).
  - split; [reflexivity|]. intros _ j H. discriminate.
Qed.

Theorem link_reads_iff x d : link_desc x = d <-> link_reads x d.
Proof.
  unfold link_desc, parseLink. split.
  - destruct (attribute "name" x) as [n|] eqn:En; cbn [ul_name ul_inertial]; intros <-; [|apply lr_nameless, no_attr_iff, En].
    apply has_attr_iff in En. destruct (first_child "inertial" x) as [e|] eqn:Ee; [|apply lr_plain; [exact En|apply no_child_iff, Ee]].
    apply child_iff in Ee. destruct (fst (parseInertial e)) eqn:Ei.
    + eapply lr_mass; [exact En|exact Ee|]. apply inertial_reads_iff. destruct (parseInertial e); cbn in *; congruence.
    + eapply lr_malformed; [exact En|exact Ee|apply malformed_iff, Ei|]. apply inertial_keeps_iff; [exact Ei|reflexivity].
  - intros [n N C|n e i N C I|n e i N C M K|N].
    + apply has_attr_iff in N. apply no_child_iff in C. rewrite N, C. reflexivity.
    + apply has_attr_iff in N. apply child_iff in C. rewrite N, C. apply inertial_reads_iff in I. cbn. rewrite I. reflexivity.
    + apply has_attr_iff in N. apply child_iff in C. rewrite N, C. apply malformed_iff in M. cbn. apply inertial_keeps_iff in K; [|exact M]. rewrite K. reflexivity.
    + apply no_attr_iff in N. rewrite N. reflexivity.
Qed.

Lemma all_joints_iff l : forall js, all_joints l = Some js <-> Forall2 joint_reads l js.
Proof.
  induction l as [|x l IH]; intros js; cbn [all_joints].
  - split; [intros [= <-]; constructor|inversion 1; reflexivity].
  - split.
    + destruct (parseJoint x) as [j|] eqn:E; [|discriminate]. destruct (all_joints l) as [js'|] eqn:E'; [|discriminate]. intros [= <-].
      constructor; [apply joint_reads_iff, E|]. apply IH. reflexivity.
    + inversion 1 as [|? j ? js' J H']; subst. apply joint_reads_iff in J. apply IH in H'. rewrite J, H'. reflexivity.
Qed.

Lemma links_iff l : forall ds, map link_desc l = ds <-> Forall2 link_reads l ds.
Proof.
  induction l as [|x l IH]; intros ds; cbn [map].
  - split; [intros <-; constructor|inversion 1; reflexivity].
  - split.
    + intros <-. constructor; [apply link_reads_iff; reflexivity|]. apply IH. reflexivity.
    + inversion 1 as [|? d ? ds' D H']; subst. apply link_reads_iff in D. apply IH in H'. congruence.
Qed.

Definition mat_name (m : xml) : string := match attribute "name" m with None => EmptyString | Some s => s end.
Lemma material_name_iff m n : material_name m n <-> mat_name m = n.
Proof.
  unfold material_name, mat_name. rewrite has_attr_iff, no_attr_iff. destruct (attribute "name" m) as [s|]; split.
  - intros [[= ->]|[? _]]; [reflexivity|discriminate].
  - intros ->. auto.
  - intros [?|[_ ->]]; [discriminate|reflexivity].
  - intros <-. auto.
Qed.
Lemma material_names l : forall ns, Forall2 material_name l ns <-> map mat_name l = ns.
Proof.
  induction l as [|x l IH]; intros ns; cbn [map].
  - split; [inversion 1; reflexivity|intros <-; constructor].
  - split.
    + inversion 1 as [|? d ? ds' D H']; subst. apply material_name_iff in D. apply IH in H'. congruence.
    + intros <-. constructor; [apply material_name_iff; reflexivity|]. apply IH. reflexivity.
Qed.
Lemma materials_iff l : forall seen, materials_ok seen l = true <-> NoDup (map mat_name l) /\ forall n, In n (map mat_name l) -> ~ In n seen.
Proof.
  induction l as [|m l IH]; intros seen; cbn [materials_ok map].
  - split; [intros _; split; [constructor|intros ? []]|reflexivity].
  - change (match attribute "name" m with Some s => s | None => "" end) with (mat_name m).
    destruct (existsb (String.eqb (mat_name m)) seen) eqn:E.
    + split; [discriminate|]. intros (_ & H). exfalso. apply existsb_exists in E. destruct E as (k & I & K). apply String.eqb_eq in K. subst k. apply (H (mat_name m)); [left; reflexivity|exact I].
    + assert (NI : ~ In (mat_name m) seen). { intros I. rewrite <- not_true_iff_false in E. apply E. apply existsb_exists. exists (mat_name m). split; [exact I|apply String.eqb_refl]. }
      rewrite IH. split.
      * intros (ND & H). split; [constructor; [|exact ND]|]. { intros I. apply (H _ I). left. reflexivity. } intros n [<-|I]; [exact NI|]. intros I'. apply (H _ I). right. exact I'.
      * intros (ND & H). inversion ND; subst. split; [assumption|]. intros n I [<-|I']; [contradiction|]. apply (H n); [right; exact I|exact I'].
Qed.

End Read.

(** ** version numbers *)

Lemma digits_fwd ds : forall acc t, all_digits ds -> starts is_digit t = false -> digits acc (ds ++ t) = (number acc ds, t).
Proof.
  induction ds as [|c ds IH]; intros acc t D S.
  - cbn. destruct t as [|c t]; [reflexivity|]. cbn in S |- *. rewrite S. reflexivity.
  - destruct D as [Dc Dd]. cbn [append digits]. replace (is_digit c) with true by (symmetry; apply digit_iff; exact Dc). rewrite IH by assumption. reflexivity.
Qed.
Lemma digits_inv s : forall acc v t, digits acc s = (v, t) -> exists ds, s = ds ++ t /\ all_digits ds /\ v = number acc ds /\ starts is_digit t = false.
Proof.
  induction s as [|c s IH]; intros acc v t H; cbn in H.
  - injection H as <- <-. exists "". cbn. auto.
  - destruct (is_digit c) eqn:E.
    + apply IH in H. destruct H as (ds & -> & D & -> & S). exists (String c ds). cbn. repeat split; auto. apply digit_iff; exact E.
    + injection H as <- <-. exists "". cbn. auto.
Qed.

Lemma strtol_sign s :
  match s with String "-"%char t => (true, t) | String "+"%char t => (false, t) | _ => (false, s) end = dec_sign s.
Proof. destruct s as [|[[] [] [] [] [] [] [] []] s]; reflexivity. Qed.

Lemma strtol_iff s v t : strtol s = Some (v, t) <->
  exists ws sg z ds, s = ws ++ sg ++ ds ++ t /\ all_white ws /\ sign sg z /\ ds <> "" /\ all_digits ds /\ starts is_digit t = false /\
    v = Z.max (- 2 ^ 63) (Z.min (2 ^ 63 - 1) (z * number 0 ds)).
Proof.
  assert (U : strtol s = (let (neg, s1) := dec_sign (skip_space s) in
     match s1 with
     | String c _ => if is_digit c then let (v, rest) := digits 0 s1 in
                       Some (Z.max (- 2 ^ 63) (Z.min (2 ^ 63 - 1) (if neg then - v else v)%Z), rest) else None
     | EmptyString => None end)).
  { rewrite <- strtol_sign. reflexivity. }
  rewrite U. clear U. split.
  - destruct (skip_inv s) as (ws & Es & W). destruct (dec_sign (skip_space s)) as [neg s1] eqn:E1.
    destruct (dec_sign_inv _ _ _ E1) as (sg & z & Es1 & Sg & ->). rewrite Es1 in Es. clear E1 Es1. subst s.
    destruct s1 as [|c s1]; [discriminate|]. destruct (is_digit c) eqn:Ec; [|discriminate].
    destruct (digits 0 (String c s1)) as [v' rest] eqn:Ed. destruct (digits_inv _ _ _ _ Ed) as (ds & Es & D & -> & S).
    intros H. injection H as <- <-. exists ws, sg, z, ds. rewrite Es. rewrite (sign_sgn sg z Sg). repeat split; auto.
    intros ->. cbn in Es. subst rest. cbn in S. congruence.
  - intros (ws & sg & z & ds & -> & W & Sg & Ne & D & S & ->).
    rewrite (skip_fwd ws); [|exact W|].
    + rewrite (dec_sign_fwd sg z _ Sg).
      * destruct ds as [|c ds]; [easy|]. cbn [append]. replace (is_digit c) with true by (symmetry; apply digit_iff; apply D).
        change (String c (ds ++ t)) with (String c ds ++ t). rewrite (digits_fwd _ _ _ D S). rewrite (sign_sgn sg z Sg). reflexivity.
      * destruct ds as [|c ds]; [easy|]. apply digit_no_sign. apply D.
    + destruct Sg; [|reflexivity|reflexivity]. destruct ds as [|c ds]; [easy|]. apply digit_no_space. apply D.
Qed.

Lemma version_field_iff s n : strToUnsigned s = Some n <-> version_field s n.
Proof.
  unfold version_field. split.
  - intros H. destruct s as [|c s]; [discriminate|]. unfold strToUnsigned in H. destruct (strtol (String c s)) as [[v t]|] eqn:E; [|discriminate].
    destruct t; [|discriminate]. apply strtol_iff in E. destruct E as (ws & sg & z & ds & -> & W & Sg & Ne & D & _ & ->).
    rewrite sapp_nil. exists ws, sg, z, ds. repeat split; auto.
    + destruct (Z.max _ _ <? 0)%Z eqn:L in H; [discriminate|]. apply Z.ltb_ge in L. lia.
    + destruct (Z.max _ _ <? 0)%Z eqn:L in H; [discriminate|]. apply Z.ltb_ge in L. injection H as <-. f_equal. lia.
  - intros (ws & sg & z & ds & -> & W & Sg & Ne & D & P & ->).
    assert (E : strtol (ws ++ sg ++ ds) = Some (Z.max (- 2 ^ 63) (Z.min (2 ^ 63 - 1) (z * number 0 ds)), "")%Z).
    { apply strtol_iff. exists ws, sg, z, ds. rewrite sapp_nil. repeat split; auto. }
    unfold strToUnsigned. rewrite E. replace (Z.max (- 2 ^ 63) (Z.min (2 ^ 63 - 1) (z * number 0 ds)))%Z with (Z.min (2 ^ 63 - 1) (z * number 0 ds))%Z by lia.
    destruct (ws ++ sg ++ ds) eqn:Es; [exfalso; destruct ws, Sg, ds; cbn in Es; congruence|].
    destruct (Z.min (2 ^ 63 - 1) (z * number 0 ds) <? 0)%Z eqn:L; [apply Z.ltb_lt in L; lia|reflexivity].
Qed.

Fixpoint no_dot (s : string) : Prop := match s with EmptyString => True | String c t => c <> "."%char /\ no_dot t end.
Lemma no_dot_app a b : no_dot (a ++ b) <-> no_dot a /\ no_dot b.
Proof. induction a; cbn; tauto. Qed.
Lemma field_no_dot s n : version_field s n -> no_dot s.
Proof.
  intros (ws & sg & z & ds & -> & W & Sg & _ & D & _). rewrite !no_dot_app. repeat split.
  - clear - W. induction ws; cbn in *; [auto|]. destruct W as [Wc W]. split; [|auto]. intros ->. unfold white in Wc. cbn in Wc. repeat destruct Wc as [Wc|Wc]; discriminate || contradiction.
  - destruct Sg; cbn; repeat split; discriminate.
  - clear - D. induction ds; cbn in *; [auto|]. destruct D as [Dc D]. split; [|auto]. intros ->. unfold digit in Dc. cbn in Dc. repeat destruct Dc as [Dc|Dc]; discriminate || contradiction.
Qed.
Lemma split_nodot a : forall cur, no_dot a -> cur ++ a <> "" -> split_go "." cur a = [cur ++ a].
Proof.
  induction a as [|c a IH]; intros cur N Ne; cbn.
  - rewrite sapp_nil in *. destruct cur; [congruence|reflexivity].
  - destruct N as [Nc N]. destruct (Ascii.eqb_spec c "."); [contradiction|]. rewrite IH; [|assumption|]; rewrite sapp_assoc; [reflexivity|exact Ne].
Qed.
Lemma split_dot a t : forall cur, no_dot a -> split_go "." cur (a ++ String "." t) = (cur ++ a) :: split_go "." "" t.
Proof.
  induction a as [|c a IH]; intros cur N; cbn.
  - rewrite sapp_nil. reflexivity.
  - destruct N as [Nc N]. destruct (Ascii.eqb_spec c "."); [contradiction|]. rewrite IH by assumption. rewrite sapp_assoc. reflexivity.
Qed.
Lemma split_inv s : forall cur l, split_go "." cur s = l -> no_dot cur ->
  (l = [] /\ cur = "" /\ s = "") \/ (exists a, s = a /\ no_dot a /\ l = [cur ++ a] /\ cur ++ a <> "") \/
  (exists a t, s = a ++ String "." t /\ no_dot a /\ l = (cur ++ a) :: split_go "." "" t).
Proof.
  induction s as [|c s IH]; intros cur l H N; cbn in H.
  - destruct cur; [left; auto|right; left]. exists "". rewrite sapp_nil. repeat split; auto. discriminate.
  - destruct (Ascii.eqb_spec c ".") as [->|Nc].
    + right; right. exists "", s. rewrite sapp_nil. repeat split; auto.
    + apply IH in H; [|apply no_dot_app; cbn; tauto]. destruct H as [(_ & E & _)|[(a & -> & Na & -> & Ne)|(a & t & -> & Na & ->)]].
      * exfalso. destruct cur; discriminate.
      * right; left. exists (String c a). rewrite sapp_assoc in *. cbn in *. repeat split; auto.
      * right; right. exists (String c a), t. rewrite sapp_assoc. cbn. repeat split; auto.
Qed.
Lemma split_two s a b : split_string "." s = [a; b] -> b <> "" -> s = a ++ "." ++ b \/ s = a ++ "." ++ b ++ ".".
Proof.
  unfold split_string. intros H Nb. apply split_inv in H; [|exact I]. destruct H as [(? & _)|[(? & _ & _ & ? & _)|(x & t & -> & Nx & E)]]; try discriminate.
  injection E as <- E. symmetry in E. apply split_inv in E; [|exact I]. destruct E as [(? & _)|[(y & -> & Ny & E & _)|(y & u & -> & Ny & E)]]; try discriminate.
  - injection E as ->. left. reflexivity.
  - injection E as -> E. symmetry in E. apply split_inv in E; [|exact I]. destruct E as [(_ & _ & ->)|[(? & _ & _ & ? & _)|(? & ? & _ & _ & ?)]]; try discriminate. right. reflexivity.
Qed.

Lemma version_iff x : version_ok (attribute "version" x) = true <-> version_reads x.
Proof.
  unfold version_reads. rewrite no_attr_iff. setoid_rewrite has_attr_iff. split.
  - unfold version_ok. destruct (attribute "version" x) as [s|]; [|auto]. intros H. right.
    destruct (split_string "." s) as [|a [|b [|c l]]] eqn:E; try discriminate.
    destruct (strToUnsigned a) as [na|] eqn:Ea; [|discriminate]. destruct (strToUnsigned b) as [nb|] eqn:Eb; [|discriminate].
    apply andb_prop in H. destruct H as [H1 H2]. apply Z.eqb_eq in H1, H2. subst. apply version_field_iff in Ea, Eb.
    exists s, a, b. split; [reflexivity|]. split; [|auto]. apply split_two; [exact E|]. intros ->. destruct Eb as (ws & sg & z & ds & Es & _ & _ & Ne & _). destruct ws, sg, ds; cbn in Es; congruence.
  - intros [->|(s & a & b & -> & S & Fa & Fb)]; [reflexivity|]. unfold version_ok.
    assert (Nb : b <> "") by (intros ->; destruct Fb as (ws & sg & z & ds & Es & _ & _ & Ne & _); destruct ws, sg, ds; cbn in Es; congruence).
    assert (Es : split_string "." s = [a; b]).
    { pose proof (field_no_dot _ _ Fa) as Na. pose proof (field_no_dot _ _ Fb) as Nbd. unfold split_string. destruct S as [->| ->]; cbn [append].
      - rewrite split_dot by exact Na. cbn [append]. rewrite split_nodot by assumption. reflexivity.
      - rewrite split_dot by exact Na. cbn [append]. rewrite split_dot by assumption. reflexivity. }
    rewrite Es. apply version_field_iff in Fa, Fb. rewrite Fa, Fb. reflexivity.
Qed.

Theorem document_reads_iff `{A : Arith} top R : describes top R <-> document_reads top R.
Proof.
  unfold describes, document_reads, robot_of_kids. split.
  - intros (robot & name & H1 & H2 & H3 & H4 & H5). destruct (children "robot" top) as [|r rest] eqn:E; [discriminate|]. injection H1 as ->.
    destruct (all_joints (children "joint" (x_kids robot))) as [js|] eqn:EJ; [|discriminate]. injection H5 as <-.
    exists robot, rest, (x_kids robot), (children "material" (x_kids robot)), (map mat_name (children "material" (x_kids robot))),
      (children "link" (x_kids robot)), (children "joint" (x_kids robot)).
    split; [apply elements_iff; auto|]. split; [apply inside_iff; reflexivity|]. split; [exists name; apply has_attr_iff; exact H2|]. split; [apply version_iff; exact H3|].
    split; [apply elements_iff; reflexivity|]. split; [apply material_names; reflexivity|]. split; [apply (materials_iff _ []); exact H4|].
    split; [apply elements_iff; reflexivity|]. split; [apply links_iff; reflexivity|]. split; [apply elements_iff; reflexivity|]. apply all_joints_iff. exact EJ.
  - intros (robot & rest & kids & ms & mns & ls & js & E1 & E2 & (name & N) & V & E3 & E4 & ND & E5 & E6 & E7 & E8).
    apply inside_iff in E2. subst kids. apply elements_iff in E1, E3, E5, E7. apply material_names in E4. subst ms ls js mns.
    apply links_iff in E6. apply all_joints_iff in E8. apply version_iff in V. apply has_attr_iff in N.
    exists robot, name. rewrite <- E1. split; [reflexivity|]. split; [exact N|]. split; [exact V|].
    split; [apply materials_iff; split; [exact ND|intros ? _ []]|]. rewrite E8, E6. destruct R; reflexivity.
Qed.

(** ** Nodes without meaning *)

Lemma alike_tag x x' t : alike x x' -> has_tag t x = has_tag t x'.
Proof. intros []. reflexivity. Qed.
Lemma alike_attr x x' n : alike x x' -> attribute n x = attribute n x'.
Proof. intros []. reflexivity. Qed.

Lemma alike_children tag kids kids' t : alike_kids tag kids kids' -> In t (used_inside tag) -> Forall2 alike (children t kids) (children t kids').
Proof.
  intros H. induction H as [|tag x x' k k' X H IH|tag x k k' M H IH|tag x k k' M H IH]; intros I.
  - constructor.
  - unfold children. cbn [filter]. fold (has_tag t x). fold (has_tag t x'). rewrite (alike_tag _ _ t X). fold (children t k). fold (children t k').
    destruct (has_tag t x'); [constructor|]; auto.
  - unfold children at 1. cbn [filter]. fold (has_tag t x). fold (children t k). specialize (M t I). rewrite tagged_iff in M.
    destruct (has_tag t x); [congruence|]. auto.
  - unfold children at 2. cbn [filter]. fold (has_tag t x). fold (children t k'). specialize (M t I). rewrite tagged_iff in M.
    destruct (has_tag t x); [congruence|]. auto.
Qed.

Definition opt_alike (o o' : option xml) : Prop :=
  match o, o' with None, None => True | Some x, Some x' => alike x x' | _, _ => False end.
Lemma alike_first x x' tag t : alike x x' -> has_tag tag x = true -> In t (used_inside tag) -> opt_alike (first_child t x) (first_child t x').
Proof.
  intros [tag' attrs kids kids' H] T I. cbn in T. apply String.eqb_eq in T. subst tag'.
  pose proof (alike_children _ _ _ _ H I) as F. unfold first_child. cbn [x_kids]. destruct F; cbn; auto.
Qed.

Section Alike.
Context `{A : Arith}.

Lemma alike_pose x x' : alike x x' -> parsePose x = parsePose x'.
Proof. intros H. unfold parsePose. rewrite !(alike_attr _ _ _ H). reflexivity. Qed.
Lemma alike_num x x' n d : alike x x' -> num_attr n d x = num_attr n d x'.
Proof. intros H. unfold num_attr. rewrite !(alike_attr _ _ _ H). reflexivity. Qed.
Lemma alike_req x x' n : alike x x' -> req_num_attr n x = req_num_attr n x'.
Proof. intros H. unfold req_num_attr. rewrite !(alike_attr _ _ _ H). reflexivity. Qed.

Ltac kid H T t := let E := fresh in pose proof (alike_first _ _ _ t H T) as E; specialize (E ltac:(cbn; tauto)); unfold opt_alike in E;
  repeat match goal with
  | |- context [first_child t ?x] => destruct (first_child t x)
  | E : context [first_child t ?x] |- _ => destruct (first_child t x)
  end; try contradiction E.

Lemma alike_joint x x' : alike x x' -> has_tag "joint" x = true -> parseJoint x = parseJoint x'.
Proof.
  intros H T. unfold parseJoint.
  assert (E1 : parse_joint_origin x = parse_joint_origin x').
  { unfold parse_joint_origin. kid H T "origin"; [rewrite (alike_pose _ _ H0)|]; reflexivity. }
  assert (E2 : forall t, t = "parent" \/ t = "child" -> link_ref t x = link_ref t x').
  { intros t [-> | ->]; unfold link_ref; [kid H T "parent"|kid H T "child"]; try rewrite (alike_attr _ _ _ H0); reflexivity. }
  assert (E3 : forall ty, parse_axis ty x = parse_axis ty x').
  { intros ty. unfold parse_axis. kid H T "axis"; [rewrite (alike_attr _ _ _ H0)|]; reflexivity. }
  assert (E4 : forall ty, parse_limit ty x = parse_limit ty x').
  { intros ty. unfold parse_limit, parseJointLimits. kid H T "limit"; [rewrite !(alike_num _ _ _ _ H0), !(alike_req _ _ _ H0)|]; reflexivity. }
  assert (E5 : opt_child_ok "safety_controller" parseJointSafety x = opt_child_ok "safety_controller" parseJointSafety x').
  { unfold opt_child_ok, parseJointSafety. kid H T "safety_controller"; [rewrite !(alike_num _ _ _ _ H0), !(alike_req _ _ _ H0)|]; reflexivity. }
  assert (E6 : opt_child_ok "calibration" parseJointCalibration x = opt_child_ok "calibration" parseJointCalibration x').
  { unfold opt_child_ok, parseJointCalibration. kid H T "calibration"; [rewrite !(alike_num _ _ _ _ H0)|]; reflexivity. }
  assert (E7 : opt_child_ok "dynamics" parseJointDynamics x = opt_child_ok "dynamics" parseJointDynamics x').
  { unfold opt_child_ok, parseJointDynamics. kid H T "dynamics"; [rewrite !(alike_num _ _ _ _ H0), !(alike_attr _ _ _ H0)|]; reflexivity. }
  assert (E8 : parse_mimic x = parse_mimic x').
  { unfold parse_mimic, parseJointMimic. kid H T "mimic"; [rewrite !(alike_num _ _ _ _ H0), !(alike_attr _ _ _ H0)|]; reflexivity. }
  rewrite E1, E5, E6, E7, E8, (E2 "parent" (or_introl eq_refl)), (E2 "child" (or_intror eq_refl)), !(alike_attr _ _ _ H).
  destruct (attribute "name" x'); [|reflexivity]. destruct (parse_joint_origin x'); [|reflexivity]. destruct (attribute "type" x'); [|reflexivity].
  destruct (joint_type_of_string _); [|reflexivity]. rewrite E3, E4. reflexivity.
Qed.

Lemma alike_inertial x x' : alike x x' -> has_tag "inertial" x = true -> parseInertial x = parseInertial x'.
Proof.
  intros H T. unfold parseInertial.
  assert (E1 : match first_child "origin" x with None => (true, pose_clear) | Some e => parsePose e end =
               match first_child "origin" x' with None => (true, pose_clear) | Some e => parsePose e end).
  { kid H T "origin"; [rewrite (alike_pose _ _ H0)|]; reflexivity. }
  rewrite E1. destruct (match first_child "origin" x' with None => (true, pose_clear) | Some e => parsePose e end) as [ok P].
  destruct ok; cbn [negb]; [|reflexivity].
  kid H T "mass"; [|reflexivity]. rewrite (alike_req _ _ _ H0). destruct (req_num_attr "value" _); [|reflexivity].
  kid H T "inertia"; [|reflexivity]. rewrite !(alike_req _ _ _ H1). reflexivity.
Qed.

Lemma first_child_tag x t e : first_child t x = Some e -> has_tag t e = true.
Proof. intros H. apply tagged_iff. apply child_iff in H. destruct H as (kids & es & _ & E). remember (e :: es) as l. revert e es Heql. induction E; intros; [discriminate|injection Heql as <- <-; assumption|eauto]. Qed.

Lemma alike_link x x' : alike x x' -> has_tag "link" x = true -> parseLink x = parseLink x'.
Proof.
  intros H T. unfold parseLink. rewrite !(alike_attr _ _ _ H). destruct (attribute "name" x'); [|reflexivity]. f_equal.
  pose proof (alike_first _ _ _ "inertial" H T ltac:(cbn; tauto)) as E. destruct (first_child "inertial" x) as [e|] eqn:E1, (first_child "inertial" x') as [e'|] eqn:E2; try contradiction E; [|reflexivity].
  rewrite (alike_inertial e e' E (first_child_tag _ _ _ E1)). reflexivity.
Qed.

Lemma alike_children_tag kids t x : In x (children t kids) -> has_tag t x = true.
Proof. intros I. apply filter_In in I. apply I. Qed.

Lemma alike_links l l' : Forall2 alike l l' -> (forall x, In x l -> has_tag "link" x = true) -> forall acc, parse_links l acc = parse_links l' acc.
Proof.
  induction 1 as [|x x' l l' X H IH]; intros T acc; [reflexivity|]. cbn [parse_links]. rewrite (alike_link _ _ X (T x (or_introl eq_refl))).
  destruct (assoc _ acc); [reflexivity|]. apply IH. intros y I. apply T. right. exact I.
Qed.
Lemma alike_joints l l' : Forall2 alike l l' -> (forall x, In x l -> has_tag "joint" x = true) -> forall acc, parse_joints l acc = parse_joints l' acc.
Proof.
  induction 1 as [|x x' l l' X H IH]; intros T acc; [reflexivity|]. cbn [parse_joints]. rewrite (alike_joint _ _ X (T x (or_introl eq_refl))).
  destruct (parseJoint x'); [|reflexivity]. destruct (assoc _ acc); [reflexivity|]. apply IH. intros y I. apply T. right. exact I.
Qed.
Lemma alike_materials l l' : Forall2 alike l l' -> forall seen, materials_ok seen l = materials_ok seen l'.
Proof.
  induction 1 as [|x x' l l' X H IH]; intros seen; [reflexivity|]. cbn [materials_ok]. rewrite (alike_attr _ _ _ X). destruct (existsb _ seen); [reflexivity|apply IH].
Qed.

Theorem alike_parse top top' : alike_kids "" top top' -> parseURDF_dom (Some top) = parseURDF_dom (Some top').
Proof.
  intros H. unfold parseURDF_dom. pose proof (alike_children _ _ _ "robot" H ltac:(cbn; tauto)) as F.
  assert (TG : forall x, In x (children "robot" top) -> has_tag "robot" x = true) by (intros x; apply alike_children_tag).
  destruct F as [|r r' l l' X F]; [reflexivity|]. cbn [hd_error]. rewrite !(alike_attr _ _ _ X). destruct (attribute "name" r'); [|reflexivity].
  destruct (negb _); [reflexivity|].
  specialize (TG r (or_introl eq_refl)). destruct X as [tag attrs kids kids' K]. cbn in TG. apply String.eqb_eq in TG. subst tag. cbn [x_kids].
  unfold parse_robot_kids.
  rewrite (alike_materials _ _ (alike_children _ _ _ "material" K ltac:(cbn; tauto)) []).
  rewrite (alike_links _ _ (alike_children _ _ _ "link" K ltac:(cbn; tauto)) ltac:(intros ?; apply alike_children_tag) []).
  rewrite (alike_joints _ _ (alike_children _ _ _ "joint" K ltac:(cbn; tauto)) ltac:(intros ?; apply alike_children_tag) []).
  reflexivity.
Qed.
End Alike.
