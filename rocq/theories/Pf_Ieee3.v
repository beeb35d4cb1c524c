(** Documents read with doubles and with rounded real numbers. *)
From Coq Require Import ZArith QArith Qreals Reals Lra Lia String Ascii List Bool.
From Flocq Require Import Core BinarySingleNaN.
From Verif Require Import Base Num Pose Urdf Decimal RealArith FloatArith Ieee Spec_Robot Spec_Float Spec_Ieee Ex_Float Pf_Float4 Pf_Ieee1 Pf_Ieee2.
Import ListNotations.
Local Open Scope R_scope.

Section Docs.
Variable pf : Platform.
Variable u : R.
Hypothesis Hpf : platform_ok pf u.
Hypothesis Hu : double_unit <= u <= / 1000.
Notation o := (ieee pf).
Let Hu1 : double_unit <= u := proj1 Hu.

Definition fits (x : xml) : Prop :=
  forall s w q, occurs s x -> w = s \/ In w (split_string " "%char s) -> strToDouble w = Some q -> Rabs (Q2R q) <= bpow radix2 1000.
Definition small_numeral (w : string) : Prop := forall q, strToDouble w = Some q -> Rabs (Q2R q) <= bpow radix2 1000.

Lemma assoc_occurs {B} n (l : list (string * B)) s : assoc n l = Some s -> In (n, s) l.
Proof. induction l as [|[k v] l IH]; cbn [assoc]; [discriminate|]. destruct (String.eqb_spec n k) as [->|_]; [intros [= ->]; now left | intros H; right; auto]. Qed.
Lemma hd_occurs {B} (l : list B) x : hd_error l = Some x -> In x l.
Proof. destruct l; [discriminate|]. intros [= ->]. now left. Qed.
Lemma attribute_occurs n x s : attribute n x = Some s -> occurs s x.
Proof. destruct x as [t a k|]; [|discriminate]. cbn [attribute]. intros H. apply assoc_occurs in H. eapply occ_attr; eauto. Qed.
Lemma fits_attr n x s : fits x -> attribute n x = Some s -> small_numeral s /\ (forall w, In w (split_string " "%char s) -> small_numeral w).
Proof. intros F H. apply attribute_occurs in H. split; [intros q E; eapply F; eauto | intros w I q E; eapply F; eauto]. Qed.
Lemma fits_kid x k : fits x -> In k (x_kids x) -> fits k.
Proof. destruct x as [t a ks|]; [|intros _ []]. intros F I s w q O. apply (F s). eapply occ_kid; eauto. Qed.
Lemma fits_child t x y : fits x -> first_child t x = Some y -> fits y.
Proof.
  intros F E. apply (fits_kid x); [exact F|]. unfold first_child in E. apply hd_occurs in E. unfold children in E. apply filter_In in E. apply E.
Qed.

Lemma parse_sim s : small_numeral s -> both (sim 1001) (p_parse pf s) (o_parse o s).
Proof.
  intros B. cbn [o_parse ieee]. destruct (strToDouble s) as [q|] eqn:E; [|rewrite (pk_refuse _ _ Hpf s E); exact I].
  specialize (B q E). destruct (Rle_dec (Rabs (Q2R q)) (bpow radix2 1000)) as [_|N]; [|contradiction].
  destruct (pk_parse _ _ Hpf s q E B) as (x & P & F & X). rewrite P. cbn. split; [exact F|]. split; [reflexivity|].
  change (1001)%Z with (1000 + 1)%Z. rewrite bpow_plus. change (bpow radix2 1) with 2. assert (1 <= bpow radix2 1000) by (apply (bpow_le radix2 0); lia).
  unfold rounds in X. assert (Y : u * (1 + Rabs (Q2R q)) <= / 1000 * (2 * bpow radix2 1000)).
  { apply Rmult_le_compat; [unfold double_unit in Hu; lra | pose proof (Rabs_pos (Q2R q)); lra | lra | lra]. }
  replace (value x) with ((value x - Q2R q) + Q2R q) by ring. eapply Rle_trans; [apply Rabs_triang|]. lra.
Qed.
Lemma conv_sim l : (forall w, In w l -> small_numeral w) -> both (Forall2 (sim 1001)) (@conv_pieces (DA pf) l) (@conv_pieces (FA o) l).
Proof.
  induction l as [|s l IH]; intros B; [constructor|]. assert (IH' := IH (fun w I => B w (or_intror I))). destruct s as [|c s]; [exact IH'|].
  cbn [conv_pieces]. pose proof (parse_sim (String c s) (B _ (or_introl eq_refl))) as P.
  change (@str_to_double (DA pf) (String c s)) with (p_parse pf (String c s)). change (@str_to_double (FA o) (String c s)) with (o_parse o (String c s)).
  destruct (p_parse pf (String c s)) as [x|], (o_parse o (String c s)) as [y|]; cbn in P; try contradiction; [|exact I].
  destruct (@conv_pieces (DA pf) l) as [t|], (@conv_pieces (FA o) l) as [t'|]; cbn in IH' |- *; try contradiction; auto.
Qed.
Lemma v_init_sim s : (forall w, In w (split_string " "%char s) -> small_numeral w) -> both (simv pf 1001) (@v_init (DA pf) s) (@v_init (FA o) s).
Proof.
  intros B. unfold v_init. pose proof (conv_sim _ B) as C.
  destruct (@conv_pieces (DA pf) _) as [l'|], (@conv_pieces (FA o) _) as [l|]; cbn in C |- *; try contradiction; auto.
  destruct C as [|a' a l1' l1 Ha C]; [exact I|]. destruct C as [|b' b l2' l2 Hb C]; [exact I|].
  destruct C as [|c' c l3' l3 Hc C]; [exact I|]. destruct C; [|exact I]. now split; [|split].
Qed.
Definition if_small (q : @Rotation (DA pf)) (q' : @Rotation (FA o)) : Prop := small_q pf q' -> simq pf 1 q q'.
Lemma q_init_sim s : (forall w, In w (split_string " "%char s) -> small_numeral w) -> both if_small (@q_init (DA pf) s) (@q_init (FA o) s).
Proof.
  intros B. unfold q_init. pose proof (v_init_sim s B) as V. destruct (@v_init (DA pf) s) as [v|], (@v_init (FA o) s) as [v'|]; cbn in V |- *; try contradiction; auto.
  destruct V as (V1 & V2 & V3). intros Sm. eapply (sim_rpy pf u Hpf Hu); eauto.
Qed.

Definition pose_sim (p : @Pose (DA pf)) (p' : @Pose (FA o)) : Prop := simv pf 1001 (position p) (position p') /\ if_small (rotation p) (rotation p').
Lemma clear_v1 : simv pf 1001 (@v_clear (DA pf)) (@v_clear (FA o)).
Proof. eapply simv_le; [|apply (clear_v pf u Hpf Hu)]. lia. Qed.
Lemma clear_q1 : if_small (@q_clear (DA pf)) (@q_clear (FA o)).
Proof. intros _. eapply simq_le; [|apply (clear_q pf u Hpf Hu)]. lia. Qed.
Lemma parsePose_sim x : fits x -> fst (@parsePose (DA pf) x) = fst (@parsePose (FA o) x) /\ pose_sim (snd (@parsePose (DA pf) x)) (snd (@parsePose (FA o) x)).
Proof.
  intros F. pose proof clear_v1 as Cv. pose proof clear_q1 as Cq. unfold parsePose. destruct (attribute "xyz" x) as [s|] eqn:Es.
  - pose proof (v_init_sim s (proj2 (fits_attr _ _ _ F Es))) as V. destruct (@v_init (DA pf) s) as [v|], (@v_init (FA o) s) as [v'|]; cbn in V; try contradiction; [|split; [reflexivity|now split]].
    destruct (attribute "rpy" x) as [r|] eqn:Er; [|split; [reflexivity|now split]]. pose proof (q_init_sim r (proj2 (fits_attr _ _ _ F Er))) as Q.
    destruct (@q_init (DA pf) r), (@q_init (FA o) r); cbn in Q; try contradiction; (split; [reflexivity|now split]).
  - destruct (attribute "rpy" x) as [r|] eqn:Er; [|split; [reflexivity|now split]]. pose proof (q_init_sim r (proj2 (fits_attr _ _ _ F Er))) as Q.
    destruct (@q_init (DA pf) r), (@q_init (FA o) r); cbn in Q; try contradiction; (split; [reflexivity|now split]).
Qed.

Notation both_ok := (both (fun _ _ => True)).
Lemma num_attr_sim n d d' x : fits x -> both_ok (@num_attr (DA pf) n d x) (@num_attr (FA o) n d' x).
Proof.
  intros F. unfold num_attr. destruct (attribute n x) as [s|] eqn:E; [|exact I]. pose proof (parse_sim s (proj1 (fits_attr _ _ _ F E))) as P.
  change (@str_to_double (DA pf) s) with (p_parse pf s). change (@str_to_double (FA o) s) with (o_parse o s).
  destruct (p_parse pf s), (o_parse o s); cbn in P |- *; auto.
Qed.
Lemma req_attr_sim n x : fits x -> both (sim 1001) (@req_num_attr (DA pf) n x) (@req_num_attr (FA o) n x).
Proof.
  intros F. unfold req_num_attr. destruct (attribute n x) as [s|] eqn:E; [|exact I]. exact (parse_sim s (proj1 (fits_attr _ _ _ F E))).
Qed.
Ltac pairs F := repeat match goal with
  | |- context [@num_attr (DA pf) ?n ?d ?x] =>
      let H := fresh in match goal with |- context [@num_attr (FA o) n ?d' x] => pose proof (num_attr_sim n d d' x F) as H end;
      destruct (@num_attr (DA pf) n d x), (@num_attr (FA o) n _ x); cbn in H; try contradiction; clear H
  | |- context [@req_num_attr (DA pf) ?n ?x] =>
      let H := fresh in pose proof (req_attr_sim n x F) as H;
      destruct (@req_num_attr (DA pf) n x), (@req_num_attr (FA o) n x); cbn in H; try contradiction; clear H
  end.
Lemma limits_sim x : fits x -> both_ok (@parseJointLimits (DA pf) x) (@parseJointLimits (FA o) x).
Proof. intros F. unfold parseJointLimits. pairs F; exact I. Qed.
Lemma safety_sim x : fits x -> @parseJointSafety (DA pf) x = @parseJointSafety (FA o) x.
Proof. intros F. unfold parseJointSafety. pairs F; reflexivity. Qed.
Lemma calibration_sim x : fits x -> @parseJointCalibration (DA pf) x = @parseJointCalibration (FA o) x.
Proof. intros F. unfold parseJointCalibration. pairs F; reflexivity. Qed.
Lemma dynamics_sim x : fits x -> @parseJointDynamics (DA pf) x = @parseJointDynamics (FA o) x.
Proof. intros F. unfold parseJointDynamics. pairs F; reflexivity. Qed.
Lemma mimic_sim x : fits x -> both_ok (@parseJointMimic (DA pf) x) (@parseJointMimic (FA o) x).
Proof. intros F. unfold parseJointMimic. destruct (attribute "joint" x); [|exact I]. pairs F; exact I. Qed.
Lemma limit_sim ty x : fits x -> both_ok (@parse_limit (DA pf) ty x) (@parse_limit (FA o) ty x).
Proof.
  intros F. unfold parse_limit. destruct (first_child "limit" x) as [l|] eqn:E; [|destruct ty; exact I].
  pose proof (limits_sim l (fits_child _ _ _ F E)) as H. destruct (@parseJointLimits (DA pf) l), (@parseJointLimits (FA o) l); cbn in H; try contradiction; exact I.
Qed.
Lemma pmimic_sim x : fits x -> both_ok (@parse_mimic (DA pf) x) (@parse_mimic (FA o) x).
Proof.
  intros F. unfold parse_mimic. destruct (first_child "mimic" x) as [l|] eqn:E; [|exact I].
  pose proof (mimic_sim l (fits_child _ _ _ F E)) as H. destruct (@parseJointMimic (DA pf) l), (@parseJointMimic (FA o) l); cbn in H; try contradiction; exact I.
Qed.
Lemma opt_child_sim t f g x : fits x -> (forall y, fits y -> f y = g y) -> opt_child_ok t f x = opt_child_ok t g x.
Proof. intros F H. unfold opt_child_ok. destruct (first_child t x) eqn:E; auto. apply H. eapply fits_child; eauto. Qed.
Lemma origin_sim x : fits x -> both pose_sim (@parse_joint_origin (DA pf) x) (@parse_joint_origin (FA o) x).
Proof.
  intros F. unfold parse_joint_origin. destruct (first_child "origin" x) as [y|] eqn:E; [|split; [exact clear_v1|exact clear_q1]].
  pose proof (parsePose_sim y (fits_child _ _ _ F E)) as [P1 P2].
  destruct (@parsePose (DA pf) y) as [ok p], (@parsePose (FA o) y) as [ok' p']. cbn [fst snd] in P1, P2. subst ok'. destruct ok; [exact P2|exact I].
Qed.
Lemma axis_sim ty x : fits x -> both (simv pf 1001) (@parse_axis (DA pf) ty x) (@parse_axis (FA o) ty x).
Proof.
  intros F. pose proof clear_v1 as Cl.
  assert (K : both (simv pf 1001)
    match first_child "axis" x with None => Some (@V3 (DA pf) n1 n0 n0) | Some a => match attribute "xyz" a with None => Some v_clear | Some s => v_init s end end
    match first_child "axis" x with None => Some (@V3 (FA o) n1 n0 n0) | Some a => match attribute "xyz" a with None => Some v_clear | Some s => v_init s end end).
  { destruct (first_child "axis" x) as [a|] eqn:E.
    - destruct (attribute "xyz" a) as [s|] eqn:Es; [|exact Cl]. apply v_init_sim. exact (proj2 (fits_attr _ _ _ (fits_child _ _ _ F E) Es)).
    - pose proof (proj1 (lit0 pf u Hpf Hu1)) as Z. pose proof (proj1 (lit1 pf u Hpf)) as O. split; [|split]; (eapply sim_le; [|eassumption]; lia). }
  unfold parse_axis. destruct ty; solve [exact K | exact Cl].
Qed.

Record joint_sim (j : @UJoint (DA pf)) (j' : @UJoint (FA o)) : Prop := {
  js_name : uj_name j = uj_name j'; js_type : uj_type j = uj_type j'; js_parent : uj_parent j = uj_parent j'; js_child : uj_child j = uj_child j';
  js_origin : pose_sim (uj_origin j) (uj_origin j'); js_axis : simv pf 1001 (uj_axis j) (uj_axis j') }.
Lemma parseJoint_sim x : fits x -> both joint_sim (@parseJoint (DA pf) x) (@parseJoint (FA o) x).
Proof.
  intros F. unfold parseJoint. destruct (attribute "name" x) as [name|]; [|exact I].
  pose proof (origin_sim x F) as O. destruct (@parse_joint_origin (DA pf) x) as [p|], (@parse_joint_origin (FA o) x) as [p'|]; cbn in O; try contradiction; [|exact I].
  destruct (attribute "type" x) as [ts|]; [|exact I]. destruct (joint_type_of_string ts) as [ty|]; [|exact I].
  pose proof (axis_sim ty x F) as X. destruct (@parse_axis (DA pf) ty x) as [a|], (@parse_axis (FA o) ty x) as [a'|]; cbn in X; try contradiction; [|exact I].
  pose proof (limit_sim ty x F) as Li. destruct (@parse_limit (DA pf) ty x) as [l|], (@parse_limit (FA o) ty x) as [l'|]; cbn in Li; try contradiction; [|exact I].
  rewrite (opt_child_sim "safety_controller" _ _ x F safety_sim). destruct (negb _); [exact I|].
  rewrite (opt_child_sim "calibration" _ _ x F calibration_sim). destruct (negb _); [exact I|].
  pose proof (pmimic_sim x F) as M. destruct (@parse_mimic (DA pf) x) as [mm|], (@parse_mimic (FA o) x) as [mm'|]; cbn in M; try contradiction; [|exact I].
  rewrite (opt_child_sim "dynamics" _ _ x F dynamics_sim). destruct (negb _); [exact I|].
  cbn. split; cbn [uj_name uj_type uj_parent uj_child uj_origin uj_axis]; auto.
Qed.

(** links: the centre of mass and the mass *)
Definition link_sim (l : string * option (@Inertial (DA pf))) (l' : string * option (@Inertial (FA o))) : Prop :=
  fst l = fst l' /\ both (fun i i' => simv pf 1001 (position (in_origin i)) (position (in_origin i')) /\ sim 1001 (in_mass i) (in_mass i')) (snd l) (snd l').
Lemma link_desc_sim x : fits x -> link_sim (@link_desc (DA pf) x) (@link_desc (FA o) x).
Proof.
  intros F. unfold link_desc, link_sim, parseLink. destruct (attribute "name" x) as [n|]; [|split; [reflexivity|exact I]].
  cbn [fst snd ul_name ul_inertial]. split; [reflexivity|]. destruct (first_child "inertial" x) as [i|] eqn:E; [|exact I]. cbn [both].
  pose proof (fits_child _ _ _ F E) as Fi. assert (Z : sim 1001 (@n0 (DA pf)) (@n0 (FA o))) by (eapply sim_le; [|exact (proj1 (lit0 pf u Hpf Hu1))]; lia).
  rewrite !inertial_origin, !inertial_mass. destruct (first_child "origin" i) as [y|] eqn:Ey.
  - destruct (parsePose_sim y (fits_child _ _ _ Fi Ey)) as [P1 P2]. split; [apply P2|]. rewrite P1. destruct (fst (@parsePose (FA o) y)); [|exact Z].
    destruct (first_child "mass" i) as [mx|] eqn:Em; [|exact Z]. pose proof (req_attr_sim "value" mx (fits_child _ _ _ Fi Em)) as H.
    destruct (@req_num_attr (DA pf) "value" mx), (@req_num_attr (FA o) "value" mx); cbn in H; try contradiction; [exact H|exact Z].
  - split; [exact clear_v1|].
    destruct (first_child "mass" i) as [mx|] eqn:Em; [|exact Z]. pose proof (req_attr_sim "value" mx (fits_child _ _ _ Fi Em)) as H.
    destruct (@req_num_attr (DA pf) "value" mx), (@req_num_attr (FA o) "value" mx); cbn in H; try contradiction; [exact H|exact Z].
Qed.
Lemma all_joints_sim l : (forall x, In x l -> fits x) -> both (Forall2 joint_sim) (@all_joints (DA pf) l) (@all_joints (FA o) l).
Proof.
  induction l as [|x l IH]; intros F; [constructor|]. cbn [all_joints]. pose proof (parseJoint_sim x (F x (or_introl eq_refl))) as J. specialize (IH (fun y I => F y (or_intror I))).
  destruct (@parseJoint (DA pf) x) as [j|], (@parseJoint (FA o) x) as [j'|]; cbn in J; try contradiction; [|exact I].
  destruct (@all_joints (DA pf) l) as [js|], (@all_joints (FA o) l) as [js'|]; cbn in IH |- *; try contradiction; [|exact I]. now constructor.
Qed.
Lemma kids_sim kids : (forall x, In x kids -> fits x) -> both (fun R E => Forall2 joint_sim (r_joints R) (r_joints E) /\ Forall2 link_sim (r_links R) (r_links E))
  (@robot_of_kids (DA pf) kids) (@robot_of_kids (FA o) kids).
Proof.
  intros F. assert (Fc : forall t x, In x (children t kids) -> fits x) by (intros t x I; unfold children in I; apply filter_In in I; apply F, I).
  unfold robot_of_kids. pose proof (all_joints_sim _ (Fc "joint"%string)) as J.
  destruct (@all_joints (DA pf) _) as [js|], (@all_joints (FA o) _) as [js'|]; cbn in J |- *; try contradiction; [|exact I].
  split; [exact J|]. specialize (Fc "link"%string). induction (children "link" kids) as [|x l IH]; constructor; [apply link_desc_sim, Fc; now left | apply IH; intros; apply Fc; now right].
Qed.
Lemma describes_sim top E : numerals_fit top -> @describes (FA o) top E ->
  exists R, @describes (DA pf) top R /\ Forall2 joint_sim (r_joints R) (r_joints E) /\ Forall2 link_sim (r_links R) (r_links E).
Proof.
  intros F (robot & name & H1 & H2 & H3 & H4 & H5).
  assert (Fr : fits robot). { apply hd_occurs in H1. unfold children in H1. apply filter_In in H1. intros s w q O W E0. eapply F; eauto. apply H1. }
  pose proof (kids_sim (x_kids robot) (fun x I => fits_kid _ _ Fr I)) as K. rewrite H5 in K.
  destruct (@robot_of_kids (DA pf) (x_kids robot)) as [R|] eqn:X; [|contradiction]. exists R. split; [exists robot, name; auto|exact K].
Qed.
End Docs.
