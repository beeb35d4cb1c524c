(** The same document and the same calls in rounded and in exact arithmetic. *)
From Coq Require Import QArith Qreals Reals Lra Lia String Ascii List Psatz Permutation Sorted Bool.
From Verif Require Import Base Num Pose DataStructure Urdf Kin Wrapper Decimal RealArith FloatArith Spec_Robot Spec_Hist Spec_Load Spec_Float
  Pf_Urdf Pf_Real Pf_Rot Pf_BaseD Pf_Float1 Pf_Float2 Pf_Float3.
Import ListNotations.
Local Open Scope R_scope.

Lemma Forall2_impl {B C} (P Q : B -> C -> Prop) l l' : (forall a b, P a b -> Q a b) -> Forall2 P l l' -> Forall2 Q l l'.
Proof. intros H F. induction F; constructor; auto. Qed.

Section Both.
Variable o : Ops.
Variable u : R.
Hypothesis Hacc : accurate o u.
Hypothesis Hu : 0 <= u <= / 1000.
Variables A L : R.
Hypothesis HA : 0 <= A.
Hypothesis HL : 1 <= L.
Hypothesis Hw : unit_err u A <= / 10000.
Notation w := (unit_err u A).
Notation e := (1000 * unit_err u A).

(** ** Numbers and poses *)
Definition both {B C} (P : B -> C -> Prop) (a : option B) (b : option C) : Prop :=
  match a, b with Some x, Some y => P x y | None, None => True | _, _ => False end.

Lemma conv_both l : both (Forall2 (fun x' x => rounds u x x')) (@conv_pieces (FA o) l) (@conv_pieces RA l).
Proof.
  induction l as [|s l IH]; [constructor|]. destruct s as [|c s]; [exact IH|].
  cbn [conv_pieces]. pose proof (acc_parse _ _ Hacc (String c s)) as P.
  change (@str_to_double (FA o)) with (o_parse o). change (@str_to_double RA (String c s)) with (option_map Q2R (strToDouble (String c s))).
  destruct (strToDouble (String c s)) as [q|], (o_parse o (String c s)) as [x|]; cbn [option_map]; try contradiction; [|exact I].
  destruct (conv_pieces l) as [t'|], (@conv_pieces RA l) as [t|]; cbn in IH |- *; try contradiction; auto.
Qed.

Definition v_rounds (v' : @Vector3 (FA o)) (v : vec) : Prop :=
  rounds u (vx v) (vx v') /\ rounds u (vy v) (vy v') /\ rounds u (vz v) (vz v').

Lemma v_init_both s : both v_rounds (@v_init (FA o) s) (@v_init RA s).
Proof.
  unfold v_init. pose proof (conv_both (split_string " "%char s)) as C.
  destruct (@conv_pieces (FA o) (split_string " "%char s)) as [l'|], (@conv_pieces RA (split_string " "%char s)) as [l|]; cbn in C |- *; try contradiction; auto.
  destruct C as [|a' a l1' l1 Ha C]; [exact I|]. destruct C as [|b' b l2' l2 Hb C]; [exact I|].
  destruct C as [|c' c l3' l3 Hc C]; [exact I|]. destruct C; [|exact I]. now split; [|split].
Qed.

Lemma rounds_abs x x' B : Rabs x <= B -> rounds u x x' -> Rabs (x' - x) <= u * (1 + B).
Proof. unfold rounds. intros H D. eapply Rle_trans; [exact D|]. apply Rmult_le_compat_l; lra. Qed.

Lemma v_rounds_dv v' v B : nv v <= B -> v_rounds v' v -> dv (vR o v') v <= 2 * (u * (1 + B)).
Proof.
  intros HB (X & Y & Z). destruct (comp_nv v) as (A1 & A2 & A3).
  pose proof (nv_nonneg v) as P. assert (0 <= u * (1 + B)) by (apply Rmult_le_pos; lra).
  unfold dv, dist. apply N_comp; unfold q_minus, qv, vR; cbn [qx qy qz qw vx vy vz]; rnum; try (apply rounds_abs; [lra|assumption]).
  rewrite Rminus_diag_eq, Rabs_R0 by reflexivity. lra.
Qed.

Lemma near_of E F p p' : unit_q (rotation p') -> nv (position p') <= L -> close o E F p p' -> E <= e -> F <= e * L -> pose_near o e L p p'.
Proof.
  intros U S [C1 C2] H1 H2. split.
  - rewrite qlen_N. now apply N_unit.
  - rewrite vlen_nv. exact S.
  - rewrite qdist_dist. lra.
  - rewrite vdist_dv. lra.
Qed.
Lemma e_facts : 0 <= u /\ u <= w /\ 0 <= w /\ 1000 * u * L <= e * L /\ u <= u * L.
Proof.
  pose proof (w_u u Hu A HA) as W. pose proof (w_nn u Hu A HA) as W0. split; [lra|]. split; [exact W|]. split; [exact W0|].
  split; [apply Rmult_le_compat_r; lra|nra].
Qed.

Lemma clear_pose_near : pose_near o e L pose_clear pose_clear.
Proof.
  destruct e_facts as (U0 & U1 & W0 & UL & U2). apply (near_of (4 * u) (2 * u)).
  - exact clear_unit.
  - change (position pose_clear) with v_clear. rewrite nv_clear. lra.
  - apply clear_near; assumption.
  - lra.
  - lra.
Qed.

(** a pose read from an element *)
Definition rpy_within (x : xml) : Prop :=
  forall s v, attribute "rpy" x = Some s -> @v_init RA s = Some v -> angles_within A v.

Lemma q_init_both s : (forall v, @v_init RA s = Some v -> angles_within A v) ->
  both (fun q' q => unit_q q /\ dist (qR o q') q <= e) (@q_init (FA o) s) (@q_init RA s).
Proof.
  intros H. unfold q_init. pose proof (v_init_both s) as V. destruct (@v_init (FA o) s) as [v'|], (@v_init RA s) as [v|]; cbn in V |- *; try contradiction; auto.
  destruct (H v eq_refl) as (H1 & H2 & H3). destruct V as (V1 & V2 & V3). split; [apply rpy_unit|].
  apply round_rpy; try assumption; (eapply Rle_trans; [apply rounds_abs; [|eassumption]; eassumption|unfold unit_err; lra]).
Qed.
Lemma q_init_some s : (@q_init (FA o) s = None <-> @q_init RA s = None).
Proof.
  unfold q_init. pose proof (v_init_both s) as V. destruct (@v_init (FA o) s) as [v'|], (@v_init RA s) as [v|]; cbn in V; try contradiction; split; congruence.
Qed.

Lemma parsePose_ok x : fst (@parsePose (FA o) x) = fst (@parsePose RA x).
Proof.
  unfold parsePose. destruct (attribute "xyz" x) as [s|].
  - pose proof (v_init_both s) as V. destruct (@v_init (FA o) s) as [v'|], (@v_init RA s) as [v|]; cbn in V; try contradiction; [|reflexivity].
    destruct (attribute "rpy" x) as [r|]; [|reflexivity]. pose proof (q_init_some r) as Q.
    destruct (@q_init (FA o) r) as [q'|], (@q_init RA r) as [q|]; try reflexivity; exfalso; destruct Q as [Q1 Q2]; [specialize (Q2 eq_refl) | specialize (Q1 eq_refl)]; discriminate.
  - destruct (attribute "rpy" x) as [r|]; [|reflexivity]. pose proof (q_init_some r) as Q.
    destruct (@q_init (FA o) r) as [q'|], (@q_init RA r) as [q|]; try reflexivity; exfalso; destruct Q as [Q1 Q2]; [specialize (Q2 eq_refl) | specialize (Q1 eq_refl)]; discriminate.
Qed.

(** position left behind, also when parsing fails *)
Lemma parsePose_position x : nv (position (snd (@parsePose RA x))) <= L ->
  dv (vR o (position (snd (@parsePose (FA o) x)))) (position (snd (@parsePose RA x))) <= e * L.
Proof.
  destruct e_facts as (U0 & U1 & W0 & UL & U2).
  assert (Cl : dv (vR o (@v_clear (FA o))) (@v_clear RA) <= e * L) by (pose proof (proj2 (clear_near o u Hacc Hu)) as C; cbn [position] in C; lra).
  assert (V : forall v' v, v_rounds v' v -> nv v <= L -> dv (vR o v') v <= e * L).
  { intros v' v H S. eapply Rle_trans; [apply v_rounds_dv; eassumption|]. lra. }
  unfold parsePose. destruct (attribute "xyz" x) as [s|].
  - pose proof (v_init_both s) as B. destruct (@v_init (FA o) s) as [v'|], (@v_init RA s) as [v|]; cbn in B; try contradiction; [|intros _; exact Cl].
    destruct (attribute "rpy" x) as [r|]; [|cbn [snd position]; auto].
    destruct (@q_init (FA o) r), (@q_init RA r); cbn [snd position]; auto.
  - destruct (attribute "rpy" x) as [r|]; [|intros _; exact Cl]. destruct (@q_init (FA o) r), (@q_init RA r); intros _; exact Cl.
Qed.

Lemma parsePose_near x : rpy_within x -> nv (position (snd (@parsePose RA x))) <= L ->
  pose_near o e L (snd (@parsePose (FA o) x)) (snd (@parsePose RA x)).
Proof.
  intros H S. pose proof (parsePose_position x S) as P. destruct e_facts as (U0 & U1 & W0 & UL & U2).
  assert (Q : unit_q (rotation (snd (@parsePose RA x))) /\ dist (qR o (rotation (snd (@parsePose (FA o) x)))) (rotation (snd (@parsePose RA x))) <= e).
  { assert (Cl : unit_q (@q_clear RA) /\ dist (qR o (@q_clear (FA o))) (@q_clear RA) <= e).
    { split; [exact clear_unit|]. pose proof (proj1 (clear_near o u Hacc Hu)) as C. cbn [rotation] in C. lra. }
    unfold parsePose. destruct (attribute "xyz" x) as [s|].
    - pose proof (v_init_both s) as B. destruct (@v_init (FA o) s) as [v'|], (@v_init RA s) as [v|]; cbn in B; try contradiction; [|exact Cl].
      destruct (attribute "rpy" x) as [r|] eqn:Er; [|exact Cl]. pose proof (q_init_both r (fun v => H r v Er)) as Q.
      destruct (@q_init (FA o) r), (@q_init RA r); cbn in Q; try contradiction; [exact Q|exact Cl].
    - destruct (attribute "rpy" x) as [r|] eqn:Er; [|exact Cl]. pose proof (q_init_both r (fun v => H r v Er)) as Q.
      destruct (@q_init (FA o) r), (@q_init RA r); cbn in Q; try contradiction; [exact Q|exact Cl]. }
  destruct Q as [Q1 Q2]. apply (near_of e (e * L)); try assumption; try lra. now split.
Qed.

(** ** Joints *)
Lemma num_attr_both n (d' d : R) x : both (fun _ _ => True) (@num_attr (FA o) n d' x) (@num_attr RA n d x).
Proof.
  unfold num_attr. destruct (attribute n x) as [s|]; [|exact I]. pose proof (acc_parse _ _ Hacc s) as P.
  change (@str_to_double (FA o)) with (o_parse o). change (@str_to_double RA s) with (option_map Q2R (strToDouble s)).
  destruct (strToDouble s), (o_parse o s); cbn; auto.
Qed.
Lemma req_attr_both n x : both (fun _ _ => True) (@req_num_attr (FA o) n x) (@req_num_attr RA n x).
Proof.
  unfold req_num_attr. destruct (attribute n x) as [s|]; [|exact I]. pose proof (acc_parse _ _ Hacc s) as P.
  change (@str_to_double (FA o)) with (o_parse o). change (@str_to_double RA s) with (option_map Q2R (strToDouble s)).
  destruct (strToDouble s), (o_parse o s); cbn; auto.
Qed.
Ltac pairs := repeat match goal with
  | |- context [@num_attr (FA o) ?n ?d' ?x] =>
      let H := fresh in match goal with |- context [@num_attr RA n ?d x] => pose proof (num_attr_both n d' d x) as H end;
      destruct (@num_attr (FA o) n d' x), (@num_attr RA n _ x); cbn in H; try contradiction; clear H
  | |- context [@req_num_attr (FA o) ?n ?x] =>
      let H := fresh in pose proof (req_attr_both n x) as H;
      destruct (@req_num_attr (FA o) n x), (@req_num_attr RA n x); cbn in H; try contradiction; clear H
  end.
Lemma limits_both x : both (fun _ _ => True) (@parseJointLimits (FA o) x) (@parseJointLimits RA x).
Proof. unfold parseJointLimits. pairs; exact I. Qed.
Lemma safety_both x : @parseJointSafety (FA o) x = @parseJointSafety RA x.
Proof. unfold parseJointSafety. pairs; reflexivity. Qed.
Lemma calibration_both x : @parseJointCalibration (FA o) x = @parseJointCalibration RA x.
Proof. unfold parseJointCalibration. pairs; reflexivity. Qed.
Lemma dynamics_both x : @parseJointDynamics (FA o) x = @parseJointDynamics RA x.
Proof. unfold parseJointDynamics. pairs; reflexivity. Qed.
Lemma mimic_both x : both (fun _ _ => True) (@parseJointMimic (FA o) x) (@parseJointMimic RA x).
Proof. unfold parseJointMimic. destruct (attribute "joint" x); [|exact I]. pairs; exact I. Qed.
Lemma limit_both ty x : both (fun _ _ => True) (@parse_limit (FA o) ty x) (@parse_limit RA ty x).
Proof.
  unfold parse_limit. destruct (first_child "limit" x) as [l|]; [|destruct ty; exact I].
  pose proof (limits_both l) as H. destruct (@parseJointLimits (FA o) l), (@parseJointLimits RA l); cbn in H; try contradiction; exact I.
Qed.
Lemma pmimic_both x : both (fun _ _ => True) (@parse_mimic (FA o) x) (@parse_mimic RA x).
Proof.
  unfold parse_mimic. destruct (first_child "mimic" x) as [l|]; [|exact I].
  pose proof (mimic_both l) as H. destruct (@parseJointMimic (FA o) l), (@parseJointMimic RA l); cbn in H; try contradiction; exact I.
Qed.
Lemma opt_child_both t f g x : (forall y, f y = g y) -> opt_child_ok t f x = opt_child_ok t g x.
Proof. intros H. unfold opt_child_ok. destruct (first_child t x); auto. Qed.

Lemma origin_both x : both (fun p p' => (forall y, first_child "origin" x = Some y -> rpy_within y) -> nv (position p') <= L -> pose_near o e L p p')
  (@parse_joint_origin (FA o) x) (@parse_joint_origin RA x).
Proof.
  unfold parse_joint_origin. destruct (first_child "origin" x) as [y|]; [|cbn; intros _ _; exact clear_pose_near].
  pose proof (parsePose_ok y) as E. pose proof (parsePose_near y) as P.
  destruct (@parsePose (FA o) y) as [ok' p'], (@parsePose RA y) as [ok p]. cbn [fst snd] in E, P. subst ok'. destruct ok; [|exact I]. cbn.
  intros H S. apply P; auto.
Qed.
Lemma axis_both ty x : both (fun a a' => vlen a' = 1 -> vdist o a a' <= e) (@parse_axis (FA o) ty x) (@parse_axis RA ty x).
Proof.
  destruct e_facts as (U0 & U1 & W0 & UL & U2).
  assert (Cl : vlen (@v_clear RA) = 1 -> vdist o (@v_clear (FA o)) (@v_clear RA) <= e).
  { intros H. rewrite vlen_nv, nv_clear in H. lra. }
  assert (K : both (fun a a' => vlen a' = 1 -> vdist o a a' <= e)
    match first_child "axis" x with None => Some (@V3 (FA o) n1 n0 n0) | Some a => match attribute "xyz" a with None => Some v_clear | Some s => v_init s end end
    match first_child "axis" x with None => Some (@V3 RA n1 n0 n0) | Some a => match attribute "xyz" a with None => Some v_clear | Some s => v_init s end end).
  { destruct (first_child "axis" x) as [a|].
    - destruct (attribute "xyz" a) as [s|]; [|exact Cl]. pose proof (v_init_both s) as V.
      destruct (@v_init (FA o) s) as [v'|], (@v_init RA s) as [v|]; cbn in V |- *; try contradiction; auto.
      intros H. rewrite vlen_nv in H. rewrite vdist_dv. eapply Rle_trans; [apply (v_rounds_dv v' v 1); [lra|exact V]|]. lra.
    - cbn [both]. intros _. rewrite vdist_dv. pose proof (zero_near o u Hacc) as Z. pose proof (one_near o u Hacc) as O.
      apply Rle_trans with (2 * (2 * u)); [|lra]. unfold dv, dist. apply N_comp; unfold q_minus, qv, vR; cbn [qx qy qz qw vx vy vz]; rnum; try lra.
      rewrite Rminus_diag_eq, Rabs_R0 by reflexivity. lra. }
  unfold parse_axis. destruct ty; solve [exact K | exact Cl].
Qed.

Lemma joint_both x : both (fun j j' =>
    uj_name j = uj_name j' /\ uj_type j = uj_type j' /\ uj_parent j = uj_parent j' /\ uj_child j = uj_child j' /\
    ((forall y, first_child "origin" x = Some y -> rpy_within y) -> vlen (position (uj_origin j')) <= L ->
     (is_movable (uj_type j') -> vlen (uj_axis j') = 1) -> joint_near o e L j j'))
  (@parseJoint (FA o) x) (@parseJoint RA x).
Proof.
  unfold parseJoint. destruct (attribute "name" x) as [name|]; [|exact I].
  pose proof (origin_both x) as O. destruct (@parse_joint_origin (FA o) x) as [p|], (@parse_joint_origin RA x) as [p'|]; cbn in O; try contradiction; [|exact I].
  destruct (attribute "type" x) as [ts|]; [|exact I]. destruct (joint_type_of_string ts) as [ty|]; [|exact I].
  pose proof (axis_both ty x) as X. destruct (@parse_axis (FA o) ty x) as [a|], (@parse_axis RA ty x) as [a'|]; cbn in X; try contradiction; [|exact I].
  pose proof (limit_both ty x) as Li. destruct (@parse_limit (FA o) ty x) as [l|], (@parse_limit RA ty x) as [l'|]; cbn in Li; try contradiction; [|exact I].
  rewrite (opt_child_both "safety_controller" _ _ x safety_both). destruct (negb _); [exact I|].
  rewrite (opt_child_both "calibration" _ _ x calibration_both). destruct (negb _); [exact I|].
  pose proof (pmimic_both x) as M. destruct (@parse_mimic (FA o) x) as [mm|], (@parse_mimic RA x) as [mm'|]; cbn in M; try contradiction; [|exact I].
  rewrite (opt_child_both "dynamics" _ _ x dynamics_both). destruct (negb _); [exact I|].
  cbn. repeat (split; [reflexivity|]). intros H S V. split; cbn [uj_name uj_type uj_parent uj_child uj_origin uj_axis]; try reflexivity.
  - apply O; auto. now rewrite <- vlen_nv.
  - intros Mv. specialize (V Mv). split; [exact V|]. now apply X.
Qed.

(** ** Links and documents *)
Definition link_near (l : string * option (@Inertial (FA o))) (l' : string * option (@Inertial RA)) : Prop :=
  fst l = fst l' /\
  both (fun (i : @Inertial (FA o)) (i' : @Inertial RA) => rounds u (in_mass i') (in_mass i) /\
    (nv (position (in_origin i')) <= L -> dv (vR o (position (in_origin i))) (position (in_origin i')) <= e * L)) (snd l) (snd l').

Lemma inertial_origin {B : Arith} x : in_origin (snd (@parseInertial B x)) =
  match first_child "origin" x with None => pose_clear | Some y => snd (parsePose y) end.
Proof.
  unfold parseInertial. destruct (match first_child "origin" x with None => (true, pose_clear) | Some y => parsePose y end) as [ok p] eqn:E.
  assert (Ep : match first_child "origin" x with None => pose_clear | Some y => snd (parsePose y) end = p).
  { destruct (first_child "origin" x) as [y|]; [rewrite E; reflexivity|congruence]. }
  rewrite Ep. destruct ok; [|reflexivity]. cbn [negb].
  destruct (first_child "mass" x); [|reflexivity]. destruct (req_num_attr "value" x0); [|reflexivity]. destruct (first_child "inertia" x) as [ix|]; [|reflexivity].
  destruct (req_num_attr "ixx" ix); [|reflexivity]. destruct (req_num_attr "ixy" ix); [|reflexivity]. destruct (req_num_attr "ixz" ix); [|reflexivity].
  destruct (req_num_attr "iyy" ix); [|reflexivity]. destruct (req_num_attr "iyz" ix); [|reflexivity]. destruct (req_num_attr "izz" ix); reflexivity.
Qed.
Lemma inertial_mass {B : Arith} x : in_mass (snd (@parseInertial B x)) =
  if match first_child "origin" x with None => true | Some y => fst (@parsePose B y) end then
    match first_child "mass" x with
    | None => n0
    | Some mx => match req_num_attr "value" mx with None => n0 | Some k => k end
    end
  else n0.
Proof.
  unfold parseInertial. destruct (match first_child "origin" x with None => (true, pose_clear) | Some y => parsePose y end) as [ok p] eqn:E.
  assert (Ep : match first_child "origin" x with None => true | Some y => fst (parsePose y) end = ok).
  { destruct (first_child "origin" x) as [y|]; [rewrite E; reflexivity|congruence]. }
  rewrite Ep. destruct ok; [|reflexivity]. cbn [negb].
  destruct (first_child "mass" x); [|reflexivity]. destruct (req_num_attr "value" x0); [|reflexivity]. destruct (first_child "inertia" x) as [ix|]; [|reflexivity].
  destruct (req_num_attr "ixx" ix); [|reflexivity]. destruct (req_num_attr "ixy" ix); [|reflexivity]. destruct (req_num_attr "ixz" ix); [|reflexivity].
  destruct (req_num_attr "iyy" ix); [|reflexivity]. destruct (req_num_attr "iyz" ix); [|reflexivity]. destruct (req_num_attr "izz" ix); reflexivity.
Qed.
Lemma mass_both x : rounds u (in_mass (snd (@parseInertial RA x))) (in_mass (snd (@parseInertial (FA o) x))).
Proof.
  rewrite !inertial_mass.
  assert (Z : rounds u (@n0 RA) (@n0 (FA o))).
  { change (@n0 (FA o)) with (o_lit o 0%Q). change (@n0 RA) with (Q2R 0). apply (acc_lit _ _ Hacc). }
  assert (O : match first_child "origin" x with None => true | Some y => fst (@parsePose RA y) end =
              match first_child "origin" x with None => true | Some y => fst (@parsePose (FA o) y) end).
  { destruct (first_child "origin" x) as [y|]; [symmetry; apply parsePose_ok|reflexivity]. }
  rewrite O. destruct (match first_child "origin" x with None => true | Some y => fst (@parsePose (FA o) y) end); [|exact Z].
  destruct (first_child "mass" x) as [mx|]; [|exact Z]. unfold req_num_attr. destruct (attribute "value" mx) as [s|]; [|exact Z].
  pose proof (acc_parse _ _ Hacc s) as P.
  change (@str_to_double (FA o)) with (o_parse o). change (@str_to_double RA s) with (option_map Q2R (strToDouble s)).
  destruct (strToDouble s), (o_parse o s); cbn [option_map]; try contradiction; [exact P|exact Z].
Qed.
Lemma link_both x : link_near (@link_desc (FA o) x) (@link_desc RA x).
Proof.
  unfold link_desc, link_near, parseLink. destruct (attribute "name" x) as [n|]; [|split; [reflexivity|exact I]].
  cbn [fst snd ul_name ul_inertial]. split; [reflexivity|]. destruct (first_child "inertial" x) as [i|]; [|exact I]. cbn [both].
  split; [apply mass_both|]. rewrite !inertial_origin. destruct (first_child "origin" i) as [y|]; [apply parsePose_position|].
  intros _. destruct e_facts as (U0 & U1 & W0 & UL & U2). pose proof (proj2 (clear_near o u Hacc Hu)) as C. cbn [position] in C.
  cbn [position pose_clear]. lra.
Qed.

Definition joint_rel (x : xml) (j : @UJoint (FA o)) (j' : @UJoint RA) : Prop :=
  uj_name j = uj_name j' /\ uj_type j = uj_type j' /\ uj_parent j = uj_parent j' /\ uj_child j = uj_child j' /\
  ((forall y, first_child "origin" x = Some y -> rpy_within y) -> vlen (position (uj_origin j')) <= L ->
   (is_movable (uj_type j') -> vlen (uj_axis j') = 1) -> joint_near o e L j j').

Lemma joints_both l : both (Forall2 (fun j j' => exists x, In x l /\ joint_rel x j j')) (@all_joints (FA o) l) (@all_joints RA l).
Proof.
  induction l as [|x l IH]; [constructor|]. cbn [all_joints]. pose proof (joint_both x) as J. fold (joint_rel x) in J.
  destruct (@parseJoint (FA o) x) as [j|], (@parseJoint RA x) as [j'|]; cbn in J; try contradiction; [|exact I].
  destruct (@all_joints (FA o) l) as [js|], (@all_joints RA l) as [js'|]; cbn in IH |- *; try contradiction; [|exact I].
  constructor; [exists x; auto|]. eapply Forall2_impl; [|exact IH]. intros a b (y & Hy & H). exists y. auto.
Qed.

(** the two readings of a robot element *)
Lemma kids_both kids : both (fun R E =>
    Forall2 (fun j j' => exists x, In x (children "joint" kids) /\ joint_rel x j j') (r_joints R) (r_joints E) /\
    Forall2 link_near (r_links R) (r_links E)) (@robot_of_kids (FA o) kids) (@robot_of_kids RA kids).
Proof.
  unfold robot_of_kids. pose proof (joints_both (children "joint" kids)) as J.
  destruct (@all_joints (FA o) _) as [js|], (@all_joints RA _) as [js'|]; cbn in J |- *; try contradiction; [|exact I].
  split; [exact J|]. induction (children "link" kids) as [|x l IH]; constructor; [apply link_both | exact IH].
Qed.

Lemma read_both top : (exists R, @describes (FA o) top R) <-> (exists E, @describes RA top E).
Proof.
  split; intros (R & robot & name & H1 & H2 & H3 & H4 & H5); pose proof (kids_both (x_kids robot)) as K; rewrite H5 in K;
    [destruct (@robot_of_kids RA (x_kids robot)) as [E|] eqn:X | destruct (@robot_of_kids (FA o) (x_kids robot)) as [E|] eqn:X]; try contradiction; exists E, robot, name; auto.
Qed.

Lemma moderate_near top R E : @describes (FA o) top R -> moderate A L top E ->
  Forall2 (joint_near o e L) (r_joints R) (r_joints E) /\ Forall2 link_near (r_links R) (r_links E).
Proof.
  intros (robot & name & H1 & _ & _ & _ & H5) M. destruct (md_reads _ _ _ _ M) as (robot' & name' & G1 & _ & _ & _ & G5).
  assert (robot' = robot) by congruence. subst robot'. pose proof (kids_both (x_kids robot)) as K. rewrite H5, G5 in K. destruct K as [K1 K2].
  split; [|exact K2]. pose proof (md_origins _ _ _ _ M) as Ho. pose proof (md_axes _ _ _ _ M) as Hx.
  assert (Ha : forall x y, In x (children "joint" (x_kids robot)) -> first_child "origin" x = Some y -> rpy_within y).
  { intros x y Hx' Hy s v. exact (md_angles _ _ _ _ M robot x y s v H1 Hx' Hy). }
  clear - K1 Ho Hx Ha. induction K1 as [|j j' js js' (x & Ix & J) K1 IH]; [constructor|].
  constructor; [|apply IH; [intros; apply Ho; now right | intros; apply Hx; auto; now right]].
  destruct J as (_ & _ & _ & _ & J). apply J; [intros y Hy; eapply Ha; eauto | apply Ho; now left | intros Mv; apply Hx; [now left|exact Mv]].
Qed.

(** ** States *)
Definition frame_near (a : string * string * @Pose (FA o)) (a' : string * string * pose) : Prop :=
  fst a = fst a' /\ pose_near o e L (snd a) (snd a').
Record state_near (s : @AState (FA o)) (s' : @AState RA) : Prop := {
  sn_added : Forall2 frame_near (as_added s) (as_added s');
  sn_angles : as_angles s = as_angles s';
  sn_base : pose_near o e L (as_base s) (as_base s') }.

Lemma frames_names l l' : Forall2 frame_near l l' -> map (fun a => fst (fst a)) l = map (fun a => fst (fst a)) l'.
Proof. intros H. induction H as [|a a' l l' [Ha _] H IH]; [reflexivity|]. cbn [map]. now rewrite Ha, IH. Qed.

Lemma rpy_near (pos : @Vector3 (FA o)) (pos' : vec) r p y r' p' y' :
  v_rounds pos pos' -> nv pos' <= L -> Rabs r' <= A -> Rabs p' <= A -> Rabs y' <= A ->
  Rabs (r - r') <= w -> Rabs (p - p') <= w -> Rabs (y - y') <= w ->
  pose_near o e L (mkPose pos (@setFromRPY (FA o) r p y)) (mkPose pos' (@setFromRPY RA r' p' y')).
Proof.
  intros V S H1 H2 H3 D1 D2 D3. destruct e_facts as (U0 & U1 & W0 & UL & U2). apply (near_of e (2 * (u * (1 + L)))); cbn [position rotation].
  - apply rpy_unit.
  - exact S.
  - split; cbn [position rotation]; [now apply round_rpy | now apply v_rounds_dv].
  - lra.
  - lra.
Qed.
Lemma rounds_refl x : rounds u x x.
Proof. unfold rounds. rewrite Rminus_diag_eq, Rabs_R0 by reflexivity. apply Rmult_le_pos; [lra|]. pose proof (Rabs_pos x). lra. Qed.
Lemma diff_refl x : Rabs (x - x) <= w.
Proof. rewrite Rminus_diag_eq, Rabs_R0 by reflexivity. apply e_facts. Qed.

Lemma pose6_near b : base_within A L b -> pose_near o e L (@pose6 (FA o) b) (@pose6 RA b).
Proof.
  intros [S (H1 & H2 & H3)]. rewrite vlen_nv in S. unfold pose6.
  change (@n0 (FA o)) with (o_lit o 0%Q). rewrite (acc_zero _ _ Hacc).
  change (@n0 RA) with (Q2R 0). rewrite Q2R_0. cbn [vx vy vz] in H1, H2, H3.
  apply rpy_near; auto using diff_refl. split; [|split]; apply rounds_refl.
Qed.

Lemma way_near jids wb q s s' : (wb = true -> base_within A L (skipn (length q - 6) q)) ->
  state_near s s' -> state_near (@at_waypoint (FA o) jids wb q s) (@at_waypoint RA jids wb q s').
Proof.
  intros Hb [Sa Sn Sb]. split; cbn [at_waypoint as_added as_angles as_base]; [exact Sa| |].
  - rewrite Sn. reflexivity.
  - destruct wb; [apply pose6_near; auto | exact Sb].
Qed.
Lemma ways_near jids wb qs : bases_within A L wb qs -> forall s s', state_near s s' ->
  state_near (fold_left (fun s q => @at_waypoint (FA o) jids wb q s) qs s) (fold_left (fun s q => @at_waypoint RA jids wb q s) qs s').
Proof.
  induction qs as [|q qs IH]; intros Hb s s' H; [exact H|]. cbn [fold_left]. apply IH.
  - intros W q' Hq. apply Hb; [exact W|now right].
  - apply way_near; [|exact H]. intros W. apply Hb; [exact W|now left].
Qed.

Lemma step_near names c c' s s' : same_call o e A L c c' -> state_near s s' -> state_near (abs_step names c s) (abs_step names c' s').
Proof.
  intros C H. destruct C; cbn [abs_step]; try exact H; change (@num (FA o)) with R; change (@num RA) with R.
  - destruct H as [Sa Sn Sb]. split; cbn [as_added as_angles as_base]; auto. now rewrite Sn.
  - destruct H as [Sa Sn Sb]. split; cbn [as_added as_angles as_base]; auto. now rewrite Sn.
  - destruct H as [Sa Sn Sb]. split; cbn [as_added as_angles as_base]; auto.
  - destruct (Nat.eqb (List.length v) 6); [|exact H]. destruct H as [Sa Sn Sb]. split; cbn [as_added as_angles as_base]; auto. now apply pose6_near.
  - destruct H as [Sa Sn Sb]. split; cbn [as_added as_angles as_base]; auto. rewrite Sn.
    change (@n0 (FA o)) with (o_lit o 0%Q). rewrite (acc_zero _ _ Hacc). change (@n0 RA) with (Q2R 0). rewrite Q2R_0. reflexivity.
  - destruct H as [Sa Sn Sb]. rewrite (frames_names _ _ Sa). destruct (existsb _ _); [now split|].
    split; cbn [as_added as_angles as_base]; auto. apply Forall2_app; [exact Sa|]. constructor; [|constructor].
    split; [reflexivity|]. cbn [snd]. destruct H0 as (X1 & X2 & X3), H1 as (Y1 & Y2 & Y3), H3 as (B1 & B2 & B3). rewrite vlen_nv in H2.
    rewrite Y1, Y2, Y3. apply rpy_near; auto using diff_refl. unfold v_rounds. rewrite X1, X2, X3. auto using rounds_refl.
  - destruct wb; [|now apply ways_near]. destruct qs as [|q0 qs]; [now apply ways_near|].
    destruct (Nat.ltb _ 6 || _)%bool; [exact H|]. now apply ways_near.
  - now apply ways_near.
  - apply way_near; [discriminate|exact H].
  - now apply ways_near.
Qed.
Lemma run_near names ops ops' : Forall2 (same_call o e A L) ops ops' -> forall s s', state_near s s' ->
  state_near (abs_run names ops s) (abs_run names ops' s').
Proof. intros F. induction F as [|c c' ops ops' C F IH]; intros s s' H; [exact H|]. cbn [abs_run fold_left]. apply IH. now apply step_near. Qed.
End Both.
