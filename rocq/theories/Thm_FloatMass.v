(** C84: mass and centre of mass in rounded arithmetic. *)
From Coq Require Import QArith Qreals String List Arith Lia Bool Permutation Reals Lra.
From Verif Require Import Base Num Pose DataStructure Urdf Kin Wrapper Decimal RealArith FloatArith Ieee
  Spec_Robot Spec_Hist Spec_Load Spec_Jac Spec_Mass Spec_Rot Spec_Body Spec_Deriv Spec_Float
  Pf_Data Inv Pf_FK Rep Pf_Ops Pf_Jac Pf_Pose Pf_Reach Pf_Wrap Pf_Mass Pf_Real Pf_Body
  Pf_Float1 Pf_Float2 Pf_Float3 Pf_Float4 Pf_Float5 Pf_Float6 Pf_Float7 Pf_Float8 Thm_Pose Thm_Fk Thm_Float Ex_Robot Ex_Float.
Import ListNotations.
Local Open Scope R_scope.

(** the number of link elements with an inertial element *)
Definition massive_count (E : @Robot RA) : nat := length (massive (r_links E)).
Definition masses_nonnegative (E : @Robot RA) : Prop := forall n i, In (n, Some i) (r_links E) -> 0 <= in_mass i.

(** C84.  The centre of mass, the entries of its Jacobian for the joints, and the total mass,
    computed in rounded arithmetic against the exact ones after the same calls.  [A], [L] and
    [D] are as in C76; [M] is the exact total mass and [N] the number of massive links.  The
    error is that of a link pose plus one of order [u * N], relative to the size of the robot;
    light robots lose accuracy as [1 / M], since rounding errors are partly absolute. *)
Theorem C84_rounded_centre_of_mass :
  forall (o : Ops) (u : R), accurate o u -> 0 <= u ->
  forall tinyxml text top E root sorted jsorted ops' m',
    @reached RA tinyxml text E root sorted jsorted ops' m' -> clean ops' = true -> tinyxml text = Some top ->
    let s' := after sorted jsorted ops' in
  forall A L D, 0 <= A -> 1 <= L -> moderate A L top E ->
    within_range A L (r_joints E) (by_name (jnames jsorted) (as_angles s')) ->
    (forall n d, levels (r_joints E) root (as_added s') n d -> (d <= D)%nat) ->
    4000000 * u * (1 + A) * (INR D + 1) <= 1 ->
  forall M N, M = total_mass m' -> N = INR (massive_count E) -> masses_nonnegative E -> 0 < M -> 1000 * u * N * (1 + / M) <= 1 ->
  forall m0 ops m, @ctor (FA o) tinyxml text = Ok m0 ->
    Forall2 (same_call o (1000 * u * (1 + A)) A L) ops ops' -> run ops m0 = Some m ->
    Rabs (total_mass m - M) <= 4 * u * N * (1 + M) /\
    (forall m1 c m2 c', get_com m = (m1, Ok c) -> get_com m' = (m2, Ok c') ->
       vdist o c c' <= 40000000 * u * (1 + A) * L * (INR D + 1) ^ 2 + 400 * u * (L * (INR D + 1)) * N * (1 + / M)) /\
    (forall jids wb m1 J m2 J', (forall k, In k jids -> (k < length (get_joint_names m'))%nat) ->
       get_com_jacobian jids wb m = (m1, Ok J) -> get_com_jacobian jids wb m' = (m2, Ok J') ->
       forall r c, (r < 3)%nat -> (c < length jids)%nat ->
         Rabs (entry J r c - entry J' r c) <=
           200000000 * u * (1 + A) * L * (INR D + 1) ^ 2 + 1000 * u * (L * (INR D + 1)) * N * (1 + / M)).
Proof.
  intros o u Hacc U0 tinyxml text top E root sorted jsorted ops' m' Hr Hc Et s' A L D A0 L1 Md W HD B M N EM EN Pos M0 BN m0 ops m C F Er.
  destruct (small_unit u A D U0 A0 B) as [Hu Hw].
  destruct (runs_both_full o u _ _ _ _ _ _ _ _ _ _ _ D _ _ _ Hacc U0 A0 L1 B Hr Et Md C F Er) as (R & so & jso & Hx & HJ & EJ & Es & HS & S). fold s' in S.
  assert (Hcx : clean ops = true) by (rewrite (clean_both _ _ _ _ _ _ F); exact Hc).
  destruct (reached_Rep _ _ _ _ _ _ _ _ Hx) as [HR1 HC1]. destruct (reached_Rep _ _ _ _ _ _ _ _ Hr) as [HR2 HC2].
  specialize (HC1 Hcx). specialize (HC2 Hc). fold s' in HR2.
  assert (G1 : Good m) by (split; auto; apply HR1). assert (G2 : Good m') by (split; auto; apply HR2).
  assert (Ll : length jso = length jsorted) by (apply (f_equal (@length string)) in EJ; unfold jnames in EJ; now rewrite !map_length in EJ).
  pose proof (massive_both o u A L _ _ HS) as HM. pose proof (proj1 (proj2 Hr)) as O. pose proof (proj1 (proj2 Hx)) as OR.
  pose proof (massive_perm _ _ (ord_links _ _ _ O)) as MP.
  assert (Pos' : forall n i, In (n, i) (massive sorted) -> 0 <= in_mass i).
  { intros n i I. apply (Permutation_in _ MP) in I. unfold massive in I. apply in_flat_map in I. destruct I as ([n1 [i1|]] & I1 & I2); [|destruct I2].
    destruct I2 as [Eq|[]]. injection Eq as <- <-. exact (Pos _ _ I1). }
  assert (Ms : M = sum_l (map (fun ni => in_mass (snd ni)) (massive sorted))).
  { rewrite EM, (rep_mass _ _ _ _ _ _ _ _ HR2), mass_sum_rsum. symmetry. apply sum_l_rsum. }
  assert (Ns : N = INR (length (massive sorted))) by (rewrite EN; unfold massive_count; now rewrite (Permutation_length MP)).
  assert (Det : forall n P1 P2, pose_at E root jsorted s' n P1 -> pose_at E root jsorted s' n P2 -> P1 = P2).
  { intros n' P1 P2 H1 H2. exact (rep_pose_det _ _ _ _ _ _ _ _ HR2 _ _ _ H1 H2). }
  split; [|split].
  - rewrite (rep_mass _ _ _ _ _ _ _ _ HR1), (mass_sum_FA o u Hacc), Ms, Ns. rewrite Ms, Ns in BN. rewrite Ms in M0.
    exact (total_both o u Hacc Hu so sorted HM Pos' M0 BN).
  - intros m1 c m2 c' X1 X2. rewrite Ms, Ns. rewrite Ms, Ns in BN. rewrite Ms in M0.
    exact (com_both o u Hacc Hu A L A0 L1 Hw R E root so jso sorted jsorted (after so jso ops) s' D HJ EJ S W HD B Det HM Pos' M0 BN c c'
      (reached_has_com _ _ _) (reached_has_com _ _ _)
      (get_com_ok _ _ _ _ _ _ _ _ _ _ HR1 G1 (reached_has_com _ _ _) X1) (get_com_ok _ _ _ _ _ _ _ _ _ _ HR2 G2 (reached_has_com _ _ _) X2)).
  - intros jids wb m1 J m2 J' Hk X1 X2 r c Lr Lc. rewrite Ms, Ns. rewrite Ms, Ns in BN. rewrite Ms in M0.
    rewrite (rep_joint_count _ _ _ _ _ _ _ _ HR2) in Hk.
    assert (Hk1 : forall k, In k jids -> (k < length jso)%nat) by (intros k I; rewrite Ll; now apply Hk).
    destruct (nth_error jids c) as [k|] eqn:Ek; [|apply nth_error_None in Ek; lia].
    apply (com_jac_both o u Hacc Hu A L A0 L1 Hw R E root so jso sorted jsorted (after so jso ops) s' D HJ OR O EJ S W HD B Det HM Pos' M0 BN jids wb J J' c k r); auto.
    + exact (get_com_jacobian_ok _ _ _ _ _ _ _ _ _ _ _ _ HR1 G1 Hk1 X1).
    + exact (get_com_jacobian_ok _ _ _ _ _ _ _ _ _ _ _ _ HR2 G2 Hk X2).
    + apply Hk. eapply nth_error_In; eauto.
Qed.
Print Assumptions C84_rounded_centre_of_mass.

Definition fl_ccheck {A : Arith} (ops : list op) : bool :=
  match ctor fl_tinyxml ex_text with
  | Ok m0 => match run ops m0 with
             | Some m => is_some (replied (get_com m)) && is_some (replied (get_com_jacobian [1; 0]%nat false m))
             | None => false
             end
  | _ => false
  end.
Lemma fl_ccheck_ok {A : Arith} ops : fl_ccheck ops = true -> exists m0 m, ctor fl_tinyxml ex_text = Ok m0 /\ run ops m0 = Some m /\
  (exists m1 c, get_com m = (m1, Ok c)) /\ (exists m1 J, get_com_jacobian [1; 0]%nat false m = (m1, Ok J)).
Proof.
  unfold fl_ccheck. destruct (ctor fl_tinyxml ex_text) as [m0|e|u|]; try discriminate. destruct (run ops m0) as [m|] eqn:E; [|discriminate].
  intros H. apply andb_prop in H. destruct H as [H1 H2]. exists m0, m. split; [reflexivity|]. split; [exact E|]. split.
  - destruct (is_some_ex _ H1) as (c & X). destruct (replied_ok _ _ X) as (m1 & Y). eauto.
  - destruct (is_some_ex _ H2) as (J & X). destruct (replied_ok _ _ X) as (m1 & Y). eauto.
Qed.
Lemma fl_ccheck_exact : @fl_ccheck RA fl_exact = true.
Proof. vm_compute. reflexivity. Qed.
Lemma fl_ccheck_rounded rnd : @fl_ccheck (FA (rounding rnd)) (fl_rounded (rounding rnd)) = true.
Proof. vm_compute. reflexivity. Qed.
Lemma fl_mass : in_mass (snd ("arm"%string, nth 0 (map snd (massive fl_sorted)) fl_i)) = Q2R 3.
Proof. vm_compute. reflexivity. Qed.

(** it applies to doubles and the example robot of C76 (whose other hypotheses are shown
    there), which has one massive link of mass 3 *)
Example C84_example :
  (exists m', reached fl_tinyxml ex_text fl_R "base" fl_sorted fl_jsorted fl_exact m' /\ clean fl_exact = true /\
     total_mass m' = 3 /\ massive_count fl_R = 1%nat /\ masses_nonnegative fl_R /\
     1000 * double_unit * INR (massive_count fl_R) * (1 + / total_mass m') <= 1 /\
     (forall k, In k [1; 0]%nat -> (k < length (get_joint_names m'))%nat) /\
     (exists m2 c', get_com m' = (m2, Ok c')) /\ exists m2 J', get_com_jacobian [1; 0]%nat false m' = (m2, Ok J')) /\
  (exists m0 m, @ctor (FA doubles) fl_tinyxml ex_text = Ok m0 /\ run (fl_rounded doubles) m0 = Some m /\
     Forall2 (same_call doubles (1000 * double_unit * (1 + 2)) 2 2) (fl_rounded doubles) fl_exact /\
     (exists m1 c, get_com m = (m1, Ok c)) /\ exists m1 J, get_com_jacobian [1; 0]%nat false m = (m1, Ok J)).
Proof.
  assert (Mi : in_mass fl_i = 3).
  { transitivity (Q2R 3); [exact fl_mass | unfold Q2R; cbn; lra]. }
  assert (Cn : massive_count fl_R = 1%nat) by (unfold massive_count; rewrite fl_links_are; reflexivity).
  split.
  - destruct (fl_ccheck_ok _ fl_ccheck_exact) as (m0 & m & C & Er & H1 & H2). exists m.
    assert (Hr : reached fl_tinyxml ex_text fl_R "base" fl_sorted fl_jsorted fl_exact m).
    { split; [exact fl_loadable|]. split; [exact fl_ordered|]. exists m0. split; [exact C | exact Er]. }
    split; [exact Hr|]. split; [reflexivity|]. destruct (reached_Rep _ _ _ _ _ _ _ _ Hr) as [HR _].
    assert (Tm : total_mass m = 3).
    { rewrite (rep_mass _ _ _ _ _ _ _ _ HR), mass_sum_rsum. unfold massive, fl_sorted, rsum. cbn [flat_map fst snd app fold_right]. rewrite Mi. apply Rplus_0_r. }
    split; [exact Tm|]. split; [exact Cn|].
    split. { intros n i I. rewrite fl_links_are in I. destruct I as [E|[E|[E|[]]]]; [discriminate E | discriminate E|]. apply (f_equal snd) in E. cbn [snd] in E. apply some_inj in E. rewrite <- E, Mi. lra. }
    split. { rewrite Tm, Cn. unfold double_unit. cbn [INR]. lra. }
    split. { rewrite (rep_joint_count _ _ _ _ _ _ _ _ HR). assert (Lj : length fl_jsorted = 2%nat) by reflexivity. rewrite Lj. clear. intros k [<-|[<-|[]]]; lia. }
    split; [exact H1|exact H2].
  - destruct (@fl_ccheck_ok (FA doubles) _ (fl_ccheck_rounded double_round)) as (m0 & m & C & Er & H1 & H2). exists m0, m.
    split; [exact C|]. split; [exact Er|]. split; [apply fl_same|]. split; [exact H1|exact H2].
Qed.
