(** A concrete robot whose joint frame is turned, for the theorems about rounding: an arm on a
    revolute joint and a hand on a prismatic joint; and the arithmetic of IEEE doubles. *)
From Coq Require Import QArith Qreals String List Arith Permutation Sorted Reals Lra Lia.
From Flocq Require Import Core Relative.
From Verif Require Import Base Num Pose DataStructure Urdf Kin Wrapper Spec_Robot Spec_Hist Spec_Load Decimal RealArith FloatArith Ieee Spec_Float
  Pf_Reach Pf_Real Ex_Robot.
Import ListNotations.
Local Open Scope string_scope.

Definition fl_kids : list xml :=
  [ el "link" [("name", "hand")] [];
    el "link" [("name", "base")] [];
    el "link" [("name", "arm")] [ex_inertial "0 0 0.5" "3"];
    el "joint" [("name", "slide"); ("type", "prismatic")]
      [el "parent" [("link", "arm")] []; el "child" [("link", "hand")] []; el "axis" [("xyz", "0 1 0")] [];
       el "limit" [("lower", "-1"); ("upper", "1"); ("effort", "1"); ("velocity", "1")] []];
    el "joint" [("name", "turn"); ("type", "continuous")]
      [el "parent" [("link", "base")] []; el "child" [("link", "arm")] [];
       el "origin" [("xyz", "0.1 0 0.2"); ("rpy", "0.5 0 -1")] []; el "axis" [("xyz", "0 0 1")] []] ].
Definition fl_top : list xml := [el "robot" [("name", "fl")] fl_kids].
Definition fl_tinyxml : string -> option (list xml) := fun _ => Some fl_top.
Definition fl_R : @Robot RA := match robot_of_kids fl_kids with Some r => r | None => mkRobot [] [] end.
Definition fl_slide : @UJoint RA := nth 0 (r_joints fl_R) dummy_joint.
Definition fl_turn : @UJoint RA := nth 1 (r_joints fl_R) dummy_joint.
Lemma fl_links : link_names fl_R = ["hand"; "base"; "arm"]. Proof. reflexivity. Qed.
Lemma fl_joints : r_joints fl_R = [fl_slide; fl_turn]. Proof. reflexivity. Qed.
Lemma fl_slide_name : uj_name fl_slide = "slide". Proof. reflexivity. Qed.
Lemma fl_slide_type : uj_type fl_slide = PRISMATIC. Proof. reflexivity. Qed.
Lemma fl_slide_parent : uj_parent fl_slide = "arm". Proof. reflexivity. Qed.
Lemma fl_slide_child : uj_child fl_slide = "hand". Proof. reflexivity. Qed.
Lemma fl_turn_name : uj_name fl_turn = "turn". Proof. reflexivity. Qed.
Lemma fl_turn_type : uj_type fl_turn = CONTINUOUS. Proof. reflexivity. Qed.
Lemma fl_turn_parent : uj_parent fl_turn = "base". Proof. reflexivity. Qed.
Lemma fl_turn_child : uj_child fl_turn = "arm". Proof. reflexivity. Qed.
Lemma fl_slide_at : position (uj_origin fl_slide) = v_clear. Proof. reflexivity. Qed.
Lemma fl_turn_at : position (uj_origin fl_turn) = @V3 RA (Q2R (1 # 10)) (Q2R 0) (Q2R (2 # 10)). Proof. reflexivity. Qed.
Lemma fl_slide_axis : uj_axis fl_slide = @V3 RA n0 n1 n0. Proof. reflexivity. Qed.
Lemma fl_turn_axis : uj_axis fl_turn = @V3 RA n0 n0 n1. Proof. reflexivity. Qed.
Lemma fl_rpy : @v_init RA "0.5 0 -1" = Some (@V3 RA (Q2R (5 # 10)) (Q2R 0) (Q2R (-1 # 1))). Proof. reflexivity. Qed.
Definition fl_l (k : nat) := nth k (r_links fl_R) ("", None).
Definition fl_i : @Inertial RA := match snd (fl_l 2) with Some i => i | None => mkInertial pose_clear n0 n0 n0 n0 n0 n0 n0 end.
Lemma fl_links_are : r_links fl_R = [("hand", None); ("base", None); ("arm", Some fl_i)]. Proof. reflexivity. Qed.
Lemma fl_i_at : position (in_origin fl_i) = @V3 RA (Q2R 0) (Q2R 0) (Q2R (5 # 10)). Proof. reflexivity. Qed.
Global Opaque fl_slide fl_turn fl_i.
Lemma fl_in j : In j (r_joints fl_R) -> j = fl_slide \/ j = fl_turn.
Proof. rewrite fl_joints. intros [<-|[<-|[]]]; auto. Qed.
Ltac fl := rewrite ?fl_slide_name, ?fl_slide_type, ?fl_slide_parent, ?fl_slide_child, ?fl_turn_name, ?fl_turn_type, ?fl_turn_parent, ?fl_turn_child.

Lemma fl_tree : is_tree fl_R "base".
Proof.
  constructor.
  - rewrite fl_links. nodup.
  - rewrite fl_joints. cbn [map]. fl. nodup.
  - intros j I. rewrite fl_links. destruct (fl_in j I) as [X|X]; rewrite X; clear X I; fl; simpl; auto.
  - rewrite fl_links. simpl; auto.
  - intros j I. destruct (fl_in j I) as [X|X]; rewrite X; fl; intros Y; discriminate Y.
  - rewrite fl_joints. cbn [map]. fl. nodup.
  - assert (C1 : connected (r_joints fl_R) "base" "arm").
    { pose proof (conn_joint (r_joints fl_R) "base" fl_turn) as X. revert X. fl. intros X. apply X; [rewrite fl_joints; simpl; auto | constructor]. }
    assert (C2 : connected (r_joints fl_R) "base" "hand").
    { pose proof (conn_joint (r_joints fl_R) "base" fl_slide) as X. revert X. fl. intros X. apply X; [rewrite fl_joints; simpl; auto | exact C1]. }
    intros n. rewrite fl_links. intros [<-|[<-|[<-|[]]]]; auto. constructor.
Qed.
Lemma fl_describes : describes fl_top fl_R.
Proof. exists (el "robot" [("name", "fl")] fl_kids), "fl". repeat split; reflexivity. Qed.
Lemma fl_loadable : loadable fl_tinyxml ex_text fl_R "base".
Proof.
  constructor.
  - discriminate.
  - exists fl_top. split; [reflexivity | exact fl_describes].
  - exact fl_tree.
  - intros j I. destruct (fl_in j I) as [X|X]; rewrite X; fl; split; intros Y; discriminate Y.
  - intros j I. destruct (fl_in j I) as [X|X]; rewrite X; clear X I; fl; left; unfold is_movable; auto.
  - intros n i I. rewrite fl_links. apply (in_map fst) in I.
    change (map fst (r_links fl_R)) with (link_names fl_R) in I. rewrite fl_links in I. cbn [fst] in I.
    destruct I as [<-|[<-|[<-|[]]]]; simpl; intuition discriminate.
Qed.
Definition fl_sorted : list (string * option (@Inertial RA)) := [("arm", Some fl_i); ("base", None); ("hand", None)].
Definition fl_jsorted := [fl_slide; fl_turn].
Lemma fl_ordered : ordered fl_R fl_sorted fl_jsorted.
Proof.
  constructor.
  - rewrite fl_links_are. apply (Permutation_rev fl_sorted).
  - repeat constructor.
  - intros j. rewrite fl_joints. split.
    + intros I. split; [exact I|]. destruct I as [<-|[<-|[]]]; fl; unfold is_movable; auto.
    + intros [I _]. exact I.
  - unfold fl_jsorted. cbn [map]. fl. repeat constructor.
Qed.

(** the same calls in any arithmetic on the reals: turn by 2, slide by 1/2, move and turn the
    base, add a camera, query *)
Definition fl_ops {A : Arith} (r : R -> num) : list op :=
  [Op_set_joint_angles [1; 0]%nat [r 2%R; r (1 / 2)%R]; Op_set_base_xyzrpy [r 1%R; r 0%R; r 0%R; r 0%R; r 0%R; r (-1)%R];
   Op_get_link_pose 2; Op_add_new_link "camera" 2 (V3 (r 0%R) (r 0%R) (r 1%R)) (V3 (r 0%R) (r 2%R) (r 0%R))].
Definition fl_exact : list (@op RA) := @fl_ops RA (fun x => x).
Definition fl_rounded (o : Ops) : list (@op (FA o)) := @fl_ops (FA o) (fun x => x).

Definition fl_m0 : KM := match ctor fl_tinyxml ex_text with Ok m => m | _ => ex_m0 end.
Lemma fl_ctor : ctor fl_tinyxml ex_text = Ok fl_m0.
Proof. destruct (load_ok _ _ _ _ _ _ fl_loadable fl_ordered) as (m0 & E & _). unfold fl_m0. now rewrite E. Qed.
Lemma fl_reached ops m : run ops fl_m0 = Some m -> reached fl_tinyxml ex_text fl_R "base" fl_sorted fl_jsorted ops m.
Proof. intros E. split; [exact fl_loadable|]. split; [exact fl_ordered|]. exists fl_m0. split; [exact fl_ctor | exact E]. Qed.

(** ** IEEE doubles, round to nearest even, with exponents unbounded above *)
Local Open Scope R_scope.
Lemma double_unit_bpow : double_unit = / 2 * bpow radix2 (- 53 + 1).
Proof. unfold double_unit. change (-53 + 1)%Z with (-52)%Z. unfold bpow. change (Z.pow_pos radix2 52) with 4503599627370496%Z. lra. Qed.
Lemma double_rounds x : rounds double_unit x (double_round x).
Proof.
  destruct (error_N_FLT radix2 (-1074) 53 eq_refl (fun t => negb (Z.even t)) x) as (eps & eta & H1 & H2 & _ & E).
  unfold rounds. unfold double_round. rewrite E. replace (x * (1 + eps) + eta - x) with (x * eps + eta) by ring.
  eapply Rle_trans; [apply Rabs_triang|]. rewrite Rabs_mult. assert (H1u : Rabs eps <= double_unit) by (rewrite double_unit_bpow; exact H1).
  assert (H3 : Rabs eta <= double_unit).
  { eapply Rle_trans; [exact H2|]. rewrite double_unit_bpow. apply Rmult_le_compat_l; [lra|]. apply bpow_le. lia. }
  pose proof (Rabs_pos x). pose proof (Rabs_pos eps). assert (Rabs x * Rabs eps <= Rabs x * double_unit) by (apply Rmult_le_compat_l; lra). lra.
Qed.
Definition doubles : Ops := rounding double_round.
Lemma doubles_accurate : accurate doubles double_unit.
Proof. apply rounding_accurate; [unfold double_round; apply round_0; apply valid_rnd_N | exact double_rounds]. Qed.

(** ** The example in both arithmetics *)
Definition replied {S B} (x : S * res B) : option B := match x with (_, Ok b) => Some b | _ => None end.
Lemma replied_ok {S B} (x : S * res B) b : replied x = Some b -> exists m', x = (m', Ok b).
Proof. destruct x as [m' [c|e|u|]]; cbn; try discriminate. intros [= ->]. eauto. Qed.
Definition fl_check {A : Arith} (ops : list op) (qs : list (list num)) : bool :=
  match ctor fl_tinyxml ex_text with
  | Ok m0 => match run ops m0 with
             | Some m => forallb (fun i => is_some (replied (get_link_pose i m))) (seq 0 5) &&
                         is_some (replied (solve_forward_kinematics qs [4; 2]%nat [0; 1]%nat XYZW true true false m))
             | None => false
             end
  | _ => false
  end.
Lemma fl_check_ok {A : Arith} ops qs : fl_check ops qs = true -> exists m0 m, ctor fl_tinyxml ex_text = Ok m0 /\ run ops m0 = Some m /\
  (forall i, (i < 5)%nat -> exists m1 P, get_link_pose i m = (m1, Ok P)) /\
  (exists m1 P J, solve_forward_kinematics qs [4; 2]%nat [0; 1]%nat XYZW true true false m = (m1, Ok (P, J))).
Proof.
  unfold fl_check. destruct (ctor fl_tinyxml ex_text) as [m0|e|u|]; try discriminate. destruct (run ops m0) as [m|] eqn:E; [|discriminate].
  intros H. apply andb_prop in H. destruct H as [H1 H2]. exists m0, m. split; [reflexivity|]. split; [exact E|]. split.
  - intros i Hi. rewrite forallb_forall in H1. specialize (H1 i). rewrite in_seq in H1. destruct (is_some_ex _ (H1 ltac:(lia))) as (P & X).
    destruct (replied_ok _ _ X) as (m1 & Y). eauto.
  - destruct (is_some_ex _ H2) as ([P J] & X). destruct (replied_ok _ _ X) as (m1 & Y). eauto.
Qed.
Definition fl_qs : list (list R) := [[1; 2; 0; 0; 1; 0; 0; 1]; [-1; 1; 1; 0; 0; 1; 1; 1]].
Lemma fl_check_exact : @fl_check RA fl_exact fl_qs = true.
Proof. vm_compute. reflexivity. Qed.
Lemma fl_check_rounded rnd : @fl_check (FA (rounding rnd)) (fl_rounded (rounding rnd)) fl_qs = true.
Proof. vm_compute. reflexivity. Qed.

Lemma fl_exact_runs : exists m', reached fl_tinyxml ex_text fl_R "base" fl_sorted fl_jsorted fl_exact m' /\
  (forall i, (i < 5)%nat -> exists m2 P', get_link_pose i m' = (m2, Ok P')) /\
  exists m2 P' J', solve_forward_kinematics fl_qs [4; 2]%nat [0; 1]%nat XYZW true true false m' = (m2, Ok (P', J')).
Proof.
  destruct (fl_check_ok _ _ fl_check_exact) as (m0 & m & C & Er & H1 & H2). exists m. split; [|split; [exact H1|exact H2]].
  split; [exact fl_loadable|]. split; [exact fl_ordered|]. exists m0. split; [exact C | exact Er].
Qed.

Notation fl_s := (after fl_sorted fl_jsorted fl_exact).
Lemma fl_angles : as_angles fl_s = [1 / 2; 2].
Proof. reflexivity. Qed.
Lemma fl_added : map fst (as_added fl_s) = [("arm_com", "arm"); ("camera", "hand")].
Proof. reflexivity. Qed.
Definition fl_depth (n : string) : nat :=
  if String.eqb n "base" then 0 else if String.eqb n "arm" then 1 else if String.eqb n "camera" then 3 else 2.
Lemma fl_levels n d : levels (r_joints fl_R) "base" (as_added fl_s) n d -> d = fl_depth n.
Proof.
  intros H. induction H as [|j d I H IH|n p T d I H IH]; [reflexivity| |].
  - destruct (fl_in j I) as [X|X]; rewrite X in *; clear X I; revert IH; fl; intros ->; reflexivity.
  - apply (in_map fst) in I. rewrite fl_added in I. cbn [fst] in I. destruct I as [E|[E|[]]]; injection E as <- <-; rewrite IH; reflexivity.
Qed.
Lemma fl_levels3 n d : levels (r_joints fl_R) "base" (as_added fl_s) n d -> (d <= 3)%nat.
Proof. intros H. rewrite (fl_levels n d H). unfold fl_depth. destruct (String.eqb n "base"), (String.eqb n "arm"), (String.eqb n "camera"); lia. Qed.

Lemma fl_within s : (forall x, In x (as_angles s) -> Rabs x <= 2) -> length (as_angles s) = 2%nat ->
  within_range 2 2 (r_joints fl_R) (by_name (jnames fl_jsorted) (as_angles s)).
Proof.
  intros H Ls j I. destruct (as_angles s) as [|a [|b [|c l]]]; try discriminate Ls.
  assert (Ha : Rabs a <= 2) by (apply H; left; reflexivity). assert (Hb : Rabs b <= 2) by (apply H; right; left; reflexivity).
  destruct (fl_in j I) as [X|X]; rewrite X; clear X I; fl; unfold jnames, fl_jsorted; cbn [map]; fl; unfold by_name; cbn; assumption.
Qed.

Lemma vlen_le (v : @Vector3 RA) r : 0 <= r -> vx v ^ 2 + vy v ^ 2 + vz v ^ 2 <= r ^ 2 -> vlen v <= r.
Proof. intros Hr H. unfold vlen. rewrite <- (sqrt_pow2 r Hr). apply sqrt_le_1_alt. exact H. Qed.
Lemma vlen_1 (v : @Vector3 RA) : vx v ^ 2 + vy v ^ 2 + vz v ^ 2 = 1 -> vlen v = 1.
Proof. intros H. unfold vlen. rewrite H. apply sqrt_1. Qed.

Ltac q2r := unfold Q2R; cbn [Qnum Qden].
Lemma some_inj {B} (a b : B) : Some a = Some b -> a = b. Proof. now intros [= ->]. Qed.
Lemma fl_moderate : moderate 2 2 fl_top fl_R.
Proof.
  split.
  - exact fl_describes.
  - intros robot j x s v Hr Hj Hx Hs Hv. injection Hr as <-. cbn [x_kids el] in Hj.
    destruct Hj as [<-|[<-|[]]]; [discriminate Hx|]. injection Hx as <-. injection Hs as <-. rewrite fl_rpy in Hv. injection Hv as <-.
    unfold angles_within. cbn [vx vy vz]. q2r. repeat split; apply Rabs_le; lra.
  - intros j I. destruct (fl_in j I) as [X|X]; rewrite X; clear X I; apply vlen_le; try lra.
    + rewrite fl_slide_at. cbn. q2r. lra.
    + rewrite fl_turn_at. cbn [vx vy vz]. q2r. lra.
  - intros j I _. destruct (fl_in j I) as [X|X]; rewrite X; clear X I; apply vlen_1; rewrite ?fl_slide_axis, ?fl_turn_axis; cbn; q2r; lra.
  - intros n i I. rewrite fl_links_are in I. destruct I as [E|[E|[E|[]]]]; [discriminate E | discriminate E|]. apply (f_equal snd) in E. cbn [snd] in E. apply some_inj in E. rewrite <- E.
    apply vlen_le; [lra|]. rewrite fl_i_at. cbn [vx vy vz]. q2r. lra.
Qed.

Lemma fl_same o e : Forall2 (same_call o e 2 2) (fl_rounded o) fl_exact.
Proof.
  unfold fl_rounded, fl_exact, fl_ops. repeat (apply Forall2_cons); [| | | |apply Forall2_nil].
  - apply sc_set_joint_angles.
  - apply sc_set_base_xyzrpy. split; [apply vlen_le; [lra|]; cbn; lra|]. unfold angles_within. cbn. repeat split; apply Rabs_le; lra.
  - apply sc_get_link_pose.
  - apply sc_add_new_link; try (unfold same_vector; cbn; auto; fail).
    + apply vlen_le; [lra|]. cbn. lra.
    + unfold angles_within. cbn. repeat split; apply Rabs_le; lra.
Qed.
Lemma fl_small : 4000000 * double_unit * (1 + 2) * (INR 3 + 1) <= 1.
Proof. unfold double_unit. cbn [INR]. lra. Qed.
Lemma fl_bases : bases_within 2 2 true fl_qs.
Proof.
  intros _ q [<-|[<-|[]]]; cbn [length Nat.sub skipn]; (split; [apply vlen_le; [lra|]; cbn; lra|]); unfold angles_within; cbn; repeat split; apply Rabs_le; lra.
Qed.
Lemma fl_ways q : In q fl_qs -> within_range 2 2 (r_joints fl_R) (by_name (jnames fl_jsorted) (as_angles (at_waypoint (A := RA) [0; 1]%nat true q fl_s))).
Proof.
  intros I. apply fl_within; unfold at_waypoint; cbn [as_angles]; rewrite fl_angles.
  - destruct I as [<-|[<-|[]]]; cbn; intros x [<-|[<-|[]]]; apply Rabs_le; lra.
  - destruct I as [<-|[<-|[]]]; reflexivity.
Qed.
