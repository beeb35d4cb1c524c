(** C92 to C94: writing a description with exportURDF and reading it again. *)
From Coq Require Import QArith Reals String Ascii List Arith Lia Lra.
From Flocq Require Import Core.
From Verif Require Import Base Num Pose DataStructure Urdf Kin Decimal RealArith TinyXml Spec_Str Spec_Robot Spec_Urdf Pf_Str Pf_Read
  Appear Spec_Appear Pf_Appear Export Show Spec_Export Pf_Export Pf_Show Ex_Robot Thm_Appear.
Import ListNotations.
Local Open Scope string_scope.

(** C92.  Writing the description that was read from any accepted document and reading it
    again succeeds and gives a robot with the same name, root, links, parents, children, inertial data,
    joints, types, axes, limits and extra joint data, up to how numbers are printed, if every
    number is printed as a number.  Missing: the origins of the joints.  All of them are
    the identity in the robot that is read again. *)
Theorem C92_export_partial :
  forall (A : Arith) show top X,
    parseURDF_all (Some top) = Some X ->
    (forall x, In x (kinematic_numbers X) -> printable show x) ->
    exists X', again_file show X = Some X' /\
      robot_of X' = again_robot show (fun _ => mkPose (V3 n0 n0 n0) (Q4 n0 n0 n0 n1)) (robot_of X) /\
      xm_joints X' = map (fun kj => (fst kj, again_joint show (mkPose (V3 n0 n0 n0) (Q4 n0 n0 n0 n1)) (snd kj))) (xm_joints X).
Proof. intros A show top X E N. exact (file_again show top X E N). Qed.
Print Assumptions C92_export_partial.

(** What is written can be read exactly when the kinematic part can. *)
Theorem C92_everything_is_read :
  forall (A : Arith) doc, parseURDF_all doc = None <-> parseURDF_dom doc = None.
Proof. intros. apply all_loads. Qed.
Print Assumptions C92_everything_is_read.

(** A robot whose second link is one metre above the first.  All its numbers are printed and
    read without any loss.  Written and read again, the second link is inside the first. *)
Definition tower_top : list xml :=
  [el "robot" [("name", "tower")]
    [el "link" [("name", "a")] [el "inertial" [] [el "mass" [("value", "1")] []; el "inertia" [("ixx", "1"); ("ixy", "0"); ("ixz", "0"); ("iyy", "1"); ("iyz", "0"); ("izz", "1")] []]];
     el "link" [("name", "b")] [];
     el "joint" [("name", "j"); ("type", "revolute")]
       [el "origin" [("xyz", "0 0 1")] []; el "parent" [("link", "a")] []; el "child" [("link", "b")] []; el "axis" [("xyz", "0 0 1")] [];
        el "limit" [("lower", "0"); ("upper", "1"); ("effort", "1"); ("velocity", "1")] []; el "mimic" [("joint", "k")] []]]].
Definition show_q (x : Q) : string := if Qeq_bool x 0 then "0" else if Qeq_bool x 1 then "1" else "".
Definition height (m : res (@KM rationals)) (n : string) : option Z :=
  match m with
  | Ok k => match assoc n (link_ids k) with
            | Some i => match get_link_pose i k with (_, Ok p) => Some (Qnum (Qred (@vz rationals (position p)))) | _ => None end
            | None => None
            end
  | _ => None
  end.
Definition exactly (x : Q) : bool := match strToDouble (show_q x) with Some y => Qeq_bool y x | None => false end.
Definition one_word (s : string) : bool := match s with String c EmptyString => negb (Ascii.eqb c " ") | _ => false end.
Definition tower_check : bool :=
  match parseURDF_all (A := rationals) (Some tower_top) with
  | None => false
  | Some X =>
      forallb (fun x => andb (exactly x) (one_word (show_q x))) (kinematic_numbers X) &&
      match again_file (A := rationals) show_q X with
      | None => false
      | Some X' => match height (ctor_mi (Some (robot_of X))) "b", height (ctor_mi (Some (robot_of X'))) "b" with
                   | Some h, Some h' => (h =? 1)%Z && (h' =? 0)%Z
                   | _, _ => false
                   end
      end
  end%bool.
Lemma tower_checked : tower_check = true.
Proof. vm_compute. reflexivity. Qed.
(** Rational arithmetic, exact for a robot without angles. *)
Theorem C92_export_refuted :
  exists show top X X',
    parseURDF_all (A := rationals) (Some top) = Some X /\
    (forall x, In x (kinematic_numbers X) -> printable (A := rationals) show x /\ Qeq (again (A := rationals) show x) x) /\
    again_file (A := rationals) show X = Some X' /\
    height (ctor_mi (Some (robot_of X))) "b" = Some 1%Z /\
    height (ctor_mi (Some (robot_of X'))) "b" = Some 0%Z.
Proof.
  exists show_q, tower_top. pose proof tower_checked as T. unfold tower_check in T.
  destruct (parseURDF_all (A := rationals) (Some tower_top)) as [X|] eqn:E; [|discriminate T]. apply andb_prop in T. destruct T as (T1 & T2).
  destruct (again_file (A := rationals) show_q X) as [X'|] eqn:E'; [|discriminate T2]. exists X, X'. split; [reflexivity|]. split; [|split; [exact E'|]].
  - intros x I. rewrite forallb_forall in T1. specialize (T1 x I). apply andb_prop in T1. destruct T1 as (T1 & T3). unfold exactly in T1.
    unfold printable, again. cbn [str_to_double rationals]. destruct (strToDouble (show_q x)) as [y|]; [|discriminate T1]. apply Qeq_bool_iff in T1.
    split; [|exact T1]. destruct (show_q x) as [|c [|c' t]]; try discriminate T3. split; [discriminate|]. split; [|discriminate].
    split; [|exact Logic.I]. cbn [one_word] in T3. intros ->. discriminate T3.
  - destruct (height (ctor_mi (Some (robot_of X))) "b") as [h|]; [|discriminate T2]. destruct (height (ctor_mi (Some (robot_of X'))) "b") as [h'|]; [|discriminate T2].
    apply andb_prop in T2. destruct T2 as (T2 & T3). apply Z.eqb_eq in T2, T3. subst. split; reflexivity.
Qed.
Print Assumptions C92_export_refuted.

(** C93.  The looks are kept as well: every material, and every visual and collision of every
    link, up to how numbers are printed, if colours are printed as colours and no mesh has an
    empty file name.  Missing: the names of visuals and collisions, and the name of a material that was
    never defined. *)
Theorem C93_export_looks_partial :
  forall (A : Arith) show top X,
    parseURDF_all (Some top) = Some X ->
    (forall x, In x (kinematic_numbers X ++ look_numbers X) -> printable show x) ->
    (forall x, In x (colors X) -> color_printable show x) -> named_meshes X ->
    exists X', again_file show X = Some X' /\
      fm_materials (xm_model X') = map (fun km => (fst km, again_material show (snd km))) (fm_materials (xm_model X)) /\
      fm_links (xm_model X') = map (fun kl => (fst kl, again_link show (snd kl))) (fm_links (xm_model X)).
Proof. intros A show top X E N C M. exact (looks_again show top X E N C M). Qed.
Print Assumptions C93_export_looks_partial.

(** The document of C82 meets the hypotheses, with a stream that prints the numbers it needs. *)
Definition show_q2 (x : Q) : string :=
  if Qeq_bool x 0 then "0" else if Qeq_bool x 1 then "1" else if Qeq_bool x (1 # 2) then "0.5" else if Qeq_bool x 2 then "2" else "3".
Definition fair (x : Q) : bool := match strToDouble (show_q2 x) with Some y => Qeq_bool y x && Qle_bool 0 y && Qle_bool y 1 | None => false end%bool.
Definition good_word (x : Q) : bool := match strToDouble (show_q2 x) with Some y => Qeq_bool y x | None => false end.
Lemma show_q2_word x : show_q2 x <> "" /\ no_space (show_q2 x).
Proof. unfold show_q2. repeat (match goal with |- context [if ?b then _ else _] => destruct b end; [split; [discriminate|]; cbn; repeat split; discriminate|]). split; [discriminate|]. cbn; repeat split; discriminate. Qed.
Definition geometry_ok (g : @Geometry rationals) : bool := match g with Mesh EmptyString _ => false | _ => true end.
Definition looks_check : bool :=
  match parseURDF_all (A := rationals) (Some looks_top) with
  | None => false
  | Some X =>
      forallb good_word (kinematic_numbers X ++ look_numbers X) && forallb fair (colors X) && negb (Nat.eqb (List.length (colors X)) 0) &&
      forallb (fun kl => forallb (fun v => geometry_ok (vis_geometry v)) (fl_visuals (snd kl)) && forallb (fun c => geometry_ok (col_geometry c)) (fl_collisions (snd kl)))
        (fm_links (xm_model X))
  end%bool.
Lemma looks_checked : looks_check = true.
Proof. vm_compute. reflexivity. Qed.
Example C93_example : exists X, parseURDF_all (A := rationals) (Some looks_top) = Some X /\
  (forall x, In x (kinematic_numbers X ++ look_numbers X) -> printable (A := rationals) show_q2 x) /\
  (forall x, In x (colors X) -> color_printable (A := rationals) show_q2 x) /\ named_meshes X /\ colors X <> [].
Proof.
  pose proof looks_checked as T. unfold looks_check in T. destruct (parseURDF_all (A := rationals) (Some looks_top)) as [X|]; [|discriminate T]. exists X. split; [reflexivity|].
  apply andb_prop in T. destruct T as (T & T4). apply andb_prop in T. destruct T as (T & T3). apply andb_prop in T. destruct T as (T1 & T2). rewrite forallb_forall in T1, T2, T4.
  assert (W : forall x, strToDouble (show_q2 x) <> None -> @printable rationals show_q2 x) by (intros x H; destruct (show_q2_word x); split; [assumption|split; assumption]).
  split; [|split; [|split]].
  - intros x I. specialize (T1 x I). apply W. unfold good_word in T1. destruct (strToDouble (show_q2 x)); [discriminate|discriminate T1].
  - intros x I. specialize (T2 x I). unfold fair in T2. unfold color_printable, again. cbn [str_to_double rationals nlt n0 n1 lit].
    assert (H : strToDouble (show_q2 x) <> None) by (destruct (strToDouble (show_q2 x)); [discriminate|discriminate T2]). split; [now apply W|].
    destruct (strToDouble (show_q2 x)) as [y|]; [|discriminate T2]. apply andb_prop in T2. destruct T2 as (T2 & T5). apply andb_prop in T2. destruct T2 as (_ & T6).
    cbn [str_to_double rationals nlt n0 n1 lit]. now rewrite T5, T6.
  - intros n f I. specialize (T4 _ I). cbn [snd] in T4. apply andb_prop in T4. destruct T4 as (T5 & T6). rewrite forallb_forall in T5, T6.
    split; intros v fn sc Iv Eg Ef; [specialize (T5 v Iv)|specialize (T6 v Iv)]; rewrite Eg, Ef in *; discriminate.
  - intros C. rewrite C in T3. discriminate T3.
Qed.
(** the names are lost: the visual of that document that has the name "v" *)
Definition visual_names (X : @XModel rationals) : list string := flat_map (fun kl => map vis_name (fl_visuals (snd kl))) (fm_links (xm_model X)).
Theorem C93_export_looks_refuted :
  exists show top X X', parseURDF_all (A := rationals) (Some top) = Some X /\ again_file (A := rationals) show X = Some X' /\
    In "v" (visual_names X) /\ ~ In "v" (visual_names X').
Proof.
  exists show_q2, looks_top.
  assert (T : match parseURDF_all (A := rationals) (Some looks_top) with
    | Some X => match again_file (A := rationals) show_q2 X with Some X' => Some (visual_names X, visual_names X') | None => None end | None => None end = Some ([""; "v"; ""], [""; ""; ""])) by (vm_compute; reflexivity).
  destruct (parseURDF_all (A := rationals) (Some looks_top)) as [X|]; [|discriminate T]. destruct (again_file (A := rationals) show_q2 X) as [X'|] eqn:E; [|discriminate T]. exists X, X'.
  revert T. generalize (visual_names X) (visual_names X'). intros a b T. injection T as -> ->. split; [reflexivity|]. split; [exact E|]. split; [cbn; tauto|]. cbn. intros [C|[C|[C|[]]]]; discriminate C.
Qed.
Print Assumptions C93_export_looks_refuted.

(** C94.  What is printed is read as the same number up to five millionths of it, exactly if
    it has at most six significant digits. *)
Lemma size_range x : size_ok x -> in_range x.
Proof. unfold size_ok, in_range. rewrite !bpow_powerRZ. auto. Qed.
Lemma six_digit_format x : six_digit x -> generic_format radix10 (FLX_exp 6) x.
Proof.
  intros (m & e & Bm & ->). apply generic_format_FLX. exists (Float radix10 m e); [unfold F2R; cbn [Fnum Fexp]; rewrite bpow_powerRZ; reflexivity|]. cbn [Fnum]. exact Bm.
Qed.
Lemma again_round x : size_ok x -> again (A := RA) show6 x = round6 x.
Proof. intros S. destruct (show6_reads x (size_range x S)) as (_ & _ & H). unfold again. rewrite H. reflexivity. Qed.
Theorem C94_printed_numbers :
  forall x : R, size_ok x ->
    printable (A := RA) show6 x /\ (Rabs (again (A := RA) show6 x - x) <= 5 / 10 ^ 6 * Rabs x)%R /\
    (six_digit x -> again (A := RA) show6 x = x).
Proof.
  intros x S. destruct (show6_reads x (size_range x S)) as (H1 & H2 & H3). split; [split; [exact H1|split; [exact H2|rewrite H3; discriminate]]|]. rewrite (again_round x S).
  split; [apply round6_error|]. intros D. apply round6_exact, six_digit_format, D.
Qed.
Print Assumptions C94_printed_numbers.

(** Colours stay colours. *)
Theorem C94_printed_colours : forall x : R, size_ok x -> (0 <= x <= 1)%R -> color_printable (A := RA) show6 x.
Proof.
  intros x S (B1 & B2). destruct (C94_printed_numbers x S) as (P & _). split; [exact P|]. rewrite (again_round x S).
  assert (L : (0 <= round6 x)%R) by (rewrite <- round6_0; now apply round6_le).
  assert (U : (round6 x <= 1)%R). { rewrite <- (round6_exact 1); [now apply round6_le|]. apply six_digit_format. exists 1%Z, 0%Z. split; [lia|]. cbn. lra. }
  assert (Q0 : Q2R 0 = 0%R) by (unfold Q2R; cbn; lra). assert (Q1 : Q2R 1 = 1%R) by (unfold Q2R; cbn; lra).
  cbn [nlt n0 n1 lit RA]. unfold n0, n1. cbn [lit RA]. rewrite Q0, Q1. unfold Rltb. split; [destruct (Rlt_dec (round6 x) 0)|destruct (Rlt_dec 1 (round6 x))]; try reflexivity; exfalso; lra.
Qed.
Print Assumptions C94_printed_colours.

(** Hence a file written with the standard stream can always be read again. *)
Theorem C94_written_files_are_read :
  forall top (X : @XModel RA), parseURDF_all (Some top) = Some X -> (forall x, In x (kinematic_numbers X) -> size_ok x) ->
    exists X', again_file show6 X = Some X'.
Proof.
  intros top X E N. destruct (C92_export_partial RA show6 top X E) as (X' & EX & _); [|exists X'; exact EX]. intros x I. apply C94_printed_numbers, N, I.
Qed.
Print Assumptions C94_written_files_are_read.

Example C94_example : size_ok (3 / 8) /\ six_digit (3 / 8) /\ size_ok (1 / 3).
Proof.
  assert (B : (powerRZ 10 (-900) <= powerRZ 10 (-1))%R) by (change 10%R with (IZR radix10); rewrite <- !bpow_powerRZ; apply bpow_le; lia).
  assert (T : (powerRZ 10 1 <= powerRZ 10 308)%R) by (change 10%R with (IZR radix10); rewrite <- !bpow_powerRZ; apply bpow_le; lia).
  assert (B' : (powerRZ 10 (-1) = / 10)%R) by (cbn [powerRZ]; change (Pos.to_nat 1) with 1%nat; rewrite pow_1; reflexivity). assert (T' : (powerRZ 10 1 = 10)%R) by (cbn [powerRZ]; change (Pos.to_nat 1) with 1%nat; rewrite pow_1; reflexivity).
  split; [right; rewrite Rabs_pos_eq by lra; split; lra|]. split; [|right; rewrite Rabs_pos_eq by lra; split; lra]. exists 375%Z, (-3)%Z. split; [lia|]. cbn [powerRZ]. change (Pos.to_nat 3) with 3%nat. cbn [pow]. field.
Qed.
