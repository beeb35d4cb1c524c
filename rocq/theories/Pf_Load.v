(** The reader accepts exactly the descriptions of [graph_ok]. *)
From Coq Require Import String List Arith Lia Permutation Sorted.
From Verif Require Import Base Num Pose DataStructure Urdf Kin Spec_Robot Spec_Hist Spec_Load Spec_Graph Pf_Base Pf_Urdf.
Import ListNotations.

Section L.
Context `{A : Arith}.

Lemma parse_links_inv l : forall acc r, parse_links l acc = Some r -> NoDup (map fst acc) ->
  NoDup (map fst acc ++ map fst (map link_desc l)).
Proof.
  induction l as [|x l IH]; intros acc r E N; [now rewrite app_nil_r|]. cbn [parse_links] in E.
  destruct (assoc (ul_name (parseLink x)) acc) eqn:Ea; [discriminate|]. apply assoc_none in Ea.
  pose proof (Permutation_map fst (map_insert_perm _ (parseLink x) _ Ea)) as P. cbn [map fst] in P.
  apply IH in E; [|eapply Permutation_NoDup; [apply Permutation_sym, P|]; constructor; auto].
  eapply Permutation_NoDup; [|exact E]. rewrite P. cbn [app]. apply Permutation_middle.
Qed.

Lemma parse_joints_inv l : forall acc r, parse_joints l acc = Some r -> NoDup (map fst acc) ->
  exists js, all_joints l = Some js /\ NoDup (map fst acc ++ map uj_name js).
Proof.
  induction l as [|x l IH]; intros acc r E N; [exists []; now rewrite app_nil_r|]. cbn [parse_joints all_joints] in *.
  destruct (parseJoint x) as [j|]; [|discriminate]. destruct (assoc (uj_name j) acc) eqn:Ea; [discriminate|]. apply assoc_none in Ea.
  pose proof (Permutation_map fst (map_insert_perm _ j _ Ea)) as P. cbn [map fst] in P.
  destruct (IH _ _ E) as (js & -> & H); [eapply Permutation_NoDup; [apply Permutation_sym, P|]; constructor; auto|].
  exists (j :: js). split; [reflexivity|]. eapply Permutation_NoDup; [|exact H]. rewrite P. cbn [app]. apply Permutation_middle.
Qed.

Lemma assoc_in_fst {B} k (l : list (string * B)) b : assoc k l = Some b -> In k (map fst l).
Proof. intros E. destruct (in_dec string_dec k (map fst l)) as [|N]; auto. apply assoc_none in N. congruence. Qed.

Lemma map_update_fst {B} k (f : B -> B) l : map fst (map_update k f l) = map fst l.
Proof. induction l as [|[k' b] l IH]; simpl; auto. destruct (String.eqb k k'); simpl; congruence. Qed.

Lemma initTree_inv js : forall ls r, initTree js ls = Some r ->
  forall jj, In jj js -> uj_parent (snd jj) <> ""%string /\ uj_child (snd jj) <> ""%string /\
                         In (uj_parent (snd jj)) (map fst ls) /\ In (uj_child (snd jj)) (map fst ls).
Proof.
  induction js as [|[jn j] js IH]; intros ls r E jj I; [easy|]. cbn [initTree] in E.
  destruct (String.eqb_spec (uj_parent j) "") as [|N1]; [discriminate|]. destruct (String.eqb_spec (uj_child j) "") as [|N2]; [discriminate|]. cbn [orb] in E.
  destruct (assoc (uj_child j) ls) eqn:E1; [|discriminate]. destruct (assoc (uj_parent j) ls) eqn:E2; [|discriminate].
  destruct I as [<-|I].
  - cbn [snd]. repeat split; auto; eapply assoc_in_fst; eauto.
  - specialize (IH _ _ E jj I). now rewrite !map_update_fst in IH.
Qed.

Lemma steps_parent_none k js : forall l, ul_parent (fold_left (link_step k) js l) = None <->
  ul_parent l = None /\ forall jj, In jj js -> uj_child (snd jj) <> k.
Proof.
  induction js as [|jj js IH]; intros l; cbn [fold_left]; [firstorder|]. rewrite IH. unfold link_step.
  destruct (String.eqb_spec (uj_child (snd jj)) k) as [Ek|Nk].
  - split; intros (H1 & H2).
    + destruct (String.eqb (uj_parent (snd jj)) k); discriminate H1.
    + exfalso. apply (H2 jj (or_introl eq_refl) Ek).
  - assert (X : ul_parent (if String.eqb (uj_parent (snd jj)) k then add_child (uj_child (snd jj)) l else l) = ul_parent l) by (destruct (String.eqb (uj_parent (snd jj)) k); reflexivity).
    rewrite X. split; intros (H1 & H2); split; auto; intros y I; [destruct I as [<-|I]; auto | apply H2; now right].
Qed.

Lemma ulink_none jall ni : ul_parent (snd (ulink_of jall ni)) = None <-> forall j, In j jall -> uj_child j <> fst ni.
Proof.
  unfold ulink_of. cbn [snd]. rewrite steps_parent_none. cbn [blank snd ul_parent]. split.
  - intros (_ & H) j I. apply (H (jkey j)). now apply in_map.
  - intros H. split; [reflexivity|]. intros jj I. apply in_map_iff in I. destruct I as (j & <- & I). now apply H.
Qed.

Lemma initTree_links jall sorted : NoDup (map fst sorted) ->
  (forall j, In j jall -> uj_parent j <> ""%string /\ uj_child j <> ""%string /\ In (uj_parent j) (map fst sorted) /\ In (uj_child j) (map fst sorted)) ->
  initTree (map jkey jall) (map blank sorted) = Some (map (ulink_of jall) sorted).
Proof.
  intros N H. assert (E : map fst (map blank sorted) = map fst sorted) by (rewrite map_map; apply map_ext; reflexivity).
  rewrite initTree_ok.
  - f_equal. rewrite map_map. apply map_ext. reflexivity.
  - now rewrite E.
  - rewrite E. intros jj I. apply in_map_iff in I. destruct I as (j & <- & I). now apply H.
Qed.

(** what is read before the links are connected *)
Lemma read_parts kids R : robot_of_kids kids = Some R -> NoDup (link_names R) -> NoDup (map uj_name (r_joints R)) ->
  exists sorted jall, parse_links (children "link" kids) [] = Some (map blank sorted) /\ parse_joints (children "joint" kids) [] = Some (map jkey jall) /\
    Permutation sorted (r_links R) /\ StronglySorted name_lt (map fst sorted) /\
    Permutation jall (r_joints R) /\ StronglySorted name_lt (map uj_name jall).
Proof.
  intros E N1 N2. unfold robot_of_kids in E. destruct (all_joints (children "joint" kids)) as [js|] eqn:Ej; [|discriminate].
  inversion E; subst R. clear E. unfold link_names in N1. cbn [r_links r_joints] in *.
  destruct (parse_links_ok (children "link" kids) []) as (ls & El & Sl & Pl); [exact N1 | constructor |].
  simpl in Pl. rewrite <- (map_map link_desc blank) in Pl. destruct (perm_map_exists _ _ _ Pl) as (sorted & -> & Ps).
  destruct (parse_joints_ok _ js [] Ej) as (jm & Em & Sm & Pm); [exact N2 | constructor |].
  simpl in Pm. destruct (perm_map_exists _ _ _ Pm) as (jall & -> & Pj).
  exists sorted, jall. repeat split; auto.
  - assert (Q : map fst (map blank sorted) = map fst sorted) by (rewrite map_map; apply map_ext; reflexivity). now rewrite <- Q.
  - now rewrite map_map in Sm.
Qed.

Lemma filter_roots jall sorted r : NoDup (map fst sorted) -> In r sorted ->
  (forall ni, In ni sorted -> (fst ni = fst r <-> forall j, In j jall -> uj_child j <> fst ni)) ->
  initRoot (map (ulink_of jall) sorted) = Some (fst r).
Proof.
  intros NS Ir H. unfold initRoot. rewrite (filter_one _ _ (ulink_of jall r)).
  - reflexivity.
  - apply (NoDup_map_inv fst). rewrite map_map. exact NS.
  - now apply in_map.
  - now rewrite (proj2 (ulink_none jall r) (proj1 (H r Ir) eq_refl)).
  - intros y Iy Ey. apply in_map_iff in Iy. destruct Iy as (ni & <- & Ini).
    destruct (ul_parent (snd (ulink_of jall ni))) eqn:Ep; [discriminate|]. rewrite ulink_none in Ep. apply (H ni Ini) in Ep.
    f_equal. destruct (In_nth_error _ _ Ini) as (a & Ea). destruct (In_nth_error _ _ Ir) as (b & Eb).
    assert (a = b); [|subst; congruence].
    rewrite NoDup_nth_error in NS. apply NS; [rewrite map_length; eapply nth_error_lt; eauto|].
    rewrite !nth_error_map', Ea, Eb. simpl. congruence.
Qed.

Lemma parse_graph top R root : describes top R -> graph_ok R root ->
  exists mi sorted jall, parseURDF_dom (Some top) = Some mi /\ ReadsAs R root sorted jall mi.
Proof.
  intros (robot & name & E1 & E2 & E3 & E4 & E5) G. cbn [parseURDF_dom]. rewrite E1, E2, E3. cbn [negb].
  unfold parse_robot_kids. rewrite E4. cbn [negb].
  destruct (read_parts _ _ E5 (g_links _ _ G) (g_joints _ _ G)) as (sorted & jall & El & Ej & Ps & Ss & Pj & Sj). rewrite El, Ej.
  assert (Pn : forall n, In n (map fst sorted) <-> In n (link_names R)) by (intros n; split; apply Permutation_in, Permutation_map; [|symmetry]; exact Ps).
  assert (Pi : forall j, In j jall <-> In j (r_joints R)) by (intros j; split; apply Permutation_in; [|symmetry]; exact Pj).
  assert (NS : NoDup (map fst sorted)) by (now apply sorted_nodup).
  pose proof (proj2 (Pn root) (g_root _ _ G)) as Ir.
  destruct (map blank sorted) as [|b0 bs] eqn:Eb; [destruct sorted; [easy|discriminate]|]. rewrite <- Eb in *. clear Eb b0 bs.
  rewrite (initTree_links jall sorted NS).
  - apply in_map_iff in Ir. destruct Ir as (r & Er & Ir). rewrite (filter_roots jall sorted r NS Ir).
    + eexists _, sorted, jall. split; [reflexivity|]. constructor; simpl; auto.
    + intros ni Ini. rewrite Er, (g_roots _ _ G (fst ni)) by (apply Pn; now apply in_map).
      split; intros H j I; apply H; now apply Pi.
  - intros j I. apply Pi in I. destruct (g_named _ _ G j I). destruct (g_ends _ _ G j I). repeat split; auto; now apply Pn.
Qed.

Lemma parse_inv doc mi : parseURDF_dom doc = Some mi -> exists top R, doc = Some top /\ describes top R /\ graph_ok R (mi_root mi).
Proof.
  unfold parseURDF_dom. destruct doc as [top|]; [|discriminate]. destruct (hd_error (children "robot" top)) as [robot|] eqn:E1; [|discriminate].
  destruct (attribute "name" robot) as [name|] eqn:E2; [|discriminate]. destruct (version_ok (attribute "version" robot)) eqn:E3; [|discriminate]. cbn [negb].
  unfold parse_robot_kids. destruct (materials_ok [] (children "material" (x_kids robot))) eqn:E4; [|discriminate]. cbn [negb].
  destruct (parse_links (children "link" (x_kids robot)) []) as [ls|] eqn:El; [|discriminate].
  pose proof (parse_links_inv _ _ _ El (NoDup_nil _)) as NL. cbn [map app] in NL.
  destruct (parse_joints (children "joint" (x_kids robot)) []) as [jm|] eqn:Ej; [|destruct ls; discriminate].
  destruct (parse_joints_inv _ _ _ Ej (NoDup_nil _)) as (js & Eall & NJ). cbn [map app] in NJ. intros E.
  set (R := mkRobot (map link_desc (children "link" (x_kids robot))) js).
  assert (ER : robot_of_kids (x_kids robot) = Some R) by (unfold robot_of_kids; now rewrite Eall).
  destruct (read_parts _ _ ER NL NJ) as (sorted & jall & El' & Ej' & Ps & Ss & Pj & Sj).
  rewrite El in El'. rewrite Ej in Ej'. inversion El'; subst ls. inversion Ej'; subst jm. clear El' Ej'.
  destruct (map blank sorted) as [|b0 bs] eqn:Eb; [discriminate|]. rewrite <- Eb in *. clear Eb b0 bs.
  assert (Pn : forall n, In n (map fst sorted) <-> In n (link_names R)) by (intros n; split; apply Permutation_in, Permutation_map; [|symmetry]; exact Ps).
  assert (Pi : forall j, In j jall <-> In j (r_joints R)) by (intros j; split; apply Permutation_in; [|symmetry]; exact Pj).
  assert (NS : NoDup (map fst sorted)) by (now apply sorted_nodup).
  assert (Eq : map fst (map blank sorted) = map fst sorted) by (rewrite map_map; apply map_ext; reflexivity).
  destruct (initTree (map jkey jall) (map blank sorted)) as [lks|] eqn:Et; [|discriminate].
  assert (He : forall j, In j jall -> uj_parent j <> ""%string /\ uj_child j <> ""%string /\ In (uj_parent j) (map fst sorted) /\ In (uj_child j) (map fst sorted)).
  { intros j I. rewrite <- Eq. apply (initTree_inv _ _ _ Et (jkey j)). now apply in_map. }
  rewrite (initTree_links jall sorted NS He) in Et. inversion Et; subst lks. clear Et.
  unfold initRoot in E. set (f := fun kl : string * ULink => match ul_parent (snd kl) with None => true | Some _ => false end) in E.
  destruct (filter f (map (ulink_of jall) sorted)) as [|[r rl] [|]] eqn:Ef; try discriminate. inversion E; subst mi. clear E. cbn [mi_root].
  exists top, R. split; [reflexivity|]. split; [exists robot, name; auto|].
  assert (Hf : forall ni, In ni sorted -> (f (ulink_of jall ni) = true <-> ulink_of jall ni = (r, rl))).
  { intros ni I. assert (X : In (ulink_of jall ni) (filter f (map (ulink_of jall) sorted)) <-> f (ulink_of jall ni) = true).
    { rewrite filter_In. split; [tauto|]. intros; split; auto. now apply in_map. }
    rewrite <- X, Ef. simpl. split; [intros [H|[]]; auto | auto]. }
  assert (Ir : exists ni, In ni sorted /\ ulink_of jall ni = (r, rl)).
  { assert (X : In (r, rl) (filter f (map (ulink_of jall) sorted))) by (rewrite Ef; now left). apply filter_In in X. destruct X as (X & _).
    apply in_map_iff in X. destruct X as (ni & X & I). eauto. }
  destruct Ir as (n0 & I0 & E0). assert (En0 : fst n0 = r) by (unfold ulink_of in E0; congruence).
  constructor; auto.
  - intros j I. apply Pi in I. destruct (He j I) as (? & ? & _). auto.
  - intros j I. apply Pi in I. destruct (He j I) as (_ & _ & I1 & I2). split; now apply Pn.
  - apply Pn. rewrite <- En0. now apply in_map.
  - intros n I. apply Pn in I. apply in_map_iff in I. destruct I as (ni & <- & I).
    assert (Y : f (ulink_of jall ni) = true <-> forall j, In j (r_joints R) -> uj_child j <> fst ni).
    { unfold f. destruct (ul_parent (snd (ulink_of jall ni))) eqn:Ep.
      - split; [discriminate|]. intros H. exfalso. assert (X : ul_parent (snd (ulink_of jall ni)) = None) by (apply ulink_none; intros j Ij; apply H; now apply Pi). congruence.
      - split; [|reflexivity]. intros _ j Ij. apply (proj1 (ulink_none jall ni) Ep). now apply Pi. }
    rewrite <- Y, (Hf ni I). split.
    + intros Er. rewrite <- E0. f_equal. destruct (In_nth_error _ _ I) as (a & Ea). destruct (In_nth_error _ _ I0) as (b & Eb).
      assert (a = b); [|subst; congruence].
      rewrite NoDup_nth_error in NS. apply NS; [rewrite map_length; eapply nth_error_lt; eauto|].
      rewrite !nth_error_map', Ea, Eb. simpl. congruence.
    + intros Er. unfold ulink_of in Er. congruence.
Qed.

End L.
