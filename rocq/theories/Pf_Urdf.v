(** What the URDF reader produces for a tree description. *)
From Coq Require Import QArith String Ascii List Arith Lia Bool Permutation Sorted.
From Verif Require Import Base Num Pose Urdf DataStructure Kin Wrapper Spec_Robot Spec_Hist Spec_Load Pf_Base.
Import ListNotations.
Local Open Scope string_scope.

(** ** The order of std::string *)
Lemma ascii_compare_N a b : Ascii.compare a b = N.compare (N_of_ascii a) (N_of_ascii b).
Proof. reflexivity. Qed.

Lemma ascii_eq a b : Ascii.compare a b = Eq -> a = b.
Proof.
  rewrite ascii_compare_N, N.compare_eq_iff. intros E. rewrite <- (ascii_N_embedding a), <- (ascii_N_embedding b). now rewrite E.
Qed.

Lemma compare_refl s : String.compare s s = Eq.
Proof. induction s; simpl; auto. rewrite ascii_compare_N, N.compare_refl. auto. Qed.

Lemma name_lt_irrefl s : ~ name_lt s s.
Proof. unfold name_lt. rewrite compare_refl. discriminate. Qed.

Lemma name_lt_trans a b c : name_lt a b -> name_lt b c -> name_lt a c.
Proof.
  unfold name_lt. revert b c; induction a as [|x a IH]; intros [|y b] [|z c]; simpl; try discriminate; auto.
  destruct (Ascii.compare x y) eqn:Exy; try discriminate; destruct (Ascii.compare y z) eqn:Eyz; try discriminate; intros H1 H2.
  - apply ascii_eq in Exy, Eyz. subst. rewrite ascii_compare_N, N.compare_refl. eauto.
  - apply ascii_eq in Exy. subst. now rewrite Eyz.
  - apply ascii_eq in Eyz. subst. now rewrite Exy.
  - rewrite ascii_compare_N in *. rewrite N.compare_lt_iff in *. replace (N_of_ascii x ?= N_of_ascii z)%N with Lt; auto.
    symmetry. apply N.compare_lt_iff. lia.
Qed.

Lemma name_lt_total a b : {name_lt a b} + {a = b} + {name_lt b a}.
Proof.
  unfold name_lt. destruct (String.compare a b) eqn:E.
  - left; right. now apply String.compare_eq_iff. - left; left; auto.
  - right. rewrite String.compare_antisym, E. reflexivity.
Qed.

Lemma compare_gt a b : String.compare a b = Gt -> name_lt b a.
Proof. intros E. unfold name_lt. now rewrite String.compare_antisym, E. Qed.

Notation ksorted l := (StronglySorted name_lt (map fst l)).

Lemma sorted_nodup l : StronglySorted name_lt l -> NoDup l.
Proof.
  intros H; induction H as [|x l H IH F]; constructor; auto. intros I. rewrite Forall_forall in F.
  apply (name_lt_irrefl x). now apply F.
Qed.

(** strictly sorted lists with the same elements are equal *)
Lemma sorted_unique_names (l l' : list string) : StronglySorted name_lt l -> StronglySorted name_lt l' ->
  (forall x, In x l <-> In x l') -> l = l'.
Proof.
  intros H; revert l'; induction H as [|x l H IH F]; intros l' H' E.
  - destruct l' as [|y l']; auto. exfalso. apply (E y). now left.
  - destruct H' as [|y l' H' F'].
    + exfalso. apply (E x). now left.
    + rewrite Forall_forall in F, F'.
      assert (x = y).
      { destruct (proj1 (E x) (or_introl eq_refl)) as [->|I]; auto.
        destruct (proj2 (E y) (or_introl eq_refl)) as [->|I']; auto.
        exfalso. apply (name_lt_irrefl x). apply (name_lt_trans x y x); [now apply F | now apply F']. }
      subst y. f_equal. apply IH; auto. intros z. split; intros I.
      * destruct (proj1 (E z) (or_intror I)) as [<-|I']; auto. exfalso. apply (name_lt_irrefl x). now apply F.
      * destruct (proj2 (E z) (or_intror I)) as [<-|I']; auto. exfalso. apply (name_lt_irrefl x). now apply F'.
Qed.

Lemma sorted_perm_unique {B} (key : B -> string) (l l' : list B) :
  StronglySorted name_lt (map key l) -> StronglySorted name_lt (map key l') -> Permutation l l' -> l = l'.
Proof.
  revert l'; induction l as [|x l IH]; intros l' H H' P.
  - apply Permutation_nil in P. now subst.
  - destruct l' as [|y l']; [apply Permutation_sym, Permutation_nil in P; discriminate|].
    assert (En : map key (x :: l) = map key (y :: l')).
    { apply sorted_unique_names; auto. intros z. split; apply Permutation_in; [|apply Permutation_sym]; now apply Permutation_map. }
    simpl in H, H'. inversion H as [|? ? H1 F1]; inversion H' as [|? ? H3 F2]; subst.
    assert (x = y).
    { assert (I : In x (y :: l')) by (eapply Permutation_in; eauto; now left). destruct I as [->|I]; auto.
      inversion En as [[E1 E2]]. exfalso. apply (in_map key) in I. rewrite Forall_forall in F2. apply F2 in I.
      rewrite E1 in I. now apply name_lt_irrefl in I. }
    subst y. f_equal. apply IH; auto. now apply Permutation_cons_inv in P.
Qed.

Section U.
Context `{A : Arith}.

(** ** std::map::insert *)
Lemma map_insert_perm {B} k (b : B) l : ~ In k (map fst l) -> Permutation (map_insert k b l) ((k, b) :: l).
Proof.
  induction l as [|[k' b'] l IH]; simpl; intros N; auto.
  destruct (String.compare k k') eqn:E; auto.
  - apply String.compare_eq_iff in E. subst. exfalso. auto.
  - rewrite IH by auto. apply perm_swap.
Qed.

Lemma map_insert_sorted {B} k (b : B) l : ~ In k (map fst l) -> ksorted l -> ksorted (map_insert k b l).
Proof.
  induction l as [|[k' b'] l IH]; simpl; intros N S; [repeat constructor|].
  inversion S as [|? ? S' F]; subst. destruct (String.compare k k') eqn:E.
  - exact S.
  - simpl. constructor; auto. constructor; auto. rewrite Forall_forall in *. intros x I. eapply name_lt_trans; eauto.
  - simpl. constructor; auto. rewrite Forall_forall in *. intros x I.
    assert (I' : In x (map fst ((k, b) :: l))).
    { eapply Permutation_in; [apply Permutation_map, map_insert_perm; auto | exact I]. }
    destruct I' as [<-|I']; auto. now apply compare_gt.
Qed.

Lemma assoc_none' {B} k (l : list (string * B)) : ~ In k (map fst l) -> assoc k l = None.
Proof. apply assoc_none. Qed.

Definition blank (ni : string * option Inertial) : string * ULink :=
  (fst ni, mkULink (fst ni) (snd ni) None None []).

Lemma parseLink_blank x : (ul_name (parseLink x), parseLink x) = blank (link_desc x).
Proof. unfold parseLink, link_desc, blank, parseLink. destruct (attribute "name" x); reflexivity. Qed.

Lemma parse_links_ok : forall l acc, NoDup (map fst acc ++ map fst (map link_desc l)) -> ksorted acc ->
  exists r, parse_links l acc = Some r /\ ksorted r /\ Permutation r (acc ++ map (fun x => blank (link_desc x)) l).
Proof.
  induction l as [|x l IH]; intros acc N S; cbn [parse_links].
  - exists acc. rewrite app_nil_r. auto.
  - pose proof (parseLink_blank x) as E.
    assert (E1 : ul_name (parseLink x) = fst (link_desc x)) by reflexivity.
    assert (Nk : ~ In (fst (link_desc x)) (map fst acc)).
    { simpl in N. apply NoDup_remove_2 in N. intros I. apply N. apply in_app_iff. now left. }
    rewrite E1. rewrite (assoc_none' _ _ Nk).
    destruct (IH (map_insert (fst (link_desc x)) (parseLink x) acc)) as (r & Er & Sr & Pr).
    + eapply Permutation_NoDup; [|exact N].
      rewrite (Permutation_map fst (map_insert_perm _ (parseLink x) _ Nk)). simpl.
      symmetry. apply Permutation_middle.
    + now apply map_insert_sorted.
    + exists r. split; auto. split; auto. rewrite Pr, (map_insert_perm _ (parseLink x) _ Nk).
      assert (E2 : (fst (link_desc x), parseLink x) = blank (link_desc x)) by (rewrite <- E; reflexivity).
      rewrite E2. simpl. apply Permutation_middle.
Qed.

Definition jkey (j : UJoint) : string * UJoint := (uj_name j, j).

Lemma parse_joints_ok : forall l js acc, all_joints l = Some js -> NoDup (map fst acc ++ map uj_name js) -> ksorted acc ->
  exists r, parse_joints l acc = Some r /\ ksorted r /\ Permutation r (acc ++ map jkey js).
Proof.
  induction l as [|x l IH]; intros js acc Ej N S; cbn [parse_joints all_joints] in *.
  - inversion Ej; subst. exists acc. rewrite app_nil_r. auto.
  - destruct (parseJoint x) as [j|]; [|discriminate]. destruct (all_joints l) as [js'|]; [|discriminate].
    inversion Ej; subst js. clear Ej.
    assert (Nk : ~ In (uj_name j) (map fst acc)).
    { simpl in N. apply NoDup_remove_2 in N. intros I. apply N. apply in_app_iff. now left. }
    rewrite (assoc_none' _ _ Nk).
    destruct (IH js' (map_insert (uj_name j) j acc) eq_refl) as (r & Er & Sr & Pr).
    + eapply Permutation_NoDup; [|exact N].
      rewrite (Permutation_map fst (map_insert_perm _ j _ Nk)). simpl. symmetry. apply Permutation_middle.
    + now apply map_insert_sorted.
    + exists r. split; auto. split; auto. rewrite Pr, (map_insert_perm _ j _ Nk). simpl. apply Permutation_middle.
Qed.

(** ** initTree *)
Definition link_step (k : string) (l : ULink) (jj : string * UJoint) : ULink :=
  let l := if String.eqb (uj_child (snd jj)) k then set_parent (uj_parent (snd jj)) (fst jj) l else l in
  if String.eqb (uj_parent (snd jj)) k then add_child (uj_child (snd jj)) l else l.

Lemma map_update_map {B} k (f : B -> B) l : NoDup (map fst l) ->
  map_update k f l = map (fun kb => (fst kb, if String.eqb k (fst kb) then f (snd kb) else snd kb)) l.
Proof.
  induction l as [|[k' b] l IH]; simpl; intros N; auto. inversion N as [|? ? N1 N2]; subst.
  destruct (String.eqb_spec k k') as [->|D].
  - f_equal. rewrite <- (map_id l) at 1. apply map_ext_in. intros [k2 b2] I. simpl.
    destruct (String.eqb_spec k' k2); auto. subst. exfalso. apply N1. apply (in_map fst) in I. exact I.
  - now rewrite IH.
Qed.

Lemma map_fst_pair {B C} (f : string * B -> C) (l : list (string * B)) : map fst (map (fun kb => (fst kb, f kb)) l) = map fst l.
Proof. rewrite map_map. apply map_ext. reflexivity. Qed.

Lemma assoc_some_in {B} k (l : list (string * B)) : In k (map fst l) -> exists b, assoc k l = Some b.
Proof.
  intros I. destruct (assoc k l) as [b|] eqn:E; eauto. apply assoc_none in E. easy.
Qed.

Lemma initTree_ok : forall js ls, NoDup (map fst ls) ->
  (forall jj, In jj js -> uj_parent (snd jj) <> "" /\ uj_child (snd jj) <> "" /\
                          In (uj_parent (snd jj)) (map fst ls) /\ In (uj_child (snd jj)) (map fst ls)) ->
  initTree js ls = Some (map (fun kl => (fst kl, fold_left (link_step (fst kl)) js (snd kl))) ls).
Proof.
  induction js as [|[jn j] js IH]; intros ls N F; cbn [initTree].
  - simpl. f_equal. rewrite <- (map_id ls) at 1. apply map_ext. now intros [].
  - destruct (F _ (or_introl eq_refl)) as (F1 & F2 & F3 & F4). cbn [snd] in *.
    apply String.eqb_neq in F1, F2. rewrite F1, F2. cbn [orb].
    destruct (assoc_some_in _ _ F4) as (b1 & ->). destruct (assoc_some_in _ _ F3) as (b2 & ->).
    rewrite (map_update_map (uj_child j)) by auto. rewrite map_update_map by (rewrite map_fst_pair; auto).
    rewrite IH.
    + f_equal. rewrite !map_map. apply map_ext. intros [k l]. reflexivity.
    + rewrite !map_fst_pair. auto.
    + rewrite !map_fst_pair. intros jj I. apply F. now right.
Qed.

(** the result of initTree for one link *)
Lemma link_steps_static k js : forall l, ul_name (fold_left (link_step k) js l) = ul_name l /\
  ul_inertial (fold_left (link_step k) js l) = ul_inertial l.
Proof.
  induction js as [|jj js IH]; intros l; simpl; auto. destruct (IH (link_step k l jj)) as [-> ->].
  unfold link_step. destruct (String.eqb (uj_child (snd jj)) k), (String.eqb (uj_parent (snd jj)) k); auto.
Qed.

Lemma link_steps_children k js : forall l, ul_children (fold_left (link_step k) js l) =
  (ul_children l ++ map (fun jj => uj_child (snd jj)) (filter (fun jj => String.eqb (uj_parent (snd jj)) k) js))%list.
Proof.
  induction js as [|jj js IH]; intros l; simpl; [now rewrite app_nil_r|]. rewrite IH. unfold link_step.
  destruct (String.eqb (uj_child (snd jj)) k), (String.eqb (uj_parent (snd jj)) k); simpl; rewrite <- ?app_assoc; auto.
Qed.

Lemma link_steps_noparent k js : (forall jj, In jj js -> uj_child (snd jj) <> k) ->
  forall l, ul_parent (fold_left (link_step k) js l) = ul_parent l /\ ul_pjoint (fold_left (link_step k) js l) = ul_pjoint l.
Proof.
  induction js as [|jj js IH]; intros F l; simpl; auto. 
  destruct (IH (fun x I => F x (or_intror I)) (link_step k l jj)) as [-> ->].
  pose proof (F jj (or_introl eq_refl)) as D. apply String.eqb_neq in D. unfold link_step. rewrite D.
  destruct (String.eqb (uj_parent (snd jj)) k); auto.
Qed.

Lemma link_steps_parent k js jj : NoDup (map (fun jj => uj_child (snd jj)) js) -> In jj js -> uj_child (snd jj) = k ->
  forall l, ul_parent (fold_left (link_step k) js l) = Some (uj_parent (snd jj)) /\
            ul_pjoint (fold_left (link_step k) js l) = Some (fst jj).
Proof.
  induction js as [|x js IH]; intros N I E l; [easy|]. simpl in N. inversion N as [|? ? N1 N2]; subst. simpl.
  destruct I as [->|I].
  - destruct (link_steps_noparent (uj_child (snd jj)) js) with (l := link_step (uj_child (snd jj)) l jj) as [-> ->].
    + intros y Iy Ey. apply N1. rewrite <- Ey. apply (in_map (fun jj => uj_child (snd jj)) _ _ Iy).
    + unfold link_step. rewrite String.eqb_refl. destruct (String.eqb (uj_parent (snd jj)) _); auto.
  - now apply IH.
Qed.

(** the reader's links for a description *)
Definition ulink_of (jall : list UJoint) (ni : string * option Inertial) : string * ULink :=
  (fst ni, fold_left (link_step (fst ni)) (map jkey jall) (snd (blank ni))).

Record ReadsAs (R : Robot) (root : string) (sorted : list (string * option Inertial)) (jall : list UJoint)
               (mi : ModelInterface) : Prop := {
  ra_links : mi_links mi = map (ulink_of jall) sorted;
  ra_joints : mi_joints mi = map jkey jall;
  ra_root : mi_root mi = root;
  ra_perm : Permutation sorted (r_links R);
  ra_sorted : StronglySorted name_lt (map fst sorted);
  ra_jperm : Permutation jall (r_joints R);
  ra_jsorted : StronglySorted name_lt (map uj_name jall) }.

Lemma tree_connected_child R root n : is_tree R root -> In n (link_names R) -> n <> root ->
  exists j, In j (r_joints R) /\ uj_child j = n.
Proof.
  intros T I D. destruct (tree_connected _ _ T n I) as [|j Ij C]; [easy|]. eauto.
Qed.

Lemma filter_one {B} (f : B -> bool) (l : list B) x : NoDup l -> In x l -> f x = true ->
  (forall y, In y l -> f y = true -> y = x) -> filter f l = [x].
Proof.
  induction l as [|y l IH]; intros N I Ex U; [easy|]. inversion N as [|? ? N1 N2]; subst. simpl.
  destruct (f y) eqn:Ey.
  - assert (y = x) by (apply U; auto; now left). subst y. f_equal.
    destruct (filter f l) as [|z l'] eqn:El; auto. exfalso.
    assert (Iz : In z (filter f l)) by (rewrite El; now left). apply filter_In in Iz. destruct Iz as [Iz Ez].
    assert (z = x) by (apply U; auto; now right). now subst.
  - destruct I as [->|I]; [congruence|]. apply IH; auto. intros z Iz. apply U. now right.
Qed.

Lemma ulink_parent_none R root jall ni : is_tree R root -> Permutation jall (r_joints R) -> In (fst ni) (link_names R) ->
  (ul_parent (snd (ulink_of jall ni)) = None <-> fst ni = root).
Proof.
  intros T P I. unfold ulink_of. cbn [snd]. split.
  - intros E. destruct (string_dec (fst ni) root) as [|D]; auto. exfalso.
    destruct (tree_connected_child R root _ T I D) as (j & Ij & Ej).
    destruct (link_steps_parent (fst ni) (map jkey jall) (jkey j)) with (l := snd (blank ni)) as [E1 _]; auto.
    + rewrite map_map. simpl. eapply Permutation_NoDup; [apply Permutation_map, Permutation_sym; eauto|]. apply T.
    + apply in_map. eapply Permutation_in; [apply Permutation_sym|]; eauto.
    + congruence.
  - intros E. destruct (link_steps_noparent (fst ni) (map jkey jall)) with (l := snd (blank ni)) as [-> _]; auto.
    intros jj I'. apply in_map_iff in I'. destruct I' as (j & <- & Ij). simpl. rewrite E. apply (tree_root_top _ _ T).
    eapply Permutation_in; eauto.
Qed.

Lemma perm_map_exists {B C} (f : B -> C) (r : list C) (l : list B) : Permutation r (map f l) ->
  exists l', r = map f l' /\ Permutation l' l.
Proof. intros P. apply Permutation_map_inv in P. destruct P as (l' & E & P). exists l'. split; auto. now symmetry. Qed.

Lemma parse_ok top R root : describes top R -> is_tree R root -> ends_named R ->
  exists mi sorted jall, parseURDF_dom (Some top) = Some mi /\ ReadsAs R root sorted jall mi.
Proof.
  intros (robot & name & E1 & E2 & E3 & E4 & E5) T Ne. cbn [parseURDF_dom]. rewrite E1, E2, E3. cbn [negb].
  unfold parse_robot_kids. rewrite E4. cbn [negb].
  unfold robot_of_kids in E5. destruct (all_joints (children "joint" (x_kids robot))) as [js|] eqn:Ej; [|discriminate].
  inversion E5; subst R. clear E5. cbn [r_links r_joints] in *.
  pose proof (tree_links _ _ T) as NL. unfold link_names in NL. cbn [r_links] in NL.
  destruct (parse_links_ok (children "link" (x_kids robot)) []) as (ls & El & Sl & Pl); [exact NL | constructor |].
  rewrite El. simpl in Pl.
  rewrite <- (map_map link_desc blank) in Pl. destruct (perm_map_exists _ _ _ Pl) as (sorted & -> & Ps).
  assert (Ir : In root (map fst sorted)).
  { eapply Permutation_in; [apply Permutation_map, Permutation_sym; eauto|]. apply (tree_root _ _ T). }
  destruct (map blank sorted) as [|b0 bs] eqn:Eb; [destruct sorted; [easy|discriminate]|]. rewrite <- Eb in *. clear Eb b0 bs.
  destruct (parse_joints_ok _ js [] Ej) as (jm & Em & Sm & Pm); [simpl; apply T | constructor |].
  rewrite Em. simpl in Pm. destruct (perm_map_exists _ _ _ Pm) as (jall & -> & Pj).
  assert (Nfst : map fst (map blank sorted) = map fst sorted) by (rewrite map_map; apply map_ext; reflexivity).
  assert (NS : NoDup (map fst sorted)).
  { eapply Permutation_NoDup; [apply Permutation_map, Permutation_sym; eauto | exact NL]. }
  rewrite initTree_ok.
  - assert (Elinks : map (fun kl => (fst kl, fold_left (link_step (fst kl)) (map jkey jall) (snd kl))) (map blank sorted)
                     = map (ulink_of jall) sorted) by (rewrite map_map; apply map_ext; reflexivity).
    rewrite Elinks. unfold initRoot.
    apply in_map_iff in Ir. destruct Ir as (r & Er & Ir).
    assert (PN : forall ni, In ni sorted -> (ul_parent (snd (ulink_of jall ni)) = None <-> fst ni = root)).
    { intros ni I. apply (ulink_parent_none _ _ _ _ T); auto. unfold link_names. simpl. apply in_map.
      eapply Permutation_in; eauto. }
    rewrite (filter_one _ _ (ulink_of jall r)).
    + unfold ulink_of at 1. rewrite Er.
      eexists _, sorted, jall. split; [reflexivity|]. constructor; simpl; auto.
      * now rewrite <- Nfst. * now rewrite map_map in Sm.
    + apply (NoDup_map_inv fst). rewrite map_map. exact NS.
    + now apply in_map.
    + now rewrite (proj2 (PN r Ir) Er).
    + intros y Iy Ey. apply in_map_iff in Iy. destruct Iy as (ni & <- & Ini).
      destruct (ul_parent (snd (ulink_of jall ni))) eqn:Ep; [discriminate|].
      apply (PN ni Ini) in Ep. f_equal.
      destruct (In_nth_error _ _ Ini) as (a & Ea). destruct (In_nth_error _ _ Ir) as (b & Eb).
      assert (a = b).
      { rewrite NoDup_nth_error in NS. apply NS; [rewrite map_length; eapply nth_error_lt; eauto|].
        rewrite !nth_error_map', Ea, Eb. simpl. congruence. }
      subst. congruence.
  - now rewrite Nfst.
  - rewrite Nfst. intros jj I. apply in_map_iff in I. destruct I as (j & <- & Ij). simpl.
    assert (Ij' : In j js) by (eapply Permutation_in; eauto).
    destruct (Ne j Ij') as [N1 N2]. destruct (tree_ends _ _ T j Ij') as [I1 I2]. unfold link_names in I1, I2. simpl in I1, I2.
    repeat split; auto; (eapply Permutation_in; [apply Permutation_map, Permutation_sym; eauto|]; auto).
Qed.

End U.
