(** The constructor on any description the reader accepts: it returns, throws, or does not
    terminate, and terminates when the joints form no cycle. *)
From Coq Require Import String List Arith Lia Permutation Sorted Bool.
From Verif Require Import Base Num Pose DataStructure Urdf Kin Spec_Robot Spec_Hist Spec_Load Spec_Graph Pf_Base Pf_Add Pf_Urdf Pf_Load Pf_Loop Pf_Ctor.
Import ListNotations.
Local Open Scope m_scope.

Section D.
Context `{A : Arith}.

(** ** Levels of a graph without cycles *)
Section Rank.
Variables (V : list string) (js : list UJoint).
Hypothesis ENDS : forall j, In j js -> In (uj_parent j) V /\ In (uj_child j) V.
Hypothesis FREE : forall n, ~ leads_to js n n.

Definition below_of (n : string) : list string := map uj_child (filter (fun j => String.eqb (uj_parent j) n) js).
Lemma below_in n c : In c (below_of n) <-> exists j, In j js /\ uj_parent j = n /\ uj_child j = c.
Proof.
  unfold below_of. rewrite in_map_iff. split.
  - intros (j & <- & I). apply filter_In in I. destruct I as (I & E). apply String.eqb_eq in E. eauto.
  - intros (j & I & E & <-). exists j. split; auto. apply filter_In. split; auto. now apply String.eqb_eq.
Qed.

Fixpoint rank (k : nat) (n : string) : nat :=
  match k with O => O | S k' => list_max (map (fun c => S (rank k' c)) (below_of n)) end.

Lemma list_max_in l x : In x l -> x <= list_max l.
Proof. intros I. pose proof (proj1 (list_max_le l (list_max l)) (le_n _)) as F. rewrite Forall_forall in F. auto. Qed.
Lemma list_max_mem l : l <> [] -> In (list_max l) l.
Proof.
  induction l as [|x l IH]; intros N; [easy|]. cbn [list_max fold_right]. fold (list_max l).
  destruct (Nat.max_spec x (list_max l)) as [(L & ->)|(L & ->)]; [|now left]. destruct l as [|y l]; [cbn in L; lia|]. right. apply IH. discriminate.
Qed.

Lemma rank_le k : forall n, rank k n <= k.
Proof.
  induction k as [|k IH]; intros n; cbn [rank]; [lia|]. apply list_max_le. apply Forall_forall. intros x I. apply in_map_iff in I.
  destruct I as (c & <- & _). specialize (IH c). lia.
Qed.

Lemma rank_stable k : forall n, rank k n < k -> rank (S k) n = rank k n.
Proof.
  induction k as [|k IH]; intros n L; [lia|]. cbn [rank] in *. f_equal. apply map_ext_in. intros c I.
  assert (X : S (rank k c) <= list_max (map (fun c => S (rank k c)) (below_of n))) by (apply list_max_in, in_map_iff; eauto).
  f_equal. apply IH. lia.
Qed.

(** chains of links *)
Inductive chain : string -> list string -> Prop :=
| chain_one n : chain n [n]
| chain_cons n c l : In c (below_of n) -> chain c l -> chain n (n :: l).

Lemma rank_chain k : forall n, exists l, chain n l /\ length l = S (rank k n).
Proof.
  induction k as [|k IH]; intros n; [exists [n]; split; [constructor | reflexivity]|]. cbn [rank].
  destruct (below_of n) as [|c0 cs] eqn:E; [exists [n]; split; [constructor | reflexivity]|]. rewrite <- E.
  assert (X : In (list_max (map (fun c => S (rank k c)) (below_of n))) (map (fun c => S (rank k c)) (below_of n))) by (apply list_max_mem; rewrite E; discriminate).
  apply in_map_iff in X. destruct X as (c & Ec & I). destruct (IH c) as (l & Cl & Ll). exists (n :: l). split; [econstructor; eauto|]. cbn [length]. lia.
Qed.

Lemma leads_trans n c m : In c (below_of n) -> leads_to js c m -> leads_to js n m.
Proof.
  intros I H. apply below_in in I. destruct I as (j & Ij & Ep & <-). induction H as [j' I' E'|j' I' H IH].
  - rewrite <- Ep in *. apply leads_more; auto. rewrite E'. now apply leads_one.
  - now apply leads_more.
Qed.
Lemma chain_leads n l : chain n l -> forall m, In m l -> m = n \/ leads_to js n m.
Proof.
  induction 1 as [n|n c l I C IH]; intros m [<-|Im]; auto; [easy|]. right. destruct (IH m Im) as [->|H].
  - apply below_in in I. destruct I as (j & Ij & Ep & <-). now apply leads_one.
  - eapply leads_trans; eauto.
Qed.
Lemma chain_nodup n l : chain n l -> NoDup l.
Proof.
  induction 1 as [n|n c l I C IH]; [repeat constructor; easy|]. constructor; auto. intros Im.
  apply (FREE n). destruct (chain_leads _ _ C n Im) as [->|H].
  - apply below_in in I. destruct I as (j & Ij & Ep & E). rewrite <- E at 2. now apply leads_one.
  - eapply leads_trans; eauto.
Qed.
Lemma chain_incl n l : chain n l -> In n V -> incl l V.
Proof.
  induction 1 as [n|n c l I C IH]; intros In0; [intros x [<-|[]]; auto|]. intros x [<-|Ix]; auto. apply IH; auto.
  apply below_in in I. destruct I as (j & Ij & _ & <-). now apply ENDS.
Qed.
Lemma rank_lt n : In n V -> rank (length V) n < length V.
Proof.
  intros I. destruct (rank_chain (length V) n) as (l & C & L). pose proof (NoDup_incl_length (chain_nodup _ _ C) (chain_incl _ _ C I)). lia.
Qed.
Lemma rank_down j : In j js -> rank (length V) (uj_child j) < rank (length V) (uj_parent j).
Proof.
  intros I. destruct (ENDS j I) as (Ip & _). rewrite <- (rank_stable (length V) (uj_parent j) (rank_lt _ Ip)). cbn [rank].
  apply (list_max_in _ (S (rank (length V) (uj_child j)))). apply in_map_iff. exists (uj_child j). split; auto. apply below_in. eauto.
Qed.
End Rank.

(** ** Structure needed by the constructor's loop, on any graph *)
Record Shape (m : KM) : Prop := {
  sh_ids : forall i l, nth_error (links m) i = Some l -> l_id l = i;
  sh_children : forall i l c, nth_error (links m) i = Some l -> In c (l_children l) -> c < length (links m);
  sh_lids : length (link_ids m) = length (links m);
  sh_joints : forall j, In j (joints m) -> exists k c, assoc (j_name j) (joint_ids m) = Some k /\ k < length (joint_ids m) /\
                j_child j = Some c /\ c < length (links m) }.

Definition Dag (ls : list Link) : Prop := exists rk : nat -> nat, forall i l c, nth_error ls i = Some l -> In c (l_children l) -> rk c < rk i.

Lemma dag_costs m : Shape m -> Dag (links m) -> forall i, i < length (links m) -> exists k, costs (links m) [i] k.
Proof.
  intros S (rk & H). assert (G : forall n i, rk i < n -> i < length (links m) -> exists k, costs (links m) [i] k).
  { induction n as [|n IH]; intros i Li Lt; [lia|]. destruct (lt_nth_error _ _ Lt) as (l & E).
    assert (X : exists k, costs (links m) (rev (l_children l)) k).
    { assert (Y : forall c, In c (rev (l_children l)) -> exists k, costs (links m) [c] k).
      { intros c I. apply in_rev in I. apply IH; [|eapply sh_children; eauto]. specialize (H i l c E I). lia. }
      clear - Y. induction (rev (l_children l)) as [|c s IHs]; [exists 0; constructor|]. destruct (Y c (or_introl eq_refl)) as (k1 & C1).
      destruct IHs as (k2 & C2); [intros d I; apply Y; now right|]. exists (k1 + k2). change (c :: s) with ([c] ++ s). apply costs_app. eauto. }
    destruct X as (k & C). exists (Datatypes.S (k + 0)). econstructor; eauto. constructor. }
  intros i L. apply (G (Datatypes.S (rk i))); auto.
Qed.

(** one joint of the table, any graph *)
Lemma rp_joint_out m t k c : Shape m -> table_fits (links m) k t -> c < length (links m) ->
  (exists t', rp_joint (links m) k c t = Ok t' /\ table_fits (links m) k t') \/ (rp_joint (links m) k c t = Diverge /\ ~ Dag (links m)).
Proof.
  intros S F L. destruct (turns (2 ^ Datatypes.S (num_edges (links m))) (rp_step (links m) k) ([c], t)) as [s|r] eqn:E.
  - right. split; [unfold rp_joint; now rewrite loop2_turns, E|]. intros D. destruct (dag_costs m S D c L) as (n & C).
    destruct (rp_joint_costs (links m) k c n t C F) as (t' & Et & _). unfold rp_joint in Et. rewrite loop2_turns, E in Et. discriminate.
  - left. destruct (ended_costs (links m) k _ [c] t r F (fun i l d => sh_children m S i l d) ltac:(intros d [<-|[]]; exact L) E) as (n & C).
    exact (rp_joint_costs (links m) k c n t C F).
Qed.

Definition dims (rows cols : nat) (t : list (list bool)) : Prop := length t = rows /\ Forall (fun r => length r = cols) t.
Lemma dims_table_set rows cols i j t t' : dims rows cols t -> table_set i j t = Ok t' -> dims rows cols t'.
Proof.
  intros (L & F) E. unfold table_set, vget in E. destruct (nth_error t i) as [row|] eqn:Er; [|discriminate]. cbn [rbind] in E.
  unfold vset at 1 in E. destruct (Nat.ltb j (length row)); [|discriminate]. cbn [rbind] in E. unfold vset in E. destruct (Nat.ltb i (length t)); [|discriminate].
  inversion E; subst. split; [now rewrite list_set_length|]. apply Forall_list_set; auto. rewrite list_set_length. rewrite Forall_forall in F. apply F. eapply nth_error_In; eauto.
Qed.
Lemma dims_turns rows cols ls k n : forall s t t', dims rows cols t -> turns n (rp_step ls k) (s, t) = inr (Ok t') -> dims rows cols t'.
Proof.
  induction n as [|n IH]; intros s t t' D E; [discriminate|]. cbn [turns] in E. unfold rp_step at 1 in E. cbn [fst snd] in E.
  destruct s as [|c s]; [inversion E; subst; exact D|]. destruct (nth_error ls c) as [l|]; [|discriminate].
  destruct (table_set (l_id l) k t) as [t1| | |] eqn:Et; try discriminate. eapply IH; [|exact E]. eapply dims_table_set; eauto.
Qed.
Lemma dims_rp rows cols ls k c t t' : dims rows cols t -> rp_joint ls k c t = Ok t' -> dims rows cols t'.
Proof. intros D E. unfold rp_joint in E. rewrite loop2_turns in E. destruct (turns _ _ _) as [|r] eqn:X; [discriminate|]. subst r. eapply dims_turns; eauto. Qed.

Lemma update_out m : Shape m -> (exists t, update_rptable m = (set_rptable t m, Ok tt)) \/ (exists m', update_rptable m = (m', Diverge) /\ ~ Dag (links m)).
Proof.
  intros S. unfold update_rptable. rewrite bind_get.
  set (body := fun (j : Joint) (t : list (list bool)) => let? jid := match assoc (j_name j) (joint_ids m) with Some i => Ok i | None => Throw OutOfRange end in
               let? c := deref (j_child j) in rp_joint (links m) jid c t).
  assert (G : forall l t, (forall j, In j l -> In j (joints m)) -> dims (length (link_ids m)) (length (joint_ids m)) t ->
     (exists t', rfor l t body = Ok t') \/ (rfor l t body = Diverge /\ ~ Dag (links m))).
  { induction l as [|j l IH]; intros t Hj Dt; [left; exists t; reflexivity|]. cbn [rfor].
    destruct (sh_joints m S j (Hj j (or_introl eq_refl))) as (k & c & E1 & L1 & E2 & L2).
    assert (Eb : body j t = rp_joint (links m) k c t) by (unfold body; rewrite E1, E2; reflexivity). rewrite Eb.
    assert (F : table_fits (links m) k t).
    { destruct Dt as (Dl & Df). split.
      - intros i lk E. rewrite (sh_ids m S i lk E), Dl, (sh_lids m S). eapply nth_error_lt; eauto.
      - eapply Forall_impl; [|exact Df]. cbn. intros r ->. exact L1. }
    destruct (rp_joint_out m t k c S F L2) as [(t' & E & _)|(E & ND)]; rewrite E; cbn [rbind]; [|right; auto].
    apply IH; [intros x I; apply Hj; now right|]. eapply dims_rp; eauto. }
  destruct (G (joints m) (repeat (repeat false (length (joint_ids m))) (length (link_ids m)))) as [(t & E)|(E & ND)]; auto.
  { split; [apply repeat_length|]. apply Forall_forall. intros r I. apply repeat_spec in I. subst r. apply repeat_length. }
  - left. exists t. now rewrite (bind_lift_ok _ _ _ _ E).
  - right. exists m. split; auto. unfold bind, lift. now rewrite E.
Qed.

Lemma add_link_eq name p pose pl m : nth_error (links m) p = Some pl -> assoc name (link_ids m) = None ->
  add_new_link_pose name p pose m = (update_rptable ;;; ret (length (links m))) (grown name p pose pl m).
Proof.
  intros Ep Nn. pose proof (nth_error_lt _ _ _ Ep) as Lp.
  unfold add_new_link_pose. rewrite bind_get, Nn, (bind_lift_ok _ _ _ _ (proj2 (vget_ok _ _ _) Ep)).
  set (nl := mkLink name (length (links m)) None (Some p) (Some (fixed_joint pose)) []).
  assert (E1 : nth_error (links m ++ [nl]) p = Some pl) by (now rewrite nth_error_app1).
  rewrite (bind_lift_ok _ _ _ _ (proj2 (vget_ok _ _ _) E1)).
  rewrite (bind_lift_ok _ _ _ _ (vset_lt (links m ++ [nl]) p _ ltac:(rewrite app_length; lia))), bind_put.
  unfold grown, ids_insert, links_after. replace (list_set (links m ++ [nl]) p (push_child (length (links m)) pl)) with (list_set (links m) p (push_child (length (links m)) pl) ++ [nl]); [reflexivity|].
  clearbody nl. clear - Lp. revert p Lp. generalize (push_child (length (links m)) pl). generalize (links m). induction l as [|x l IH]; intros y [|p] L; cbn [length] in L; try lia; cbn [list_set app]; auto. f_equal. apply IH. lia.
Qed.

Lemma grown_shape name p pose pl m : Shape m -> nth_error (links m) p = Some pl -> Shape (grown name p pose pl m).
Proof.
  intros S Ep. pose proof (nth_error_lt _ _ _ Ep) as Lp.
  constructor; unfold grown; cbn [links set_links set_tcache link_ids joints joint_ids].
  - intros i l E. apply la_inv in E; auto. destruct E as [(-> & ->)|(L & l0 & E & ->)]; [reflexivity|]. transitivity (l_id l0); [now destruct (Nat.eqb p i) | exact (sh_ids m S i l0 E)].
  - intros i l c E I. rewrite (la_length name p pose (links m) pl). apply la_inv in E; auto. destruct E as [(-> & ->)|(L & l0 & E & ->)]; [easy|].
    destruct (Nat.eqb p i); [|pose proof (sh_children m S i l0 c E I); lia]. cbn [push_child l_children] in I. apply in_app_iff in I.
    destruct I as [I|[<-|[]]]; [pose proof (sh_children m S i l0 c E I); lia | lia].
  - rewrite app_length, (sh_lids m S), (la_length name p pose (links m) pl). cbn [length]. lia.
  - intros j I. destruct (sh_joints m S j I) as (k & c & E1 & L1 & E2 & L2). exists k, c. repeat split; auto. rewrite (la_length name p pose (links m) pl). lia.
Qed.
Lemma grown_dag name p pose pl m : Shape m -> nth_error (links m) p = Some pl -> Dag (links m) -> Dag (links (grown name p pose pl m)).
Proof.
  intros S Ep (rk & H). pose proof (nth_error_lt _ _ _ Ep) as Lp.
  exists (fun i => if Nat.eqb i (length (links m)) then 0 else Datatypes.S (rk i)).
  unfold grown; cbn [links set_links set_tcache]. intros i l c E I. apply la_inv in E; auto. destruct E as [(-> & ->)|(L & l0 & E & ->)]; [easy|].
  destruct (Nat.eqb_spec i (length (links m))); [lia|].
  assert (Old : In c (l_children l0) -> (if Nat.eqb c (length (links m)) then 0 else Datatypes.S (rk c)) < Datatypes.S (rk i)).
  { intros I0. specialize (H i l0 c E I0). destruct (Nat.eqb c (length (links m))); lia. }
  destruct (Nat.eqb p i); [|now apply Old]. cbn [push_child l_children] in I. apply in_app_iff in I.
  destruct I as [I|[<-|[]]]; [now apply Old|]. rewrite Nat.eqb_refl. lia.
Qed.

Lemma shape_ext m m' : Shape m -> map (fun l => (l_id l, l_children l)) (links m') = map (fun l => (l_id l, l_children l)) (links m) ->
  link_ids m' = link_ids m -> joints m' = joints m -> joint_ids m' = joint_ids m -> Shape m' /\ (Dag (links m) -> Dag (links m')).
Proof.
  intros S E E1 E2 E3. assert (L : length (links m') = length (links m)) by (rewrite <- (map_length (fun l => (l_id l, l_children l)) (links m')), E; apply map_length).
  assert (X : forall i l, nth_error (links m') i = Some l -> exists l0, nth_error (links m) i = Some l0 /\ l_id l = l_id l0 /\ l_children l = l_children l0).
  { intros i l El. assert (Y : nth_error (map (fun l => (l_id l, l_children l)) (links m')) i = Some (l_id l, l_children l)) by (now rewrite nth_error_map', El).
    rewrite E, nth_error_map' in Y. destruct (nth_error (links m) i) as [l0|]; [|discriminate]. inversion Y. exists l0. auto. }
  split; [constructor|].
  - intros i l El. destruct (X i l El) as (l0 & El0 & -> & _). eapply sh_ids; eauto.
  - intros i l c El I. destruct (X i l El) as (l0 & El0 & _ & Ec). rewrite Ec in I. rewrite L. eapply sh_children; eauto.
  - rewrite E1, L. apply S.
  - rewrite E2, E3, L. apply S.
  - intros (rk & H). exists rk. intros i l c El I. destruct (X i l El) as (l0 & El0 & _ & Ec). rewrite Ec in I. eauto.
Qed.

(** the COM link of one link *)
Lemma com_link_out k acc m : Shape m -> k < length (links m) ->
  exists m' r, add_com_link k acc m = (m', r) /\
    match r with
    | Ok _ => Shape m' /\ length (links m) <= length (links m') /\ (Dag (links m) -> Dag (links m'))
    | Throw e => e = InvalidArgument
    | UB _ => False
    | Diverge => ~ Dag (links m)
    end.
Proof.
  intros S L. destruct (lt_nth_error _ _ L) as (l & El). unfold add_com_link. rewrite bind_get, (bind_lift_ok _ _ _ _ (proj2 (vget_ok _ _ _) El)).
  destruct (l_inertial l) as [ine|]; [|exists m, (Ok acc); auto].
  rewrite (sh_ids m S k l El). set (name := (l_name l ++ "_com")%string).
  set (pose := mkPose (V3 (vx (position (in_origin ine))) (vy (position (in_origin ine))) (vz (position (in_origin ine)))) q_clear).
  destruct (assoc name (link_ids m)) as [x|] eqn:Nn.
  { exists m, (Throw InvalidArgument). split; auto. unfold bind at 1. unfold add_new_link_pose. rewrite bind_get. fold name. now rewrite Nn. }
  pose proof (add_link_eq name k pose l m El Nn) as Ea.
  pose proof (grown_shape name k pose l m S El) as Sg. pose proof (grown_dag name k pose l m S El) as Dg.
  destruct (update_out _ Sg) as [(t & Eu)|(m' & Eu & ND)].
  2:{ exists m', Diverge. split; [|tauto]. unfold bind at 1. rewrite Ea. unfold bind at 1. now rewrite Eu. }
  rewrite (bind_ok _ _ _ _ _ Eu) in Ea. rewrite (bind_ok _ _ _ _ _ Ea), bind_get.
  set (m1 := set_rptable t (grown name k pose l m)) in *.
  assert (E1 : nth_error (links m1) (length (links m)) = Some (new_link name (length (links m)) k pose)) by (apply la_new; auto).
  assert (E2 : nth_error (links m1) k = Some (push_child (length (links m)) l)).
  { unfold m1. cbn [links set_rptable grown set_tcache set_links]. rewrite (la_old name k pose (links m) l El k l El). now rewrite Nat.eqb_refl. }
  rewrite (bind_lift_ok _ _ _ _ (proj2 (vget_ok _ _ _) E1)), (bind_lift_ok _ _ _ _ (proj2 (vget_ok _ _ _) E2)).
  assert (Ll : length (links m1) = Datatypes.S (length (links m))) by (apply la_length; auto).
  rewrite (bind_lift_ok _ _ _ _ (vset_lt (links m1) (length (links m)) _ ltac:(lia))).
  set (ls1 := list_set (links m1) (length (links m)) (set_inertial (Some (reset_origin ine)) (new_link name (length (links m)) k pose))).
  assert (Ll1 : length ls1 = Datatypes.S (length (links m))) by (unfold ls1; rewrite list_set_length; auto).
  rewrite (bind_lift_ok _ _ _ _ (vset_lt ls1 k _ ltac:(lia))), bind_put.
  set (ls2 := list_set ls1 k (set_inertial (Some (reset_origin ine)) (push_child (length (links m)) l))).
  eexists _, _. split; [reflexivity|].
  assert (Em : map (fun l => (l_id l, l_children l)) ls2 = map (fun l => (l_id l, l_children l)) (links m1)).
  { unfold ls2, ls1. rewrite !map_list_set. rewrite list_set_same.
    - rewrite list_set_same; [reflexivity|]. now rewrite nth_error_map', E1.
    - rewrite (list_set_same (map (fun l => (l_id l, l_children l)) (links m1))); [now rewrite nth_error_map', E2 | now rewrite nth_error_map', E1]. }
  destruct (shape_ext (grown name k pose l m) (set_links ls2 (link_ids m1) m1) Sg) as (S2 & D2); try reflexivity; [exact Em|].
  split; [exact S2|]. split; [|intros D; apply D2, Dg, D].
  cbn [links set_links]. unfold ls2. rewrite list_set_length, Ll1. lia.
Qed.

Lemma com_loop_out l : forall acc m, Shape m -> (forall k, In k l -> k < length (links m)) ->
  exists m' r, for_each l acc add_com_link m = (m', r) /\
    match r with Ok _ => True | Throw e => e = InvalidArgument | UB _ => False | Diverge => ~ Dag (links m) end.
Proof.
  induction l as [|k l IH]; intros acc m S Hl; [exists m, (Ok acc); auto|]. cbn [for_each].
  destruct (com_link_out k acc m S (Hl k (or_introl eq_refl))) as (m1 & r & E & H). unfold bind at 1. rewrite E. destruct r as [acc1|e|u|].
  - destruct H as (S1 & L1 & D1). destruct (IH acc1 m1 S1) as (m2 & r & E2 & H2).
    + intros k' I. specialize (Hl k' (or_intror I)). lia.
    + exists m2, r. split; auto. destruct r; auto.
  - exists m1, (Throw e). auto.
  - destruct H.
  - exists m1, Diverge. auto.
Qed.

Lemma ctor_members_shape R root sorted jall mi : graph_ok R root -> ReadsAs R root sorted jall mi ->
  Shape (ctor_members mi) /\ (cycle_free R -> Dag (links (ctor_members mi))).
Proof.
  intros G RA. split; [constructor|].
  - intros i l E. destruct (c_link _ _ _ _ _ RA i l E) as (ni & _ & ->). reflexivity.
  - intros i l c E I. destruct (c_link _ _ _ _ _ RA i l E) as (ni & _ & ->). apply (lk_children _ _ _ _ _ RA) in I.
    destruct I as (j & nc & _ & _ & Ec & _). rewrite (c_length _ _ _ _ _ RA). eapply nth_error_lt; eauto.
  - unfold ctor_members. cbn [link_ids links]. rewrite combine_length, seq_length, !map_length. unfold enumerate. rewrite combine_length, seq_length. lia.
  - intros J I. rewrite (c_joints _ _ _ _ _ RA) in I. apply in_map_iff in I. destruct I as (j & <- & Ij).
    assert (M : movable (uj_type j) = true) by (apply filter_In in Ij; tauto).
    assert (Ir : In j (r_joints R)) by (apply (in_jall _ _ _ _ _ RA); apply filter_In in Ij; tauto).
    destruct (In_nth_error _ _ Ij) as (k & Ek). destruct (g_ends _ _ G j Ir) as (_ & Ic).
    destruct (ln_pos _ _ _ _ _ RA _ Ic) as (c & nc & Ec & En & _).
    exists k, c. assert (Jid : joint_ids (ctor_members mi) = combine (map uj_name (jsorted_of jall)) (seq 0 (length (jsorted_of jall)))).
    { unfold ctor_members. cbn [joint_ids]. rewrite (c_ujs _ _ _ _ _ RA), (c_jn jall), !map_length. reflexivity. }
    assert (Lk : k < length (jsorted_of jall)) by (eapply nth_error_lt; eauto).
    rewrite Jid. repeat split.
    + cbn [mk_joint j_name]. pose proof (jn_nodup _ _ _ _ _ RA) as N.
      clear - Ek N. assert (G : forall (l : list UJoint) a k j, NoDup (map uj_name l) -> nth_error l k = Some j -> assoc (uj_name j) (combine (map uj_name l) (seq a (length l))) = Some (a + k)).
      { induction l as [|x l IH]; intros a k0 j0 N0 E0; [destruct k0; discriminate|]. cbn [map length seq combine assoc]. inversion N0 as [|? ? N1 N2]; subst. destruct k0 as [|k0]; cbn [nth_error] in E0.
        - inversion E0; subst. rewrite String.eqb_refl. f_equal. lia.
        - destruct (String.eqb_spec (uj_name j0) (uj_name x)) as [Ex|_].
          + exfalso. apply N1. rewrite <- Ex. apply in_map. eapply nth_error_In; eauto.
          + rewrite (IH (Datatypes.S a) k0 j0 N2 E0). f_equal. lia. }
      apply (G _ 0 k j N Ek).
    + rewrite combine_length, seq_length, map_length. lia.
    + apply (MJ_child _ _ _ _ _ RA c j nc Ec); auto.
    + rewrite (c_length _ _ _ _ _ RA). eapply nth_error_lt; eauto.
  - intros F. set (V := link_names R).
    assert (ENDS : forall j, In j (r_joints R) -> In (uj_parent j) V /\ In (uj_child j) V) by (intros j I; now apply (g_ends _ _ G)).
    exists (fun i => match nth_error sorted i with Some ni => rank (r_joints R) (length V) (fst ni) | None => 0 end).
    intros i l c E I. destruct (c_link _ _ _ _ _ RA i l E) as (ni & Ei & ->). apply (lk_children _ _ _ _ _ RA) in I.
    destruct I as (j & nc & Ij & Ep & Ec & En). rewrite Ei, Ec, En, <- Ep. apply (rank_down V (r_joints R) ENDS F j Ij).
Qed.

(** ** Outcomes of the constructor *)
Lemma ctor_mi_out R root sorted jall mi : graph_ok R root -> ReadsAs R root sorted jall mi ->
  match ctor_mi (Some mi) with Ok _ => True | Throw e => e = InvalidArgument | UB _ => False | Diverge => ~ cycle_free R end.
Proof.
  intros G RA. destruct (ctor_members_shape _ _ _ _ _ G RA) as (S & D). unfold ctor_mi.
  destruct (negb (forallb (fun kj => supported (uj_type (snd kj))) (mi_joints mi))); [reflexivity|].
  set (m0 := ctor_members mi) in *. destruct (com_loop_out (seq 0 (length (links m0))) [] m0 S) as (m1 & r & E & H).
  { intros k I. apply in_seq in I. lia. }
  unfold bind at 1. rewrite E. destruct r as [ids|e|u|]; auto.
Qed.

End D.
