(** States reached by histories satisfy the representation relation. *)
From Coq Require Import String List Arith Lia Bool Permutation Sorted.
From Verif Require Import Base Num Pose DataStructure Urdf Kin Wrapper Spec_Robot Spec_Hist Spec_Load Pf_Base Pf_Data Inv Pf_FK Pf_Frame Pf_Rp Pf_Add Rep Pf_Ops Pf_Name Pf_Urdf Pf_Ctor.
Import ListNotations.

Section Reach.
Context `{A : Arith}.

Lemma movable_iff t : movable t = true <-> is_movable t.
Proof. unfold is_movable. destruct t; simpl; split; intros H; auto; try discriminate; destruct H as [H|[H|H]]; discriminate. Qed.
Lemma supported_iff t : supported t = true <-> is_supported t.
Proof.
  unfold is_supported, supported. rewrite orb_true_iff, movable_iff. destruct t; simpl; intuition (try discriminate).
Qed.

Lemma sorted_NoDup_key {B} (key : B -> string) l : StronglySorted name_lt (map key l) -> NoDup l.
Proof. intros S. apply sorted_nodup in S. eapply NoDup_map_inv; eauto. Qed.

Lemma ordered_unique R sorted jsorted sorted' jsorted' : ordered R sorted jsorted -> ordered R sorted' jsorted' ->
  sorted = sorted' /\ jsorted = jsorted'.
Proof.
  intros O O'. split.
  - eapply (sorted_perm_unique fst); try apply O; try apply O'.
    eapply Permutation_trans; [apply O | apply Permutation_sym, O'].
  - eapply (sorted_perm_unique uj_name); try apply O; try apply O'.
    apply NoDup_Permutation.
    + eapply sorted_NoDup_key, O. + eapply sorted_NoDup_key, O'.
    + intros j. rewrite (ord_joints _ _ _ O), (ord_joints _ _ _ O'). reflexivity.
Qed.

Lemma reads_ordered R root sorted jall mi : ReadsAs R root sorted jall mi -> ordered R sorted (jsorted_of jall).
Proof.
  intros RA. constructor.
  - apply RA. - apply RA.
  - intros j. unfold jsorted_of. rewrite filter_In, movable_iff.
    split; intros (I & M); split; auto; eapply Permutation_in; try exact I; [|apply Permutation_sym]; apply RA.
  - apply sorted_filter, RA.
Qed.

Lemma load_Rep tinyxml text R root : loadable tinyxml text R root ->
  exists sorted jsorted m0, ordered R sorted jsorted /\ ctor tinyxml text = Ok m0 /\ CacheOK m0 /\
    Rep R root sorted jsorted (massive sorted) (mass_sum (massive sorted)) (initial sorted jsorted) m0.
Proof.
  intros L. destruct (ld_xml _ _ _ _ L) as (top & Et & D).
  destruct (parse_ok top R root D (ld_tree _ _ _ _ L) (ld_ends _ _ _ _ L)) as (mi & sorted & jall & Ep & RA).
  destruct (ctor_mi_ok R root sorted jall mi (ld_tree _ _ _ _ L) RA) as (m & Em & C & H).
  - intros j I. apply supported_iff. now apply (ld_supported _ _ _ _ L).
  - intros n i I. pose proof (ra_perm _ _ _ _ _ RA) as P. intros I'. apply (ld_com _ _ _ _ L n i).
    + eapply Permutation_in; eauto.
    + unfold link_names. eapply Permutation_in; [apply Permutation_map; eauto|]. auto.
  - exists sorted, (jsorted_of jall), m. split; [eapply reads_ordered; eauto|]. split; auto.
    unfold ctor. rewrite Et, Ep. destruct text; [destruct (ld_text _ _ _ _ L eq_refl)|]. exact Em.
Qed.

Lemma reached_Rep tinyxml text R root sorted jsorted ops m : reached tinyxml text R root sorted jsorted ops m ->
  Rep R root sorted jsorted (massive sorted) (mass_sum (massive sorted)) (after sorted jsorted ops) m /\
  (clean ops = true -> CacheOK m).
Proof.
  intros (L & O & m0 & Em & Er). destruct (load_Rep _ _ _ _ L) as (so & jso & m1 & O' & Em1 & C & H).
  rewrite Em in Em1. inversion Em1; subst m1. destruct (ordered_unique _ _ _ _ _ O O') as [<- <-].
  unfold after. eapply run_Rep; eauto.
Qed.

Lemma load_ok tinyxml text R root sorted jsorted : loadable tinyxml text R root -> ordered R sorted jsorted ->
  exists m0, ctor tinyxml text = Ok m0 /\ reached tinyxml text R root sorted jsorted [] m0.
Proof.
  intros L O. destruct (load_Rep _ _ _ _ L) as (so & jso & m1 & O' & Em1 & C & H).
  exists m1. split; auto. split; auto. split; auto. exists m1. auto.
Qed.

(** ** Link ids and names *)
Lemma ids_of_names_spec tbl names :
  (forall n, In n names -> assoc n tbl <> None) ->
  ids_of_names tbl names = Ok (map (fun n => match assoc n tbl with Some i => i | None => 0 end) names).
Proof.
  unfold ids_of_names. intros H.
  enough (X : forall acc, rfor names acc (fun n acc => match assoc n tbl with None => Throw InvalidArgument | Some i => Ok (acc ++ [i]) end)
     = Ok (acc ++ map (fun n => match assoc n tbl with Some i => i | None => 0 end) names)) by apply X.
  induction names as [|n names IH]; intros acc; simpl; [now rewrite app_nil_r|].
  destruct (assoc n tbl) eqn:E; [|destruct (H n); simpl; auto]. simpl. rewrite IH by (intros; apply H; simpl; auto).
  now rewrite <- app_assoc.
Qed.

Lemma ids_of_names_throw tbl names : (exists n, In n names /\ assoc n tbl = None) -> ids_of_names tbl names = Throw InvalidArgument.
Proof.
  unfold ids_of_names. intros H.
  enough (X : forall acc, rfor names acc (fun n acc => match assoc n tbl with None => Throw InvalidArgument | Some i => Ok (acc ++ [i]) end)
     = Throw InvalidArgument) by apply X.
  destruct H as (x & I & E). induction names as [|n names IH]; intros acc; [easy|].
  simpl. destruct (assoc n tbl) eqn:En; auto. simpl. apply IH. destruct I as [<-|I]; [congruence|]. auto.
Qed.

Lemma assoc_pos (names : list string) n : NoDup names ->
  forall i, assoc n (combine names (seq 0 (length names))) = Some i <-> nth_error names i = Some n.
Proof.
  intros N i. split.
  - intros E. apply assoc_in in E. apply In_nth_error in E. destruct E as (k & E). rewrite nth_error_combine in E.
    destruct (nth_error names k) eqn:En; [|discriminate].
    assert (Lk : k < length names) by (eapply nth_error_lt; eauto). rewrite nth_error_seq in E by auto. inversion E; subst. auto.
  - intros E. exact (assoc_combine_seq names i n N E 0).
Qed.

Lemma assoc_pos_none (names : list string) n : assoc n (combine names (seq 0 (length names))) = None <-> ~ In n names.
Proof. rewrite assoc_none, map_fst_combine_seq. reflexivity. Qed.

End Reach.
