(** The reader does not depend on the order of the children of the robot element. *)
From Coq Require Import String List Arith Lia Permutation Sorted Bool.
From Verif Require Import Base Num Pose DataStructure Urdf Kin Spec_Robot Spec_Hist Spec_Load Spec_Graph Pf_Base Pf_Urdf Pf_Load.
Import ListNotations.

Section P.
Context `{A : Arith}.

Lemma filter_perm {B} (f : B -> bool) l l' : Permutation l l' -> Permutation (filter f l) (filter f l').
Proof.
  induction 1 as [|x l l' P IH|x y l|l l' l'' P1 IH1 P2 IH2]; simpl; auto.
  - destruct (f x); auto.
  - destruct (f x), (f y); auto. apply perm_swap.
  - now transitivity (filter f l').
Qed.
Lemma children_perm t l l' : Permutation l l' -> Permutation (children t l) (children t l').
Proof. apply filter_perm. Qed.

Definition mat_name (m : xml) := match attribute "name" m with None => EmptyString | Some s => s end.
Lemma materials_iff l : forall seen, materials_ok seen l = true <-> NoDup (map mat_name l) /\ forall n, In n (map mat_name l) -> ~ In n seen.
Proof.
  induction l as [|m l IH]; intros seen; cbn [materials_ok map]; [split; [split; [constructor|easy] | reflexivity]|]. fold (mat_name m).
  destruct (existsb (String.eqb (mat_name m)) seen) eqn:E.
  - split; [discriminate|]. intros (_ & H). exfalso. apply existsb_exists in E. destruct E as (x & I & Ex). apply String.eqb_eq in Ex. subst x.
    exact (H _ (or_introl eq_refl) I).
  - rewrite IH. assert (Nm : ~ In (mat_name m) seen).
    { intros I. assert (X : existsb (String.eqb (mat_name m)) seen = true) by (apply existsb_exists; exists (mat_name m); split; [exact I | apply String.eqb_refl]). congruence. }
    split.
    + intros (N & H). split; [constructor; auto; intros I; apply (H _ I); now left|]. intros n [<-|I]; auto. intros J. apply (H n I). now right.
    + intros (N & H). inversion N as [|? ? N1 N2]; subst. split; auto. intros n I [<-|J]; [easy|]. apply (H n); [now right | exact J].
Qed.
Lemma materials_perm l l' : Permutation l l' -> materials_ok [] l = materials_ok [] l'.
Proof.
  intros P. apply eq_iff_eq_true. rewrite !materials_iff. pose proof (Permutation_map mat_name P) as Q.
  split; intros (N & _).
  - split; [exact (Permutation_NoDup Q N) | easy].
  - split; [exact (Permutation_NoDup (Permutation_sym Q) N) | easy].
Qed.

Lemma keys_unique {B} (l l' : list (string * B)) : ksorted l -> ksorted l' -> Permutation l l' -> l = l'.
Proof. intros S S' P. apply (sorted_perm_unique fst); auto. Qed.

Lemma parse_links_perm l l' : Permutation l l' -> parse_links l [] = parse_links l' [].
Proof.
  intros P. pose proof (Permutation_map fst (Permutation_map link_desc P)) as Q.
  destruct (parse_links l []) as [r|] eqn:E.
  - pose proof (parse_links_inv _ _ _ E (NoDup_nil _)) as N. cbn [map app] in N.
    destruct (parse_links_ok l [] N) as (r1 & E1 & S1 & P1); [constructor|]. destruct (parse_links_ok l' []) as (r2 & E2 & S2 & P2); [cbn [map app]; eapply Permutation_NoDup; eauto | constructor |].
    rewrite E2. f_equal. rewrite E in E1. inversion E1; subst r1. apply keys_unique; auto.
    rewrite P1, P2. cbn [app]. now apply Permutation_map.
  - destruct (parse_links l' []) as [r|] eqn:E'; [|reflexivity]. exfalso.
    pose proof (parse_links_inv _ _ _ E' (NoDup_nil _)) as N. cbn [map app] in N.
    destruct (parse_links_ok l []) as (r2 & E2 & _); [cbn [map app]; eapply Permutation_NoDup; [symmetry|]; eauto | constructor |]. congruence.
Qed.

Lemma all_joints_perm l l' : Permutation l l' -> forall js, all_joints l = Some js -> exists js', all_joints l' = Some js' /\ Permutation js js'.
Proof.
  induction 1 as [|x l l' P IH|x y l|l l' l'' P1 IH1 P2 IH2]; cbn [all_joints]; intros js E.
  - inversion E. exists []. auto.
  - destruct (parseJoint x) as [j|]; [|discriminate]. destruct (all_joints l) as [js0|]; [|discriminate]. inversion E; subst.
    destruct (IH js0 eq_refl) as (js' & -> & Q). exists (j :: js'). auto.
  - destruct (parseJoint x) as [j|], (parseJoint y) as [j'|], (all_joints l) as [js0|]; try discriminate. inversion E; subst.
    eexists. split; [reflexivity | apply perm_swap].
  - destruct (IH1 _ E) as (js1 & E1 & Q1). destruct (IH2 _ E1) as (js2 & E2 & Q2). exists js2. split; auto. now transitivity js1.
Qed.

Lemma parse_joints_perm_some l l' r : Permutation l l' -> parse_joints l [] = Some r -> parse_joints l' [] = Some r.
Proof.
  intros P E. destruct (parse_joints_inv _ _ _ E (NoDup_nil _)) as (js & Ej & N). cbn [map app] in N.
  destruct (all_joints_perm _ _ P _ Ej) as (js' & Ej' & Q).
  destruct (parse_joints_ok l js [] Ej N) as (r1 & E1 & S1 & P1); [constructor|].
  destruct (parse_joints_ok l' js' [] Ej') as (r2 & E2 & S2 & P2); [cbn [map app]; eapply Permutation_NoDup; [apply Permutation_map, Q | exact N] | constructor |].
  rewrite E2. f_equal. rewrite E in E1. inversion E1; subst r1. apply keys_unique; auto. rewrite P1, P2. cbn [app]. apply Permutation_map. now symmetry.
Qed.
Lemma parse_joints_perm l l' : Permutation l l' -> parse_joints l [] = parse_joints l' [].
Proof.
  intros P. destruct (parse_joints l []) as [r|] eqn:E; [symmetry; eapply parse_joints_perm_some; eauto|].
  destruct (parse_joints l' []) as [r|] eqn:E'; [|reflexivity]. rewrite (parse_joints_perm_some l' l r (Permutation_sym P) E') in E. discriminate.
Qed.

Lemma parse_kids_perm name k k' : Permutation k k' -> parse_robot_kids name k = parse_robot_kids name k'.
Proof.
  intros P. unfold parse_robot_kids.
  now rewrite (materials_perm _ _ (children_perm "material" _ _ P)), (parse_links_perm _ _ (children_perm "link" _ _ P)), (parse_joints_perm _ _ (children_perm "joint" _ _ P)).
Qed.

End P.
