(** The traversal of update_rptable: when it ends, and that the bound used by the model to
    call it endless is adequate. *)
From Coq Require Import String List Arith Lia.
From Verif Require Import Base Num Pose DataStructure Urdf Kin Pf_Base.
Import ListNotations.

(** [n] turns of a loop *)
Fixpoint turns {S R} (n : nat) (step : S -> S + R) (s : S) : S + R :=
  match n with
  | O => inl s
  | Datatypes.S n' => match step s with inl s' => turns n' step s' | inr r => inr r end
  end.

Lemma turns_add {S R} (step : S -> S + R) n : forall k s, turns (n + k) step s = match turns n step s with inl s' => turns k step s' | inr r => inr r end.
Proof. induction n as [|n IH]; intros k s; cbn [turns plus]; auto. destruct (step s); auto. Qed.

Lemma loop2_turns {S R} (step : S -> S + R) k : forall s, loop2 k step s = turns (2 ^ k) step s.
Proof.
  induction k as [|k IH]; intros s.
  - cbn [loop2 Nat.pow turns]. destruct (step s); reflexivity.
  - replace (2 ^ Datatypes.S k) with (2 ^ k + 2 ^ k) by (cbn [Nat.pow]; lia). cbn [loop2]. rewrite turns_add, IH. destruct (turns (2 ^ k) step s); auto.
Qed.

Section Loop.
Context `{A : Arith}.
Variable ls : list Link.

(** turns the traversal takes for a stack of links *)
Inductive costs : list nat -> nat -> Prop :=
| costs_nil : costs [] 0
| costs_cons c l rest k1 k2 : nth_error ls c = Some l -> costs (rev (l_children l)) k1 -> costs rest k2 -> costs (c :: rest) (S (k1 + k2)).

Lemma costs_det s k : costs s k -> forall k', costs s k' -> k' = k.
Proof.
  induction 1 as [|c l rest k1 k2 E C1 IH1 C2 IH2]; intros k' H; inversion H; subst; auto.
  match goal with X : nth_error ls c = Some _ |- _ => rewrite E in X; inversion X; subst end.
  match goal with X : costs (rev _) _, Y : costs rest _ |- _ => apply IH1 in X; apply IH2 in Y; subst end. reflexivity.
Qed.

Lemma costs_app a : forall b k, costs (a ++ b) k <-> exists k1 k2, k = k1 + k2 /\ costs a k1 /\ costs b k2.
Proof.
  induction a as [|c a IH]; intros b k; cbn [app].
  - split; [intros H; exists 0, k; repeat split; auto; constructor|]. intros (k1 & k2 & -> & H1 & H2). inversion H1; subst. exact H2.
  - split.
    + intros H. inversion H as [|? l ? k1 k2 E C1 C2]; subst. apply IH in C2. destruct C2 as (x & y & -> & Cx & Cy).
      exists (S (k1 + x)), y. repeat split; [lia | econstructor; eauto | exact Cy].
    + intros (x & y & -> & Cx & Cy). inversion Cx as [|? l ? k1 k2 E C1 C2]; subst.
      replace (S (k1 + k2) + y) with (S (k1 + (k2 + y))) by lia. econstructor; eauto. apply IH. eauto.
Qed.

Lemma costs_in s k c : costs s k -> In c s -> exists k', k' <= k /\ costs [c] k'.
Proof.
  intros H I. apply in_split in I. destruct I as (a & b & ->). apply costs_app in H. destruct H as (k1 & k2 & -> & _ & H).
  inversion H as [|? l ? x y E C1 C2]; subst. exists (S (x + 0)). split; [lia|]. econstructor; eauto. constructor.
Qed.

Lemma costs_child c l d k : nth_error ls c = Some l -> In d (l_children l) -> costs [c] k -> exists k', k' < k /\ costs [d] k'.
Proof.
  intros E I H. inversion H as [|? l' ? x y E' C1 C2]; subst. rewrite E in E'. inversion E'; subst l'.
  destruct (costs_in _ _ d C1) as (k' & L & C); [now apply in_rev in I|]. exists k'. split; auto. lia.
Qed.

(** links below a link *)
Inductive below (c : nat) : nat -> Prop :=
| below_refl : below c c
| below_step d l e : below c d -> nth_error ls d = Some l -> In e (l_children l) -> below c e.

Lemma below_trans c d e : below c d -> below d e -> below c e.
Proof. intros H1 H2. induction H2; auto. eapply below_step; eauto. Qed.

Lemma below_first c e : below c e -> e = c \/ exists l d, nth_error ls c = Some l /\ In d (l_children l) /\ below d e.
Proof.
  induction 1 as [|d l e H IH E I]; auto. right. destruct IH as [->|(l' & d' & E' & I' & H')].
  - exists l, e. repeat split; auto. constructor.
  - exists l', d'. repeat split; auto. eapply below_step; eauto.
Qed.

Lemma costs_below c e k : costs [c] k -> below c e -> exists k', k' <= k /\ costs [e] k'.
Proof.
  intros H B. induction B as [|d l e B IH E I]; [eauto|]. destruct IH as (k1 & L1 & C1).
  destruct (costs_child _ _ _ _ E I C1) as (k2 & L2 & C2). exists k2. split; [lia | exact C2].
Qed.

Definition edges_of (V : list nat) : nat := list_sum (map (fun c => match nth_error ls c with Some l => length (l_children l) | None => 0 end) V).

Lemma edges_split a c b : edges_of (a ++ c :: b) = edges_of (a ++ b) + match nth_error ls c with Some l => length (l_children l) | None => 0 end.
Proof. unfold edges_of. rewrite !map_app, !list_sum_app. cbn [map list_sum fold_right]. unfold list_sum. lia. Qed.

Lemma sum_bound s B : forall k, costs s k -> (forall c k', In c s -> costs [c] k' -> k' <= B) -> k <= length s * B.
Proof.
  induction s as [|c s IH]; intros k H F; [inversion H; lia|].
  replace (c :: s) with ([c] ++ s) in H by reflexivity. apply costs_app in H. destruct H as (k1 & k2 & -> & H1 & H2).
  apply IH in H2; [|intros; eapply F; eauto; now right]. apply (F c k1) in H1; [|now left]. cbn [length]. lia.
Qed.

Lemma pow2_ge n : S n <= 2 ^ n.
Proof. induction n as [|n IH]; cbn [Nat.pow]; lia. Qed.

Lemma costs_bound k : forall c V, costs [c] k -> NoDup V -> (forall x, below c x -> In x V) -> k <= 2 ^ edges_of V.
Proof.
  induction k as [k IH] using lt_wf_ind. intros c V H N HV.
  assert (Ic : In c V) by (apply HV; constructor). apply in_split in Ic. destruct Ic as (a & b & ->).
  rewrite edges_split. inversion H as [|? l ? k1 k2 E C1 C2]; subst. inversion C2; subst. rewrite Nat.add_0_r in *. rewrite E.
  assert (S1 : k1 <= length (rev (l_children l)) * 2 ^ edges_of (a ++ b)).
  { apply sum_bound; auto. intros d kd Id Cd. apply in_rev in Id. destruct (costs_child _ _ _ _ E Id H) as (kd' & Ld & Cd').
    rewrite (costs_det _ _ Cd' _ Cd). apply (IH kd' Ld d); auto.
    - now apply NoDup_remove_1 in N.
    - intros x Bx. assert (X : In x (a ++ c :: b)) by (apply HV; eapply below_trans; [eapply below_step; [constructor | eauto | eauto] | exact Bx]).
      apply in_app_iff in X. destruct X as [X|[<-|X]]; [apply in_app_iff; auto | exfalso | apply in_app_iff; auto].
      destruct (costs_below _ _ _ Cd' Bx) as (kc & Lc & Cc). pose proof (costs_det _ _ H _ Cc). lia. }
  rewrite rev_length in S1. rewrite Nat.pow_add_r. pose proof (pow2_ge (length (l_children l))) as P2.
  assert (P1 : 1 <= 2 ^ edges_of (a ++ b)) by (pose proof (pow2_ge (edges_of (a ++ b))); lia).
  nia.
Qed.

Lemma below_range c e k : costs [c] k -> below c e -> e < length ls.
Proof.
  intros H B. destruct (costs_below _ _ _ H B) as (k' & _ & C). inversion C as [|? l ? ? ? E _ _]; subst. apply nth_error_Some. congruence.
Qed.

Lemma edges_all : edges_of (seq 0 (length ls)) = num_edges ls.
Proof.
  unfold edges_of, num_edges. f_equal. clear. induction ls as [|l t IH] using rev_ind; [reflexivity|].
  rewrite app_length, Nat.add_comm. cbn [length plus]. rewrite seq_S, !map_app. cbn [map plus].
  rewrite nth_error_app2, Nat.sub_diag by lia. cbn [nth_error]. f_equal. rewrite <- IH. apply map_ext_in. intros i I. apply in_seq in I.
  rewrite nth_error_app1 by lia. reflexivity.
Qed.

Lemma costs_le c k : costs [c] k -> k <= 2 ^ num_edges ls.
Proof.
  intros H. rewrite <- edges_all. apply (costs_bound k c); auto; [apply seq_NoDup|]. intros x B. apply in_seq.
  pose proof (below_range _ _ _ H B). lia.
Qed.

(** ** the traversal *)
Variable jid : nat.

Definition table_fits (t : list (list bool)) : Prop :=
  (forall i l, nth_error ls i = Some l -> l_id l < length t) /\ Forall (fun r => jid < length r) t.

Lemma Forall_list_set {B} (P : B -> Prop) v i b : Forall P v -> P b -> Forall P (list_set v i b).
Proof. intros F Hb. revert i. induction F as [|x v Hx F IH]; intros [|i]; cbn [list_set]; constructor; auto. Qed.

Lemma table_set_fits t l i : table_fits t -> nth_error ls i = Some l -> exists t', table_set (l_id l) jid t = Ok t' /\ table_fits t'.
Proof.
  intros (F1 & F2) E. pose proof (F1 _ _ E) as L. unfold table_set, vget. destruct (nth_error t (l_id l)) as [row|] eqn:Er; [|apply nth_error_None in Er; lia].
  cbn [rbind]. assert (Lr : jid < length row) by (rewrite Forall_forall in F2; apply F2; eapply nth_error_In; eauto).
  rewrite (vset_lt row jid true Lr). cbn [rbind]. rewrite (vset_lt t (l_id l) _ L). eexists. split; [reflexivity|]. split.
  - intros i' l' E'. rewrite list_set_length. eauto.
  - apply Forall_list_set; auto. rewrite list_set_length. exact Lr.
Qed.

Lemma traversal_ends s k : costs s k -> forall t, table_fits t -> exists t', turns (S k) (rp_step ls jid) (s, t) = inr (Ok t') /\ table_fits t'.
Proof.
  assert (G : forall n s k, k <= n -> costs s k -> forall t, table_fits t -> exists t', turns (S k) (rp_step ls jid) (s, t) = inr (Ok t') /\ table_fits t').
  { induction n as [|n IH]; intros s0 k0 L H t F.
    - inversion H; subst; [exists t; split; [reflexivity | exact F] | lia].
    - inversion H as [|c l rest k1 k2 E C1 C2]; subst; [exists t; split; [reflexivity | exact F]|].
      destruct (table_set_fits t l c F E) as (t1 & E1 & F1).
      destruct (IH (rev (l_children l) ++ rest) (k1 + k2)) with (t := t1) as (t' & Et & Ft); [lia | apply costs_app; eauto | exact F1 |].
      exists t'. split; [|exact Ft]. remember (S (k1 + k2)) as m eqn:Em. cbn [turns]. unfold rp_step at 1. cbn [fst snd]. rewrite E, E1. subst m. exact Et. }
  intros H t F. eapply G; eauto.
Qed.

Lemma ended_costs n : forall s t r, table_fits t -> (forall i l c, nth_error ls i = Some l -> In c (l_children l) -> c < length ls) -> (forall c, In c s -> c < length ls) ->
  turns n (rp_step ls jid) (s, t) = inr r -> exists k, costs s k.
Proof.
  induction n as [|n IH]; intros s t r F Hc Hs E; [discriminate|]. cbn [turns] in E. unfold rp_step at 1 in E. cbn [fst snd] in E.
  destruct s as [|c rest]; [exists 0; constructor|].
  destruct (nth_error ls c) as [l|] eqn:Ec; [|apply nth_error_None in Ec; specialize (Hs c (or_introl eq_refl)); lia].
  destruct (table_set_fits t l c F Ec) as (t1 & E1 & F1). rewrite E1 in E.
  destruct (IH (rev (l_children l) ++ rest) t1 r F1 Hc) as (k & Hk).
  - intros d I. apply in_app_iff in I. destruct I as [I|I]; [apply in_rev in I; eauto | apply Hs; now right].
  - exact E.
  - apply costs_app in Hk. destruct Hk as (k1 & k2 & -> & C1 & C2). exists (S (k1 + k2)). econstructor; eauto.
Qed.

Lemma turns_more {S R} (step : S -> S + R) n k s r : turns n step s = inr r -> n <= k -> turns k step s = inr r.
Proof. intros E L. replace k with (n + (k - n)) by lia. now rewrite turns_add, E. Qed.

Lemma rp_joint_costs c k t : costs [c] k -> table_fits t -> exists t', rp_joint ls jid c t = Ok t' /\ table_fits t'.
Proof.
  intros H F. destruct (traversal_ends _ _ H t F) as (t' & E & F'). exists t'. split; [|exact F']. unfold rp_joint. rewrite loop2_turns.
  rewrite (turns_more _ (S k) _ _ _ E); [reflexivity|]. pose proof (costs_le c k H). cbn [Nat.pow]. pose proof (pow2_ge (num_edges ls)). lia.
Qed.

Theorem diverge_adequate c t : table_fits t -> (forall i l d, nth_error ls i = Some l -> In d (l_children l) -> d < length ls) -> c < length ls ->
  (rp_joint ls jid c t = Diverge <-> forall n, exists s, turns n (rp_step ls jid) ([c], t) = inl s).
Proof.
  intros F Hc Lc. split.
  - intros D n. destruct (turns n (rp_step ls jid) ([c], t)) as [s|r] eqn:E; [eauto|]. exfalso.
    destruct (ended_costs n [c] t r F Hc) as (k & Hk); [intros d [<-|[]]; exact Lc | exact E |].
    destruct (rp_joint_costs c k t Hk F) as (t' & Et & _). congruence.
  - intros H. unfold rp_joint. rewrite loop2_turns. destruct (H (2 ^ S (num_edges ls))) as (s & ->). reflexivity.
Qed.

End Loop.
