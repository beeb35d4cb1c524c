(** The shape of the matrices that a call returns, from any state at all. *)
From Coq Require Import String List Arith Lia Bool.
From Verif Require Import Base Num Pose DataStructure Urdf Kin Wrapper Spec_Jac Pf_Base.
Import ListNotations.
Local Open Scope m_scope.

Section Shape.
Context `{A : Arith}.

Definition gives {S B} (f : M S B) (P : B -> Prop) : Prop := forall s s' b, f s = (s', Ok b) -> P b.
Definition rgives {B} (x : res B) (P : B -> Prop) : Prop := forall b, x = Ok b -> P b.

Lemma gives_bind {S B C} (x : M S B) (f : B -> M S C) P : (forall b, gives (f b) P) -> gives (bind x f) P.
Proof. intros H s s' c E. apply bind_inv_ok in E. destruct E as (s1 & b & _ & E). exact (H b _ _ _ E). Qed.
Lemma gives_bind' {S B C} (x : M S B) (f : B -> M S C) P Q : gives x Q -> (forall b, Q b -> gives (f b) P) -> gives (bind x f) P.
Proof. intros Hx H s s' c E. apply bind_inv_ok in E. destruct E as (s1 & b & Eb & E). exact (H b (Hx _ _ _ Eb) _ _ _ E). Qed.
Lemma gives_ret {S B} (b : B) (P : B -> Prop) : P b -> gives (ret b : M S B) P.
Proof. intros H s s' c E. inversion E; subst. exact H. Qed.
Lemma gives_lift {S B} (x : res B) P : rgives x P -> gives (lift x : M S B) P.
Proof. intros H s s' b E. inversion E; subst. now apply H. Qed.
Lemma gives_throw {S B} e (P : B -> Prop) : gives (throw e : M S B) P.
Proof. intros s s' b E. discriminate. Qed.
Lemma gives_for {S B C} (l : list B) (body : B -> C -> M S C) (P : C -> Prop) : (forall b c, P c -> gives (body b c) P) -> forall c, P c -> gives (for_each l c body) P.
Proof.
  intros H. induction l as [|b l IH]; intros c Pc s s' d E.
  - rewrite for_each_nil in E. inversion E; now subst.
  - rewrite for_each_cons in E. apply bind_inv_ok in E. destruct E as (s1 & c1 & E1 & E2). exact (IH c1 (H b c Pc _ _ _ E1) _ _ _ E2).
Qed.
Lemma rgives_bind {B C} (x : res B) (f : B -> res C) P Q : rgives x Q -> (forall b, Q b -> rgives (f b) P) -> rgives (rbind x f) P.
Proof. intros Hx H c E. destruct x as [b|e|u|]; try discriminate. exact (H b (Hx b eq_refl) c E). Qed.
Lemma rgives_rfor {B C} (l : list B) (body : B -> C -> res C) (P : C -> Prop) : (forall b c, P c -> rgives (body b c) P) -> forall c, P c -> rgives (rfor l c body) P.
Proof.
  intros H. induction l as [|b l IH]; intros c Pc d E; [inversion E; now subst|]. cbn [rfor] in E. destruct (body b c) as [c1|e|u|] eqn:E1; try discriminate.
  exact (IH c1 (H b c Pc _ E1) d E).
Qed.

Lemma shape_zero r c : has_shape r c (mat_zero r c).
Proof. split; [apply repeat_length|]. intros row I. apply repeat_spec in I. subst. apply repeat_length. Qed.
Lemma shape_vset r c J k row : has_shape r c J -> length row = c -> rgives (vset J k row) (has_shape r c).
Proof.
  intros [H1 H2] L J' E. apply vset_ok in E. destruct E as [Lk ->]. split; [now rewrite list_set_length|]. intros x I.
  apply In_nth_error in I. destruct I as (i & Ei). rewrite nth_error_list_set in Ei. destruct (Nat.eqb k i); [|eapply H2, nth_error_In; eauto].
  destruct (Nat.ltb k (length J)); inversion Ei; now subst.
Qed.
Lemma shape_set r c J i k v : has_shape r c J -> rgives (mat_set i k v J) (has_shape r c).
Proof.
  intros H. unfold mat_set. apply (rgives_bind _ _ _ (fun row => length row = c)).
  - intros row E. destruct H as [_ H]. apply H. unfold vget in E. destruct (nth_error J i) eqn:En; inversion E; subst. eapply nth_error_In; eauto.
  - intros row L. apply (rgives_bind _ _ _ (fun row => length row = c)).
    + intros row' E. apply vset_ok in E. destruct E as [_ ->]. now rewrite list_set_length.
    + intros row' L'. now apply shape_vset.
Qed.
Lemma shape_set_col r c vs : forall i k J, has_shape r c J -> rgives (mat_set_col i k vs J) (has_shape r c).
Proof.
  induction vs as [|v vs IH]; intros i k J H; cbn [mat_set_col]; [intros J' E; inversion E; now subst|].
  apply (rgives_bind _ _ _ (has_shape r c)); [now apply shape_set|]. intros; now apply IH.
Qed.
Lemma shape_set_row r c vs : forall i k J, has_shape r c J -> rgives (mat_set_row i k vs J) (has_shape r c).
Proof.
  induction vs as [|v vs IH]; intros i k J H; cbn [mat_set_row]; [intros J' E; inversion E; now subst|].
  apply (rgives_bind _ _ _ (has_shape r c)); [now apply shape_set|]. intros; now apply IH.
Qed.
Lemma shape_set_block r c B : forall i J, (forall row, In row B -> length row = c) -> has_shape r c J -> rgives (mat_set_block i B J) (has_shape r c).
Proof.
  induction B as [|b B IH]; intros i J HB H; cbn [mat_set_block]; [intros J' E; inversion E; now subst|].
  apply (rgives_bind _ _ _ (has_shape r c)); [apply shape_vset; auto; apply HB; now left|]. intros J' H'. apply IH; auto. intros row I. apply HB. now right.
Qed.
Lemma shape_map f r c J : has_shape r c J -> has_shape r c (mat_map f J).
Proof. intros [H1 H2]. unfold mat_map. split; [now rewrite map_length|]. intros row I. apply in_map_iff in I. destruct I as (x & <- & I). rewrite map_length. auto. Qed.
Lemma shape_zip f r c P Q : has_shape r c P -> has_shape r c Q -> has_shape r c (mat_zip f P Q).
Proof.
  intros [H1 H2] [H3 H4]. unfold mat_zip. split; [rewrite map_length, combine_length; lia|]. intros row I. apply in_map_iff in I. destruct I as ([x y] & <- & I).
  unfold zipw. rewrite map_length, combine_length. cbn [fst snd]. rewrite (H2 x), (H4 y); [lia| |]; [eapply in_combine_r; eauto | eapply in_combine_l; eauto].
Qed.

Lemma jacobian_shape e jids rt wb : gives (get_jacobian e jids rt wb) (has_shape (dim_jacobi rt) (length jids + if wb then 6 else 0)).
Proof.
  unfold get_jacobian. apply gives_bind. intros tf. apply (gives_bind' _ _ _ (has_shape (dim_jacobi rt) (length jids + if wb then 6 else 0))).
  - apply gives_for; [|apply shape_zero]. intros ij J HJ. unfold jacobian_joint. apply gives_bind. intros m. apply gives_bind. intros b. destruct b; [|now apply gives_ret].
    do 4 (apply gives_bind; intros ?). apply gives_lift. now apply shape_set_col.
  - intros J HJ. destruct wb; [|now apply gives_ret]. unfold jacobian_base. do 2 (apply gives_bind; intros ?). apply gives_lift.
    do 3 (apply (rgives_bind _ _ _ (has_shape (dim_jacobi rt) (length jids + 6))); [now apply shape_set|]; intros ? ?).
    apply rgives_rfor; auto. intros k J' H'. now apply shape_set_col.
Qed.
Lemma com_jacobian_shape jids wb : gives (get_com_jacobian jids wb) (has_shape 3 (length jids + if wb then 6 else 0)).
Proof.
  unfold get_com_jacobian. apply gives_bind. intros m. apply (gives_bind' _ _ _ (fun r => has_shape 3 (length jids + if wb then 6 else 0) (fst r))).
  - apply gives_for; [|apply shape_zero]. intros id [J mt] HJ. cbn [fst] in *. do 3 (apply gives_bind; intros ?).
    apply (gives_bind' _ _ _ (has_shape 3 (length jids + if wb then 6 else 0))); [apply (jacobian_shape _ _ IGNORE)|]. intros jac Hj. apply gives_ret. cbn [fst].
    apply shape_zip; auto. now apply shape_map.
  - intros [J mt] HJ. apply gives_ret. now apply shape_map.
Qed.

Definition both {B C} (P : B -> Prop) (Q : C -> Prop) (x : B * C) : Prop := P (fst x) /\ Q (snd x).

Lemma fk_shape qs el jids rt wb wj uc : gives (solve_forward_kinematics qs el jids rt wb wj uc)
  (both (has_shape (length qs * length el) (dim_jacobi rt)) (has_shape (length qs * length el * dim_jacobi rt) (length jids + if wb then 6 else 0))).
Proof.
  unfold solve_forward_kinematics. replace (if wb then length jids + 6 else length jids) with (length jids + if wb then 6 else 0) by (destruct wb; lia).
  apply gives_bind. intros _. apply gives_for; [|split; apply shape_zero]. intros iq [P J] [HP HJ]. cbn [fst snd] in *. apply gives_bind. intros _.
  apply (gives_bind' _ _ _ (has_shape (length qs * length el) (dim_jacobi rt))).
  - unfold fk_poses. apply gives_for; auto. intros je P0 H0. apply gives_bind. intros p. apply gives_lift. now apply shape_set_row.
  - intros P' HP'. apply (gives_bind' _ _ _ (has_shape (length qs * length el * dim_jacobi rt) (length jids + if wb then 6 else 0))).
    + destruct wj; [|now apply gives_ret]. unfold fk_jacs. apply gives_for; auto. intros je J0 H0.
      apply (gives_bind' _ _ _ (has_shape (dim_jacobi rt) (length jids + if wb then 6 else 0))); [apply jacobian_shape|]. intros B [_ HB]. apply gives_lift. now apply shape_set_block.
    + intros J' HJ'. apply gives_ret. split; auto.
Qed.
Lemma com_fk_shape qs jids ac fo wb wj : gives (solve_com_forward_kinematics qs jids ac fo wb wj)
  (both (has_shape (length qs) 3) (has_shape (3 * length qs) (length jids + if wb then 6 else 0))).
Proof.
  unfold solve_com_forward_kinematics. apply gives_for; [|split; apply shape_zero]. intros iq [P J] [HP HJ]. cbn [fst snd] in *. apply gives_bind. intros _. apply gives_bind. intros com.
  apply (gives_bind' _ _ _ (has_shape 3 (length jids + if wb then 6 else 0))); [destruct wj; [apply com_jacobian_shape | apply gives_ret, shape_zero]|].
  intros B HB. apply (gives_bind' _ _ _ (fun r => has_shape 3 (length jids + if wb then 6 else 0) (snd r))).
  - unfold apply_forces. destruct ac as [|a ac]; [now apply gives_ret|].
    apply (gives_bind' _ _ _ (fun r => has_shape 3 (length jids + if wb then 6 else 0) (snd r))).
    + apply gives_for; auto. intros ja [[fs c] B0] H0. cbn [snd] in H0. do 3 (apply gives_bind; intros ?).
      apply (gives_bind' _ _ _ (has_shape 3 (length jids + if wb then 6 else 0))); [|intros B' HB'; now apply gives_ret].
      destruct wj; [|now apply gives_ret]. apply (gives_bind' _ _ _ (has_shape 3 (length jids + if wb then 6 else 0))); [apply (jacobian_shape _ _ IGNORE)|].
      intros jac Hj. apply gives_ret. apply shape_zip; auto. now apply shape_map.
    + intros [[fs c] B0] H0. cbn [snd] in H0. apply gives_ret. cbn [snd]. destruct wj; auto. now apply shape_map.
  - intros r Hr. apply (gives_bind' _ _ _ (has_shape (length qs) 3)); [apply gives_lift; now apply shape_set_row|]. intros P' HP'.
    apply (gives_bind' _ _ _ (has_shape (3 * length qs) (length jids + if wb then 6 else 0))); [apply gives_lift, shape_set_block; auto; apply Hr|]. intros J' HJ'. apply gives_ret. split; auto.
Qed.
End Shape.
