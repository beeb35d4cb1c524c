(** A concrete platform whose functions are correctly rounded, and the robot of Ex_Float.v on it. *)
From Coq Require Import ZArith QArith Qreals Qabs Reals Lra Lia String Ascii List Bool.
From Flocq Require Import Core BinarySingleNaN.
From Verif Require Import Base Num Pose DataStructure Urdf Kin Wrapper Spec_Robot Spec_Hist Spec_Load Decimal RealArith FloatArith Ieee Spec_Float Spec_Ieee Pf_Ieee1 Ex_Robot Ex_Float.
Import ListNotations.
Local Open Scope R_scope.

Definition round_real (r : R) : double := of_real (double_round r).
Definition ex_pf : Platform := {|
  p_lit := fun q => round_real (Q2R q);
  p_sin := fun x => round_real (sin (value x)); p_cos := fun x => round_real (cos (value x));
  p_asin := fun x => round_real (asin (value x)); p_atan2 := fun y x => round_real (ratan2 (value y) (value x));
  p_parse := fun s => option_map (fun q => round_real (Q2R q)) (strToDouble s) |}.

Lemma of_real_format r : generic_format radix2 (FLT_exp (-1074) 53) r -> Rabs r < bpow radix2 1024 -> same_number (of_real r) r.
Proof.
  intros G B. unfold same_number, of_real, value, finite.
  pose proof (binary_normalize_correct double_prec double_emax _ _ mode_NE (Ztrunc (scaled_mantissa radix2 (SpecFloat.fexp double_prec double_emax) r)) (cexp radix2 (SpecFloat.fexp double_prec double_emax) r) false) as H.
  cbv zeta in H. assert (G' := G). unfold generic_format in G'. change (FLT_exp (-1074) 53) with (SpecFloat.fexp double_prec double_emax) in G', G. rewrite <- G' in H.
  rewrite (round_generic radix2 (SpecFloat.fexp double_prec double_emax) (round_mode mode_NE) r G) in H.
  rewrite Rlt_bool_true in H by exact B. destruct H as (H1 & H2 & _). split; [exact H2|exact H1].
Qed.
Lemma round_real_ok r k : (-1074 <= k < 1024)%Z -> Rabs r <= bpow radix2 k -> same_number (round_real r) (double_round r).
Proof.
  intros K B. apply of_real_format; [apply generic_format_round; [apply FLT_exp_valid; reflexivity | apply valid_rnd_N]|].
  eapply Rle_lt_trans; [apply (round_bound k r (proj1 K) B)|]. apply bpow_lt, K.
Qed.
Lemma round_real_rounds r k : (-1074 <= k < 1024)%Z -> Rabs r <= bpow radix2 k -> finite (round_real r) /\ rounds double_unit r (value (round_real r)).
Proof. intros K B. destruct (round_real_ok r k K B) as [F V]. split; [exact F|]. rewrite V. apply double_rounds. Qed.

Lemma ex_pf_ok : platform_ok ex_pf double_unit.
Proof.
  split; cbn [p_lit p_sin p_cos p_parse ex_pf].
  - intros q B. apply (round_real_ok _ 2); [lia|exact B].
  - intros x _. apply (round_real_rounds _ 0); [lia|]. apply Rabs_le, SIN_bound.
  - intros x _. apply (round_real_rounds _ 0); [lia|]. apply Rabs_le, COS_bound.
  - split; reflexivity.
  - intros s q E B. rewrite E. eexists. split; [reflexivity|]. now apply (round_real_rounds _ 1000).
  - intros s E. now rewrite E.
Qed.

(** ** Numerals of a concrete document *)
Fixpoint strings (x : xml) : list string :=
  match x with XElem _ a k => map snd a ++ flat_map strings k | XOther => [] end.
Lemma occurs_strings s x : occurs s x -> In s (strings x).
Proof.
  induction 1 as [t a k n I|t a k y I O IH]; cbn [strings]; apply in_or_app; [left; apply (in_map snd) in I; exact I|right]. apply in_flat_map. eauto.
Qed.
Definition fits_check (w : string) : bool := match strToDouble w with Some q => Qle_bool (Qabs q) 1000 | None => true end.
Lemma fits_check_ok w q : fits_check w = true -> strToDouble w = Some q -> Rabs (Q2R q) <= bpow radix2 1000.
Proof.
  unfold fits_check. intros H E. rewrite E in H. apply Qle_bool_iff, Qreals.Qle_Rle in H.
  assert (X : Rabs (Q2R q) <= 1000).
  { apply Rabs_le. pose proof (Qle_Rle _ _ (Qle_Qabs q)) as H1. pose proof (Qle_Rle _ _ (Qle_Qabs (- q))) as H2. rewrite Qabs_opp in H2. rewrite Q2R_opp in H2.
    replace (Q2R 1000) with 1000 in H by (unfold Q2R; cbn; lra). lra. }
  eapply Rle_trans; [exact X|]. apply Rle_trans with (bpow radix2 10); [change (bpow radix2 10) with 1024; lra|]. apply bpow_le. lia.
Qed.
Lemma fits_by_check top : forallb (fun s => forallb fits_check (s :: split_string " "%char s)) (flat_map strings top) = true -> numerals_fit top.
Proof.
  intros H x s w q I O Hw E. rewrite forallb_forall in H. assert (Is : In s (flat_map strings top)) by (apply in_flat_map; exists x; split; [exact I|now apply occurs_strings]).
  specialize (H s Is). rewrite forallb_forall in H. apply (fits_check_ok w); [|exact E]. apply H. destruct Hw as [-> | Hw]; [now left|now right].
Qed.
Lemma fl_fits : numerals_fit fl_top.
Proof. apply fits_by_check. vm_compute. reflexivity. Qed.

(** ** The calls *)
Lemma format_pow k : (-1074 <= k)%Z -> generic_format radix2 (FLT_exp (-1074) 53) (bpow radix2 k).
Proof. intros K. apply generic_format_bpow. unfold FLT_exp. lia. Qed.
Lemma ex_num x : x = 0 \/ x = 1 \/ x = -1 \/ x = 2 \/ x = 1 / 2 -> same_number (of_real x) x.
Proof.
  intros H. assert (B2 : 2 < bpow radix2 1024) by (change 2 with (bpow radix2 1); apply bpow_lt; lia).
  apply of_real_format.
  - destruct H as [-> | [-> | [-> | [-> | ->]]]]; [apply generic_format_0 | apply (format_pow 0) | apply generic_format_opp, (format_pow 0) | apply (format_pow 1) | replace (1 / 2) with (bpow radix2 (-1)) by (cbn; lra); apply (format_pow (-1))]; lia.
  - eapply Rle_lt_trans; [|exact B2]. apply Rabs_le. lra.
Qed.
Definition fl_double (pf : Platform) : list (@op (DA pf)) := @fl_ops (DA pf) of_real.
Definition fl_dqs : list (list double) := map (map of_real) fl_qs.
Lemma fl_double_calls e : Forall2 (double_call ex_pf e 2 2) (fl_double ex_pf) fl_exact.
Proof.
  unfold fl_double, fl_exact, fl_ops. repeat (apply Forall2_cons); [| | | |apply Forall2_nil].
  - apply dc_set_joint_angles. repeat constructor; apply ex_num; auto 6.
  - apply dc_set_base_xyzrpy; [repeat constructor; apply ex_num; auto 6|]. split; [apply vlen_le; [lra|]; cbn; lra|]. unfold angles_within. cbn. repeat split; apply Rabs_le; lra.
  - apply dc_get_link_pose.
  - apply dc_add_new_link; try (split; [|split]; cbn [vx vy vz]; apply ex_num; auto 6).
    + apply vlen_le; [lra|]. cbn. lra.
    + unfold angles_within. cbn. repeat split; apply Rabs_le; lra.
Qed.
Lemma fl_dqs_same : Forall2 same_numbers fl_dqs fl_qs.
Proof. unfold fl_dqs, fl_qs, same_numbers. cbn [map]. repeat (apply Forall2_cons || apply Forall2_nil); apply ex_num; auto 6. Qed.
Lemma fl_check_double l s c a a2 r f qs : qs = map (map r) fl_qs ->
  @fl_check (DA (mkPlatform l s c a a2 (fun w => option_map f (strToDouble w)))) (@fl_ops (DA (mkPlatform l s c a a2 (fun w => option_map f (strToDouble w)))) r) qs = true.
Proof. intros ->. vm_compute. reflexivity. Qed.
