(** Squared distances between links computed with doubles; for C101. *)
From Coq Require Import ZArith QArith Qreals String Ascii List Arith Lia Bool Permutation Reals Lra Classical.
From Flocq Require Import Core BinarySingleNaN.
From Verif Require Import Base Num Pose DataStructure Urdf Kin Wrapper Decimal RealArith FloatArith Ieee
  Spec_Robot Spec_Hist Spec_Load Spec_Jac Spec_Deriv Spec_Float Spec_Ieee
  Pf_Data Pf_Urdf Inv Pf_FK Rep Pf_Ops Pf_Jac Pf_Pose Pf_Reach Pf_Real Pf_Float1 Pf_Float2 Pf_Float3 Pf_Float4 Pf_Float5 Pf_Float6 Pf_Float9
  Pf_Ieee1 Pf_Ieee2 Pf_Ieee3 Pf_Ieee4 Pf_Ieee5 Pf_Ieee6.
Import ListNotations.
Local Open Scope R_scope.

Lemma zip_found {AA : Arith} f (J1 J2 : @mat AA) r c row1 row2 x1 x2 : nth_error J1 r = Some row1 -> nth_error row1 c = Some x1 ->
  nth_error J2 r = Some row2 -> nth_error row2 c = Some x2 -> nth c (nth r (mat_zip f J1 J2) []) (@n0 AA) = f x1 x2.
Proof.
  intros H1 H2 H3 H4. unfold mat_zip.
  assert (C : forall {X Y} (l : list X) (l' : list Y) n x y, nth_error l n = Some x -> nth_error l' n = Some y -> nth_error (combine l l') n = Some (x, y)).
  { intros X Y l. induction l as [|a l IH]; intros [|b l'] [|n] x y; cbn; try discriminate; [now intros [= ->] [= ->] | apply IH]. }
  rewrite (nth_error_nth _ r [] (x := zipw f row1 row2)).
  - unfold zipw. apply nth_error_nth. exact (map_nth_error (fun xy => f (fst xy) (snd xy)) _ _ (C _ _ _ _ _ _ _ H2 H4)).
  - exact (map_nth_error (fun xy => zipw f (fst xy) (snd xy)) _ _ (C _ _ _ _ _ _ _ H1 H3)).
Qed.
Lemma grad_found {AA : Arith} n (J1 J2 : @mat AA) d c : (c < n)%nat ->
  nth_error (grad_row n J1 J2 d) c = Some (let g r := nth c (nth r (mat_zip sub J1 J2) []) (@n0 AA) in
    add (add (mul (mul n2 (g 0%nat)) (vx d)) (mul (mul n2 (g 1%nat)) (vy d))) (mul (mul n2 (g 2%nat)) (vz d))).
Proof.
  intros Lc. unfold grad_row. rewrite nth_error_map. rewrite (nth_error_nth' (seq 0 n) 0%nat) by (rewrite seq_length; exact Lc).
  rewrite seq_nth by exact Lc. reflexivity.
Qed.

Section Dist.
Variable pf : Platform.
Variable u : R.
Hypothesis Hpf : platform_ok pf u.
Hypothesis Hu1 : double_unit <= u.
Notation o := (ieee pf).

Definition vval (v : @Vector3 (DA pf)) : @Vector3 (FA o) := @V3 (FA o) (value (vx v)) (value (vy v)) (value (vz v)).
Lemma self_sim k x : finite x -> Rabs (value x) <= bpow radix2 k -> sim k x (value x).
Proof. intros F B. split; [exact F|]. now split. Qed.

Lemma sqnorm_sim k v v' : simv pf k v v' -> (0 <= k <= 500)%Z -> sim (2 * k + 2) (@sq_norm (DA pf) v) (@sq_norm (FA o) v').
Proof.
  intros (X & Y & Z) K. unfold sq_norm.
  eapply sim_le; [|eapply (sim_add pf); [eapply (sim_add pf); [eapply (sim_mul pf); [exact X|exact X|]|eapply (sim_mul pf); [exact Y|exact Y|]|]|eapply (sim_mul pf); [exact Z|exact Z|]|]]; lia.
Qed.

Lemma grad_sim k (a b : nat -> double) (d : @Vector3 (DA pf)) (a' b' : nat -> R) (d' : @Vector3 (FA o)) :
  (forall r, (r < 3)%nat -> sim k (a r) (a' r)) -> (forall r, (r < 3)%nat -> sim k (b r) (b' r)) -> simv pf (k + 1) d d' -> (0 <= k <= 490)%Z ->
  let t r x := @mul (DA pf) (@mul (DA pf) (@n2 (DA pf)) (@sub (DA pf) (a r) (b r))) x in
  let t' r x := o_mul o (o_mul o (@n2 (FA o)) (o_sub o (a' r) (b' r))) x in
  sim (2 * k + 6) (@add (DA pf) (@add (DA pf) (t 0%nat (vx d)) (t 1%nat (vy d))) (t 2%nat (vz d)))
                  (o_add o (o_add o (t' 0%nat (vx d')) (t' 1%nat (vy d'))) (t' 2%nat (vz d'))).
Proof.
  intros Ha Hb (X & Y & Z) K t t'. pose proof (proj1 (lit2 pf u Hpf)) as T2.
  assert (T : forall r x x', (r < 3)%nat -> sim (k + 1) x x' -> sim (2 * k + 3) (t r x) (t' r x')).
  { intros r x x' Lr Hx. unfold t, t'. eapply sim_le; [|eapply (sim_mul pf); [eapply (sim_mul pf); [exact T2|eapply (sim_sub pf); [exact (Ha r Lr)|exact (Hb r Lr)|]|]|exact Hx|]]; lia. }
  eapply sim_le; [|eapply (sim_add pf); [eapply (sim_add pf); [apply (T 0%nat _ _ ltac:(lia) X)|apply (T 1%nat _ _ ltac:(lia) Y)|]|apply (T 2%nat _ _ ltac:(lia) Z)|]]; lia.
Qed.
End Dist.
