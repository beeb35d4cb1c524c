(** A printed number reads as the number rounded to six digits. *)
From Coq Require Import QArith Qreals ZArith Reals String Ascii List Lia Lra.
From Flocq Require Import Core Relative.
From Verif Require Import Base Num Pose Urdf Decimal RealArith Spec_Str Pf_Str Show.
Import ListNotations.
Local Open Scope string_scope.

Lemma digit_char_ok d : (0 <= d < 10)%Z -> digit (digit_char d) /\ value_of (digit_char d) = d.
Proof.
  intros H. assert (C : (d = 0 \/ d = 1 \/ d = 2 \/ d = 3 \/ d = 4 \/ d = 5 \/ d = 6 \/ d = 7 \/ d = 8 \/ d = 9)%Z) by lia.
  unfold digit. repeat (destruct C as [-> | C]; [split; [cbn; tauto|reflexivity]|]). subst d. split; [cbn; tauto|reflexivity].
Qed.

Lemma all_digits_app a b : all_digits (a ++ b) <-> all_digits a /\ all_digits b.
Proof. induction a as [|c a IH]; cbn [append all_digits]; [tauto|]. rewrite IH. tauto. Qed.
Lemma slength_app a b : String.length (a ++ b) = (String.length a + String.length b)%nat.
Proof. induction a as [|c a IH]; cbn [append String.length]; lia. Qed.

Lemma zdigits_ok k : forall z, all_digits (zdigits k z) /\ String.length (zdigits k z) = k /\
  forall acc, number acc (zdigits k z) = (acc * 10 ^ Z.of_nat k + z mod 10 ^ Z.of_nat k)%Z.
Proof.
  induction k as [|k IH]; intros z.
  - cbn. repeat split. intros acc. rewrite Z.mod_1_r. lia.
  - cbn [zdigits]. destruct (IH (z / 10)%Z) as (D & L & N). pose proof (Z.mod_pos_bound z 10 ltac:(lia)) as B. destruct (digit_char_ok _ B) as (C1 & C2).
    split; [apply all_digits_app; split; [exact D|cbn [all_digits]; auto]|]. split; [rewrite slength_app, L; cbn; lia|]. intros acc. rewrite number_app, N. cbn [number]. rewrite C2.
    replace (Z.of_nat (S k)) with (Z.succ (Z.of_nat k)) by lia. rewrite Z.pow_succ_r by lia.
    rewrite (Z.rem_mul_r z 10) by (try lia; apply Z.pow_pos_nonneg; lia). lia.
Qed.

Lemma strip0_ok s : all_digits s -> all_digits (strip0 s) /\
  forall acc, (number acc s * 10 ^ Z.of_nat (String.length (strip0 s)) = number acc (strip0 s) * 10 ^ Z.of_nat (String.length s))%Z.
Proof.
  induction s as [|c t IH]; intros D; [split; [exact I|reflexivity]|]. destruct D as (D1 & D2). destruct (IH D2) as (E1 & E2). cbn [strip0].
  destruct (strip0 t) as [|c' t'] eqn:Es.
  - destruct (Ascii.eqb_spec c "0") as [-> | N].
    + split; [exact I|]. intros acc. cbn [String.length number]. specialize (E2 (10 * acc + value_of "0")%Z). cbn [String.length number] in E2.
      change (value_of "0") with 0%Z in *. replace (Z.of_nat (S (String.length t))) with (Z.succ (Z.of_nat (String.length t))) by lia. rewrite Z.pow_succ_r by lia.
      change (Z.of_nat 0) with 0%Z in *. rewrite Z.pow_0_r in *. lia.
    + split; [split; [exact D1|exact I]|]. intros acc. cbn [String.length number]. specialize (E2 (10 * acc + value_of c)%Z). cbn [String.length number] in E2.
      replace (Z.of_nat (S (String.length t))) with (Z.succ (Z.of_nat (String.length t))) by lia. rewrite Z.pow_succ_r by lia.
      change (Z.of_nat 0) with 0%Z in *. change (Z.of_nat 1) with 1%Z. rewrite Z.pow_0_r, Z.pow_1_r in *. lia.
  - split; [split; [exact D1|exact E1]|]. intros acc. cbn [String.length]. specialize (E2 (10 * acc + value_of c)%Z). cbn [number].
    cbn [String.length number] in E2 |- *. rewrite !(Nat2Z.inj_succ (S _)), !(Nat2Z.inj_succ (String.length t)). rewrite !(Z.pow_succ_r _ (Z.of_nat (S _))), (Z.pow_succ_r _ (Z.of_nat (String.length t))) by lia. nia.
Qed.

Lemma pointed_ok ip fd : all_digits fd -> exists fr fd', pointed ip fd = ip ++ fr /\ fraction fr fd' /\
  (number 0 (ip ++ fd) * 10 ^ Z.of_nat (String.length fd') = number 0 (ip ++ fd') * 10 ^ Z.of_nat (String.length fd))%Z.
Proof.
  intros D. destruct (strip0_ok fd D) as (D' & N). unfold pointed. destruct (strip0 fd) as [|c t] eqn:E.
  - exists "", "". rewrite sapp_nil. split; [reflexivity|]. split; [constructor|]. rewrite !number_app. apply (N (number 0 ip)).
  - exists (String "." (String c t)), (String c t). split; [reflexivity|]. split; [now constructor|]. rewrite !number_app. apply N.
Qed.

Lemma take_drop n s : stake n s ++ sdrop n s = s.
Proof. revert s; induction n as [|n IH]; intros [|c t]; cbn [stake sdrop append]; auto. now rewrite IH. Qed.
Lemma drop_length n s : String.length (sdrop n s) = (String.length s - n)%nat.
Proof. revert s; induction n as [|n IH]; intros [|c t]; cbn [sdrop String.length]; rewrite ?IH; lia. Qed.
Lemma take_nonempty n s : (0 < n)%nat -> s <> "" -> stake n s <> "".
Proof. destruct n, s; cbn; intros; try lia; congruence. Qed.
Lemma zeros_ok k : all_digits (zeros k) /\ String.length (zeros k) = k /\ number 0 (zeros k) = 0%Z.
Proof. induction k as [|k (D & L & N)]; [repeat split|]. cbn [zeros all_digits String.length number]. repeat split; auto. cbn; tauto. Qed.

Lemma exp_ok e : (Z.abs e < 1000)%Z -> exponent (exp_part e) e.
Proof.
  intros H. unfold exp_part. set (k := if (Z.abs e <? 100)%Z then 2%nat else 3%nat). destruct (zdigits_ok k (Z.abs e)) as (D & L & N).
  assert (V : number 0 (zdigits k (Z.abs e)) = Z.abs e).
  { rewrite N. unfold k. destruct (Z.ltb_spec (Z.abs e) 100); cbn [Z.of_nat]; rewrite Z.mod_small; try lia; cbn; lia. }
  assert (NE : zdigits k (Z.abs e) <> ""). { intros E. rewrite E in L. unfold k in L. destruct (Z.abs e <? 100)%Z; discriminate L. }
  destruct (Z.ltb_spec e 0).
  - replace e with (-1 * number 0 (zdigits k (Z.abs e)))%Z at 2 by lia. change (String "e" (String "-" (zdigits k (Z.abs e)))) with (String "e" ("-" ++ zdigits k (Z.abs e))). constructor; auto. constructor.
  - replace e with (1 * number 0 (zdigits k (Z.abs e)))%Z at 2 by lia. change (String "e" (String "+" (zdigits k (Z.abs e)))) with (String "e" ("+" ++ zdigits k (Z.abs e))). constructor; auto. constructor.
Qed.

Lemma all_digits_space s : all_digits s -> no_space s.
Proof.
  induction s as [|c t IH]; [easy|]. intros (D & T). split; [|auto]. intros ->. unfold digit in D. cbn in D. repeat (destruct D as [D|D]; [discriminate D|]). exact D.
Qed.

(** the printed form of m * 10^(e-5) *)
Lemma print_ok m e : (0 <= m < 10 ^ 6)%Z -> (Z.abs e < 1000)%Z ->
  exists ip fr fd ex ee, print_g m e = ip ++ fr ++ ex /\ all_digits ip /\ ip <> "" /\ fraction fr fd /\ exponent ex ee /\ no_space (print_g m e) /\
    (IZR (number 0 (ip ++ fd)) * bpow radix10 (ee - Z.of_nat (String.length fd)) = IZR m * bpow radix10 (e - 5))%R.
Proof.
  intros Hm He. destruct (zdigits_ok 6 m) as (D & L & N). specialize (N 0%Z). rewrite Z.mod_small in N by (cbn in *; lia). replace (0 * 10 ^ Z.of_nat 6 + m)%Z with m in N by lia.
  remember (zdigits 6 m) as ds eqn:Eds. assert (NE : ds <> "") by (intros E; rewrite E in L; discriminate L). unfold print_g. rewrite <- Eds.
  assert (G : forall ip fd0 ee ex, all_digits ip -> ip <> "" -> all_digits fd0 -> exponent ex ee -> no_space ex -> number 0 (ip ++ fd0) = m -> (ee - Z.of_nat (String.length fd0) = e - 5)%Z ->
    exists ip' fr fd ex' ee', pointed ip fd0 ++ ex = ip' ++ fr ++ ex' /\ all_digits ip' /\ ip' <> "" /\ fraction fr fd /\ exponent ex' ee' /\ no_space (pointed ip fd0 ++ ex) /\
    (IZR (number 0 (ip' ++ fd)) * bpow radix10 (ee' - Z.of_nat (String.length fd)) = IZR m * bpow radix10 (e - 5))%R).
  { intros ip fd0 ee ex D1 N1 D2 X SX V Lx. destruct (pointed_ok ip fd0 D2) as (fr & fd & E & F & K). exists ip, fr, fd, ex, ee. rewrite E, sapp_assoc. repeat (split; [solve [auto]|]). split.
    - apply no_space_app. split; [now apply all_digits_space|]. apply no_space_app. split; [|exact SX]. destruct F as [|x Dx]; [exact I|]. split; [discriminate|now apply all_digits_space].
    - rewrite V in K. rewrite <- Lx. apply (f_equal IZR) in K. rewrite !mult_IZR in K.
      assert (PZ : forall n, IZR (10 ^ Z.of_nat n) = bpow radix10 (Z.of_nat n)). { intros n. rewrite <- IZR_Zpower by lia. reflexivity. }
      rewrite !PZ in K. unfold Z.sub. rewrite !bpow_plus.
      rewrite (bpow_opp radix10 (Z.of_nat (String.length fd))), (bpow_opp radix10 (Z.of_nat (String.length fd0))).
      pose proof (bpow_gt_0 radix10 (Z.of_nat (String.length fd))). pose proof (bpow_gt_0 radix10 (Z.of_nat (String.length fd0))).
      revert K. generalize (IZR (number 0 (ip ++ fd))). intros n K.
      assert (En : (n = IZR m * bpow radix10 (Z.of_nat (String.length fd)) / bpow radix10 (Z.of_nat (String.length fd0)))%R) by (rewrite K; field; lra).
      rewrite En. field. lra. }
  destruct ((-4 <=? e)%Z && (e <? 0)%Z)%bool eqn:B1; [|destruct ((0 <=? e)%Z && (e <? 6)%Z)%bool eqn:B2].
  - apply andb_prop in B1. destruct B1 as (B1 & B2). apply Z.leb_le in B1. apply Z.ltb_lt in B2. destruct (zeros_ok (Z.to_nat (- e - 1))) as (Dz & Lz & Nz).
    rewrite <- (sapp_nil (pointed _ _)). apply (G _ _ 0%Z ""); [cbn; tauto|discriminate|apply all_digits_app; auto|constructor|exact I| |].
    + cbn [append number]. rewrite number_app. change (10 * 0 + value_of "0")%Z with 0%Z. rewrite Nz. exact N.
    + rewrite slength_app, Lz, L. lia.
  - apply andb_prop in B2. destruct B2 as (B3 & B2). apply Z.leb_le in B3. apply Z.ltb_lt in B2.
    pose proof (take_drop (Z.to_nat (e + 1)) ds) as T. assert (DD := D). rewrite <- T in DD. apply all_digits_app in DD. destruct DD as (D1 & D2).
    rewrite <- (sapp_nil (pointed _ _)). apply (G _ _ 0%Z ""); [exact D1|apply take_nonempty; [lia|exact NE]|exact D2|constructor|exact I|now rewrite T|]. rewrite drop_length, L. lia.
  - pose proof (take_drop 1 ds) as T. assert (DD := D). rewrite <- T in DD. apply all_digits_app in DD. destruct DD as (D1 & D2).
    apply (G _ _ e (exp_part e)); [exact D1|apply take_nonempty; [lia|exact NE]|exact D2|now apply exp_ok| |now rewrite T|].
    + unfold exp_part. destruct (zdigits_ok (if (Z.abs e <? 100)%Z then 2 else 3) (Z.abs e)) as (Dx & _). split; [discriminate|]. split; [destruct (e <? 0)%Z; discriminate|]. now apply all_digits_space.
    + rewrite drop_length, L. lia.
Qed.

Local Open Scope R_scope.
Lemma Q2R_dec n k : Q2R (inject_Z n * Qpower (10 # 1) k) = IZR n * bpow radix10 k.
Proof.
  rewrite Q2R_mult, RMicromega.Q2RpowerRZ by (left; discriminate). rewrite bpow_powerRZ. f_equal.
  - unfold Q2R, inject_Z. cbn. lra.
  - f_equal. unfold Q2R. cbn. lra.
Qed.

Lemma Q2R_Z n : Q2R (inject_Z n) = IZR n.
Proof. unfold Q2R, inject_Z. cbn. lra. Qed.

#[local] Instance six_pos : Prec_gt_0 6.
Proof. reflexivity. Qed.

Lemma round6_error x : Rabs (round6 x - x) <= 5 / 10 ^ 6 * Rabs x.
Proof.
  unfold round6. pose proof (relative_error_N_FLX radix10 6 eq_refl (fun n => negb (Z.even n)) x) as H. eapply Rle_trans; [exact H|]. apply Rmult_le_compat_r; [apply Rabs_pos|]. cbn. lra.
Qed.
Lemma round6_0 : round6 0 = 0.
Proof. apply round_0. apply valid_rnd_N. Qed.
Lemma round6_abs x : Rabs (round6 x) = round6 (Rabs x).
Proof. unfold round6. symmetry. apply round_NE_abs. exact _. Qed.
Lemma round6_format x : generic_format radix10 (FLX_exp 6) (round6 x).
Proof. apply generic_format_round; exact _. Qed.
Lemma round6_exact x : generic_format radix10 (FLX_exp 6) x -> round6 x = x.
Proof. apply round_generic. exact _. Qed.
Lemma round6_le x y : x <= y -> round6 x <= round6 y.
Proof. apply round_le; exact _. Qed.
Lemma bpow_format k : generic_format radix10 (FLX_exp 6) (bpow radix10 k).
Proof. apply generic_format_bpow. unfold FLX_exp. lia. Qed.

Lemma round6_neq_0 x : x <> 0 -> round6 x <> 0.
Proof.
  intros N E. pose proof (round6_error x) as H. rewrite E in H. replace (0 - x) with (- x) in H by lra. rewrite Rabs_Ropp in H. pose proof (Rabs_pos_lt x N). lra.
Qed.

(** the size of the numbers considered: all doubles have it *)
Definition in_range (x : R) : Prop := x = 0 \/ bpow radix10 (-900) <= Rabs x <= bpow radix10 308.

Lemma six_digits x : x <> 0 -> in_range x ->
  let F := Rabs (round6 x) in let e := (mag radix10 F - 1)%Z in let m := Ztrunc (F * bpow radix10 (5 - e)) in
  F = IZR m * bpow radix10 (e - 5) /\ (0 <= m < 10 ^ 6)%Z /\ (Z.abs e < 1000)%Z /\ F <= bpow radix10 308.
Proof.
  intros N [?|(L & U)]; [contradiction|]. intros F e m.
  assert (F0 : F <> 0) by (apply Rabs_no_R0, round6_neq_0; exact N).
  assert (Fp : 0 < F) by (pose proof (Rabs_pos (round6 x)); unfold F in *; lra).
  assert (G : generic_format radix10 (FLX_exp 6) F) by (apply generic_format_abs, round6_format).
  assert (B1 : bpow radix10 (-900) <= F) by (unfold F; rewrite round6_abs, <- (round6_exact _ (bpow_format (-900))); now apply round6_le).
  assert (B2 : F <= bpow radix10 308) by (unfold F; rewrite round6_abs, <- (round6_exact _ (bpow_format 308)); now apply round6_le).
  assert (Em : IZR m = F * bpow radix10 (5 - e)).
  { pose proof (scaled_mantissa_generic radix10 (FLX_exp 6) F G) as S. unfold scaled_mantissa, cexp, FLX_exp in S.
    replace (- (mag radix10 F - 6))%Z with (5 - e)%Z in S by (unfold e; lia). symmetry. exact S. }
  assert (EF : F = IZR m * bpow radix10 (e - 5)).
  { rewrite Em, Rmult_assoc, <- bpow_plus. replace (5 - e + (e - 5))%Z with 0%Z by lia. cbn. lra. }
  split; [exact EF|]. split; [|split].
  - pose proof (bpow_mag_gt radix10 F) as HG. rewrite Rabs_pos_eq in HG by lra. split.
    + apply le_IZR. rewrite Em. apply Rmult_le_pos; [lra|apply bpow_ge_0].
    + apply lt_IZR. rewrite Em. change (IZR (10 ^ 6)) with (IZR (radix10 ^ 6)). rewrite IZR_Zpower by lia.
      replace (bpow radix10 6) with (bpow radix10 (mag radix10 F) * bpow radix10 (5 - e)) by (rewrite <- bpow_plus; f_equal; unfold e; lia). apply Rmult_lt_compat_r; [apply bpow_gt_0|exact HG].
  - assert (M1 : (-900 + 1 <= mag radix10 F)%Z). { apply mag_ge_bpow. rewrite Rabs_pos_eq by lra. replace (-900 + 1 - 1)%Z with (-900)%Z by lia. exact B1. }
    assert (M2 : (mag radix10 F <= 308 + 1)%Z). { rewrite <- (mag_bpow radix10 308). now apply mag_le. }
    unfold e. lia.
  - exact B2.
Qed.

Theorem show6_reads x : in_range x -> show6 x <> ""%string /\ no_space (show6 x) /\ str_to_double (show6 x) = Some (round6 x).
Proof.
  intros H. unfold show6. destruct (Req_EM_T x 0) as [-> | N].
  - split; [discriminate|]. split; [split; [discriminate|exact I]|]. rewrite round6_0. cbn [str_to_double RA].
    replace (strToDouble "0") with (Some (0 * 1)%Q) by (vm_compute; reflexivity). cbn [option_map]. f_equal. unfold Q2R. cbn. lra.
  - destruct (six_digits x N H) as (EF & Bm & Be & BF). cbn zeta. set (F := Rabs (round6 x)) in *. set (e := (mag radix10 F - 1)%Z) in *. set (m := Ztrunc (F * bpow radix10 (5 - e))) in *.
    destruct (print_ok m e Bm Be) as (ip & fr & fd & ex & ee & E & D & NE & Fr & Ex & SP & V).
    set (q := (inject_Z (number 0 (ip ++ fd)) * Qpower (10 # 1) (ee - Z.of_nat (String.length fd)))%Q).
    assert (Vq : Q2R q = F) by (unfold q; rewrite Q2R_dec, V; symmetry; exact EF).
    assert (Lq : (q < inject_Z (2 ^ 1024 - 2 ^ 970))%Q).
    { apply Rlt_Qlt. rewrite Vq, Q2R_Z. apply (Rle_lt_trans _ (bpow radix10 308)); [exact BF|]. rewrite <- (IZR_Zpower radix10 308) by lia. apply IZR_lt. vm_compute. reflexivity. }
    assert (Sx : exists sg z, (if Rlt_dec x 0 then "-" else "")%string = sg /\ sign sg z /\ Q2R (if (z =? 1)%Z then q else Qopp q) = round6 x).
    { destruct (Rlt_dec x 0) as [Lx|Lx].
      - exists "-"%string, (-1)%Z. split; [reflexivity|]. split; [constructor|]. change ((-1 =? 1)%Z) with false. cbv iota. rewrite Q2R_opp, Vq. unfold F.
        rewrite Rabs_left1; [lra|]. rewrite <- round6_0. apply round6_le. lra.
      - exists ""%string, 1%Z. split; [reflexivity|]. split; [constructor|]. change ((1 =? 1)%Z) with true. cbv iota. rewrite Vq. unfold F.
        apply Rabs_pos_eq. rewrite <- round6_0. apply round6_le. lra. }
    destruct Sx as (sg & z & -> & Sg & Vs).
    split; [|split].
    + intros C. rewrite E in C. destruct ip as [|c ip]; [contradiction|]. destruct Sg; discriminate C.
    + apply no_space_app. split; [|exact SP]. destruct Sg; cbn; repeat split; discriminate.
    + assert (Dec : decimal (sg ++ print_g m e) (if (z =? 1)%Z then q else Qopp q)).
      { exists ""%string, sg, z, ip, fr, fd, ex, ee. cbn [append]. rewrite E. split; [reflexivity|]. split; [exact I|]. repeat (split; [solve [auto]|]). destruct (z =? 1)%Z; reflexivity. }
      apply decimal_iff in Dec. cbn [str_to_double RA]. rewrite Dec. cbn [option_map]. now rewrite Vs.
Qed.
