(** Reading attribute values and character data. *)
From Coq Require Import String List Arith NArith Ascii Bool Lia.
From Verif Require Import Base Urdf TinyXml Spec_Xml Pf_Xml1.
Import ListNotations.
Local Open Scope string_scope.
Local Open Scope m_scope.

Lemma str_eq1 q c t : StringEqual (String q "") (String c t) = is q c.
Proof.
  cbn. unfold is. destruct (ascii_dec q c) as [->|N].
  - rewrite Ascii.eqb_refl. destruct t; reflexivity.
  - symmetry. apply Ascii.eqb_neq. congruence.
Qed.

Lemma get_plain e c t : utf8_len c = 1 -> c <> "&"%char -> GetChar e (String c t) = Ok (Some t, String c "").
Proof.
  intros L N. unfold GetChar. rewrite L. rewrite (is_not "&" c N).
  destruct (is_utf8 e); reflexivity.
Qed.
Lemma get_bytewise e c t : is_utf8 e = false -> c <> "&"%char -> GetChar e (String c t) = Ok (Some t, String c "").
Proof. intros L N. unfold GetChar. rewrite L, (is_not "&" c N). reflexivity. Qed.
Lemma high_not q c : (128 <= N_of_ascii c)%N -> (N_of_ascii q < 128)%N -> c <> q.
Proof. intros H1 H2 ->. lia. Qed.

Lemma get_multi e c t q : is_utf8 e = true -> 2 <= utf8_len c -> sdrop (utf8_len c) (String c t) = Some q ->
  GetChar e (String c t) = Ok (Some q, stake (utf8_len c) (String c t)).
Proof.
  intros E L D. unfold GetChar. rewrite E, D. rewrite (proj2 (Nat.eqb_neq _ _)) by lia. reflexivity.
Qed.

(** one character is copied *)
Lemma read_one e q u t acc m n :
  one_char u -> (forall c, u = String c "" -> c <> q /\ c <> "&"%char) -> (N_of_ascii q < 128)%N ->
  slen u + m <= n ->
  exists n', m <= n' /\
    read_chars n e (String q "") (Some (u ++ t)) acc = read_chars n' e (String q "") (Some t) (acc ++ u).
Proof.
  intros U N Q Hn.
  assert (STEP : forall c t acc n, (c <> q /\ GetChar e (String c t) = Ok (Some t, String c "")) ->
     read_chars (S n) e (String q "") (Some (String c t)) acc = read_chars n e (String q "") (Some t) (acc ++ String c "")).
  { intros c t0 acc0 n0 [A B]. cbn [read_chars]. rewrite str_eq1, (is_not q c A), B. reflexivity. }
  assert (HI : forall c, (128 <= N_of_ascii c)%N -> is_utf8 e = false ->
     forall t, c <> q /\ GetChar e (String c t) = Ok (Some t, String c "")).
  { intros c H E t0. split; [apply high_not; assumption|]. apply get_bytewise; [exact E|].
    apply high_not; [exact H|cbn; lia]. }
  assert (MULTI : forall c r, u = String c r -> is_utf8 e = true -> utf8_len c = slen u -> 2 <= slen u ->
     (128 <= N_of_ascii c)%N -> exists n', m <= n' /\
    read_chars n e (String q "") (Some (u ++ t)) acc = read_chars n' e (String q "") (Some t) (acc ++ u)).
  { intros c r -> E L L2 H. destruct n as [|n]; [lia|]. exists n. split; [lia|]. cbn [append read_chars].
    rewrite str_eq1, (is_not q c) by (apply high_not; assumption).
    rewrite (get_multi e c (r ++ t) t E).
    - cbn [rbind fst snd]. do 2 f_equal. rewrite L.
      change (String c (r ++ t)) with (String c r ++ t). generalize (String c r). intros x.
      induction x; cbn; [destruct t; reflexivity|rewrite IHx; reflexivity].
    - rewrite L. exact L2.
    - rewrite L. exact (sdrop_app (String c r) t). }
  destruct U as [c H|a b Ha Hb|a b c Ha Hb Hc|a b c d Ha Hb Hc Hd].
  - destruct n as [|n]; [cbn in Hn; lia|]. exists n. split; [cbn in Hn; lia|].
    destruct (N c eq_refl) as [N1 N2]. apply STEP. split; [exact N1|].
    apply get_plain; [|exact N2]. apply len_ascii. nums.
  - destruct (is_utf8 e) eqn:E.
    + apply (MULTI a _ eq_refl eq_refl); cbn; [apply len_two; exact Ha|lia|nums].
    + destruct n as [|[|n]]; [cbn in Hn; lia ..|]. exists n. split; [cbn in Hn; lia|]. cbn [append].
      rewrite STEP by (apply HI; [nums|reflexivity]). rewrite STEP by (apply HI; [nums|reflexivity]).
      rewrite <- !app_assoc_s. reflexivity.
  - destruct (is_utf8 e) eqn:E.
    + apply (MULTI a _ eq_refl eq_refl); cbn; [apply len_three; exact Ha|lia|nums].
    + destruct n as [|[|[|n]]]; [cbn in Hn; lia ..|]. exists n. split; [cbn in Hn; lia|]. cbn [append].
      do 3 rewrite STEP by (apply HI; [nums|reflexivity]).
      rewrite <- !app_assoc_s. reflexivity.
  - destruct (is_utf8 e) eqn:E.
    + apply (MULTI a _ eq_refl eq_refl); cbn; [apply len_four; exact Ha|lia|nums].
    + destruct n as [|[|[|[|n]]]]; [cbn in Hn; lia ..|]. exists n. split; [cbn in Hn; lia|]. cbn [append].
      do 4 rewrite STEP by (apply HI; [nums|reflexivity]).
      rewrite <- !app_assoc_s. reflexivity.
Qed.

(** ** references *)
Lemma get_entity e w c t : In (w, c) predefined -> GetChar e (w ++ t) = Ok (Some t, String c "").
Proof.
  intros H. cbn in H. destruct H as [H|[H|[H|[H|[H|[]]]]]]; injection H as <- <-; destruct e, t; reflexivity.
Qed.

Fixpoint little (base : N) (value : ascii -> N) (l : list ascii) : N :=
  match l with [] => 0 | c :: t => value c + base * little base value t end%N.

Lemma little_app base value l1 l2 :
  little base value (l1 ++ l2) = (little base value l1 + base ^ N.of_nat (List.length l1) * little base value l2)%N.
Proof.
  induction l1 as [|c l1 IH]; [cbn [app little List.length N.of_nat]; rewrite N.pow_0_r; lia|]. cbn [app little List.length]. rewrite IH, Nat2N.inj_succ, N.pow_succ_r'. nia.
Qed.
Lemma number_little base value s : forall acc,
  number base value s acc =
  (acc * base ^ N.of_nat (slen s) + little base value (rev (list_ascii_of_string s)))%N.
Proof.
  induction s as [|c s IH]; intros acc; [cbn [number list_ascii_of_string rev String.length N.of_nat little]; rewrite N.pow_0_r; lia|].
  cbn [number list_ascii_of_string rev String.length]. rewrite IH, little_app, rev_length.
  replace (List.length (list_ascii_of_string s)) with (slen s)
    by (clear; induction s; cbn; [|rewrite IHs]; reflexivity).
  cbn [little]. rewrite Nat2N.inj_succ, N.pow_succ_r'. nia.
Qed.

Lemma digits_little stop base digit value l :
  (1 < base)%N ->
  Forall (fun c => is stop c = false /\ digit c = Some (value c)) l ->
  forall k u, (u + base ^ k * little base value l < 4294967296)%N ->
  digits_back stop base digit l (base ^ k mod 4294967296) u = Some (u + base ^ k * little base value l)%N.
Proof.
  intros B F. induction F as [|c l [H1 H2] F IH]; intros k u H.
  - cbn [digits_back little]. f_equal. lia.
  - cbn [digits_back]. rewrite H1, H2. cbn [little] in H.
    assert (P : (0 < base ^ k)%N) by (apply N.neq_0_lt_0, N.pow_nonzero; lia).
    assert (E1 : ((base ^ k mod 4294967296) * base mod 4294967296 = base ^ (N.succ k) mod 4294967296)%N).
    { rewrite N.mul_mod_idemp_l by lia. rewrite N.pow_succ_r'. f_equal. lia. }
    rewrite E1.
    assert (E2 : ((base ^ k mod 4294967296) * value c mod 4294967296 = base ^ k * value c)%N).
    { rewrite N.mul_mod_idemp_l by lia. apply N.mod_small. nia. }
    rewrite E2.
    assert (E3 : ((u + base ^ k * value c) mod 18446744073709551616 = u + base ^ k * value c)%N).
    { apply N.mod_small. nia. }
    rewrite E3. rewrite IH.
    + f_equal. rewrite N.pow_succ_r'. cbn [little]. nia.
    + rewrite N.pow_succ_r'. nia.
Qed.

Lemma until_semi_app ds t : each (fun c => c <> ";"%char) ds -> until_semi (ds ++ String ";" t) = Some (ds, t).
Proof.
  induction ds as [|c ds IH]; intros H; [reflexivity|]. destruct H as [H1 H2].
  cbn [append until_semi]. rewrite (is_not ";" c H1), (IH H2). reflexivity.
Qed.
Lemma each_rev (P : ascii -> Prop) s : each P s -> Forall P (rev (list_ascii_of_string s)).
Proof.
  induction s as [|c s IH]; cbn; [constructor|]. intros [H1 H2]. apply Forall_app. split; [auto|repeat constructor; exact H1].
Qed.

Lemma value_of_ascii e c : byte_in 1 127 c -> value_of e (N_of_ascii c) = String c "".
Proof.
  intros H. unfold byte_in in H. unfold value_of. destruct (is_utf8 e).
  - unfold ConvertUTF32ToUTF8. rewrite (proj2 (N.ltb_lt _ _)) by lia. unfold utf8_first.
    rewrite N.lor_0_r, N.mod_small by lia. unfold chr. rewrite ascii_N_embedding. reflexivity.
  - rewrite N.mod_small by lia. unfold chr. rewrite ascii_N_embedding. reflexivity.
Qed.

Lemma get_decimal e ds c t : ds <> "" -> each digit ds -> byte_in 1 127 c ->
  number 10 dec_value_of ds 0 = N_of_ascii c -> GetChar e ("&#" ++ ds ++ ";" ++ t) = Ok (Some t, String c "").
Proof.
  intros NE D H E. cbn [append].
  assert (X : numeric e "#" 10 dec_digit (ds ++ String ";" t) = (Some t, String c "")).
  { unfold numeric. rewrite until_semi_app.
    2:{ apply (each_imp digit); [|exact D]. intros x Hx ->. unfold digit, byte_in in Hx. cbn in Hx. lia. }
    rewrite (number_little 10 dec_value_of ds 0) in E.
    pose proof (digits_little "#" 10 dec_digit dec_value_of (rev (list_ascii_of_string ds)) ltac:(lia)) as DL.
    assert (F : Forall (fun c => is "#" c = false /\ dec_digit c = Some (dec_value_of c)) (rev (list_ascii_of_string ds))).
    { apply each_rev, (each_imp digit); [|exact D]. intros x Hx. split.
      - apply is_code. unfold digit, byte_in in Hx. cbn. lia.
      - unfold dec_digit, is_digit. rewrite between_true by exact Hx. reflexivity. }
    specialize (DL F 0%N 0%N). change (10 ^ 0 mod 4294967296)%N with 1%N in DL.
    rewrite DL.
    - f_equal. rewrite <- (value_of_ascii e c H). f_equal. rewrite <- E. rewrite N.pow_0_r. lia.
    - unfold byte_in in H. rewrite N.pow_0_r. lia. }
  destruct ds as [|d ds]; [contradiction|].
  assert (Hx : is "x" d = false).
  { destruct D as [D _]. apply is_code. unfold digit, byte_in in D. cbn. lia. }
  unfold GetChar. cbn [append] in *. unfold GetEntity.
  change (is "#" "#") with true. rewrite Hx. cbn [append] in X. destruct e; cbn -[numeric]; f_equal; exact X.
Qed.

Lemma hex_digit_value c : hex_char c -> hex_digit c = Some (hex_value_of c).
Proof.
  unfold hex_char, digit, byte_in. intros H. unfold hex_digit, hex_value_of, is_digit, code.
  destruct H as [H|[H|H]].
  - rewrite between_true by lia. rewrite (proj2 (N.leb_le _ _)) by lia. reflexivity.
  - rewrite (between_false 48 57) by lia. rewrite (between_true 97 102) by lia.
    rewrite !(proj2 (N.leb_gt _ _)) by lia. reflexivity.
  - rewrite (between_false 48 57) by lia. rewrite (between_false 97 102) by lia. rewrite (between_true 65 70) by lia.
    rewrite (proj2 (N.leb_gt _ 57)) by lia. rewrite (proj2 (N.leb_le _ 70)) by lia. reflexivity.
Qed.

Lemma get_hex e ds c t : ds <> "" -> each hex_char ds -> byte_in 1 127 c ->
  number 16 hex_value_of ds 0 = N_of_ascii c -> GetChar e ("&#x" ++ ds ++ ";" ++ t) = Ok (Some t, String c "").
Proof.
  intros NE D H E. cbn [append].
  assert (X : numeric e "x" 16 hex_digit (ds ++ String ";" t) = (Some t, String c "")).
  { unfold numeric. rewrite until_semi_app.
    2:{ apply (each_imp hex_char); [|exact D]. intros x Hx ->. unfold hex_char, digit, byte_in in Hx. cbn in Hx. lia. }
    rewrite (number_little 16 hex_value_of ds 0) in E.
    pose proof (digits_little "x" 16 hex_digit hex_value_of (rev (list_ascii_of_string ds)) ltac:(lia)) as DL.
    assert (F : Forall (fun c => is "x" c = false /\ hex_digit c = Some (hex_value_of c)) (rev (list_ascii_of_string ds))).
    { apply each_rev, (each_imp hex_char); [|exact D]. intros x Hx. split; [|apply hex_digit_value, Hx].
      apply is_code. unfold hex_char, digit, byte_in in Hx. cbn. lia. }
    specialize (DL F 0%N 0%N). change (16 ^ 0 mod 4294967296)%N with 1%N in DL.
    rewrite DL.
    - f_equal. rewrite <- (value_of_ascii e c H). f_equal. rewrite <- E. rewrite N.pow_0_r. lia.
    - unfold byte_in in H. rewrite N.pow_0_r. lia. }
  destruct ds as [|d ds]; [contradiction|].
  unfold GetChar. cbn [append] in *. unfold GetEntity.
  change (is "#" "#") with true. change (is "x" "x") with true. destruct e; cbn -[numeric]; f_equal; exact X.
Qed.

(** ** values *)
Lemma read_spelled e q txt v : (N_of_ascii q < 128)%N -> q <> "&"%char -> spells (eq q) txt v ->
  forall rest acc n, slen txt <= n ->
  read_chars n e (String q "") (Some (txt ++ String q rest)) acc = Ok (Some (String q rest), acc ++ v).
Proof.
  intros Q QA S0. induction S0 as [|u t v U N S0 IH|w c t v W S0 IH|ds c t v NE D H E S0 IH|ds c t v NE D H E S0 IH];
    intros rest acc n Hn.
  - cbn [append]. destruct n; cbn [read_chars]; rewrite str_eq1, is_refl, app_nil_s; reflexivity.
  - rewrite app_length_s in Hn.
    destruct (read_one e q u (t ++ String q rest) acc (slen t) n U) as (n' & Hn' & R).
    + intros c Hc. destruct (N c Hc) as [A B]. split; [congruence|exact B].
    + exact Q.
    + exact Hn.
    + rewrite <- app_assoc_s, R, (IH rest (acc ++ u) n' Hn'), <- app_assoc_s. reflexivity.
  - rewrite app_length_s in Hn. rewrite <- app_assoc_s.
    assert (A : exists r, w = String "&" r) by (cbn in W; destruct W as [W|[W|[W|[W|[W|[]]]]]]; injection W as <- <-; eexists; reflexivity).
    destruct A as (r & A). destruct n as [|n]; [subst w; cbn in Hn; lia|].
    pose proof (get_entity e w c (t ++ String q rest) W) as G. subst w. cbn [append] in *. cbn [read_chars].
    rewrite str_eq1, (is_not q "&") by congruence. rewrite G. cbn [rbind fst snd].
    rewrite (IH rest (acc ++ String c "") n) by (cbn in Hn; lia). rewrite <- app_assoc_s. reflexivity.
  - rewrite !app_length_s in Hn. destruct n as [|n]; [cbn in Hn; lia|].
    pose proof (get_decimal e ds c (t ++ String q rest) NE D H E) as G.
    rewrite <- !app_assoc_s in *. cbn [append] in *. cbn [read_chars].
    rewrite str_eq1, (is_not q "&") by congruence. rewrite G. cbn [rbind fst snd].
    rewrite (IH rest (acc ++ String c "") n) by (cbn in Hn; lia). rewrite <- app_assoc_s. reflexivity.
  - rewrite !app_length_s in Hn. destruct n as [|n]; [cbn in Hn; lia|].
    pose proof (get_hex e ds c (t ++ String q rest) NE D H E) as G.
    rewrite <- !app_assoc_s in *. cbn [append] in *. cbn [read_chars].
    rewrite str_eq1, (is_not q "&") by congruence. rewrite G. cbn [rbind fst snd].
    rewrite (IH rest (acc ++ String c "") n) by (cbn in Hn; lia). rewrite <- app_assoc_s. reflexivity.
Qed.

Lemma read_text_value e q txt v rest : (N_of_ascii q < 128)%N -> q <> "&"%char -> spells (eq q) txt v -> rest <> "" ->
  ReadText e false (String q "") (Some (txt ++ String q rest)) = Ok (Some rest, v).
Proof.
  intros Q QA S0 R. unfold ReadText. cbn [ptr_len].
  rewrite (read_spelled e q txt v Q QA S0 rest "" _) by (rewrite app_length_s; lia). cbn.
  destruct rest; [contradiction|reflexivity].
Qed.

(** the same characters read as character data: the position is what matters *)
Lemma words_step e c t n ws acc : (N_of_ascii c <> 60)%N -> GetChar e (String c t) = Ok (Some t, String c "") ->
  exists ws' x, read_words (S n) e "<" ws (Some (String c t)) acc = read_words n e "<" ws' (Some t) (acc ++ x).
Proof.
  intros N G. cbn [read_words]. rewrite str_eq1, is_code by exact N. destruct (is_space c).
  - exists true, "". rewrite app_nil_s. reflexivity.
  - rewrite G. cbn [rbind fst snd]. destruct ws.
    + exists false, (" " ++ String c ""). rewrite <- app_assoc_s. reflexivity.
    + exists false, (String c ""). reflexivity.
Qed.

Lemma words_skip e s t n ws acc c r v : s = String c r -> (N_of_ascii c <> 60)%N -> is_space c = false ->
  GetChar e s = Ok (Some t, v) ->
  exists ws' x, read_words (S n) e "<" ws (Some s) acc = read_words n e "<" ws' (Some t) (acc ++ x).
Proof.
  intros -> N W G. cbn [read_words]. rewrite str_eq1, is_code by exact N. rewrite W, G. cbn [rbind fst snd].
  exists false. destruct ws; [exists (" " ++ v)|exists v]; [rewrite <- app_assoc_s|]; reflexivity.
Qed.

Lemma words_one e u t acc m n ws :
  one_char u -> (forall c, u = String c "" -> c <> "<"%char /\ c <> "&"%char) ->
  slen u + m <= n ->
  exists n' ws' x, m <= n' /\
    read_words n e "<" ws (Some (u ++ t)) acc = read_words n' e "<" ws' (Some t) (acc ++ x).
Proof.
  intros U N Hn.
  assert (HI : forall c t, (128 <= N_of_ascii c)%N -> is_utf8 e = false ->
     GetChar e (String c t) = Ok (Some t, String c "")).
  { intros c t0 H E. apply get_bytewise; [exact E|]. apply high_not; [exact H|cbn; lia]. }
  assert (MULTI : forall c r, u = String c r -> is_utf8 e = true -> utf8_len c = slen u -> 2 <= slen u ->
     (128 <= N_of_ascii c)%N -> exists n' ws' x, m <= n' /\
    read_words n e "<" ws (Some (u ++ t)) acc = read_words n' e "<" ws' (Some t) (acc ++ x)).
  { intros c r -> E L L2 H. destruct n as [|n]; [cbn in Hn; lia|].
    destruct (words_skip e (String c r ++ t) t n ws acc c (r ++ t) (stake (utf8_len c) (String c (r ++ t)))) as (w' & x & X).
    - reflexivity.
    - lia.
    - apply not_space. lia.
    - cbn [append]. apply get_multi; [exact E|lia|]. rewrite L. exact (sdrop_app (String c r) t).
    - exists n, w', x. split; [lia|exact X]. }
  destruct U as [c H|a b Ha Hb|a b c Ha Hb Hc|a b c d Ha Hb Hc Hd].
  - destruct n as [|n]; [cbn in Hn; lia|]. destruct (N c eq_refl) as [N1 N2].
    destruct (words_step e c t n ws acc) as (w' & x & X).
    + intros X. apply N1. rewrite <- (ascii_N_embedding c), X. reflexivity.
    + apply get_plain; [|exact N2]. apply len_ascii. nums.
    + exists n, w', x. split; [cbn in Hn; lia|exact X].
  - destruct (is_utf8 e) eqn:E.
    + apply (MULTI a _ eq_refl eq_refl); cbn; [apply len_two; exact Ha|lia|nums].
    + destruct n as [|[|n]]; [cbn in Hn; lia ..|]. cbn [append].
      destruct (words_step e a (String b t) (S n) ws acc) as (w1 & x1 & X1); [nums|apply HI; [nums|reflexivity]|].
      destruct (words_step e b t n w1 (acc ++ x1)) as (w2 & x2 & X2); [nums|apply HI; [nums|reflexivity]|].
      exists n, w2, (x1 ++ x2). split; [cbn in Hn; lia|]. rewrite X1, X2, app_assoc_s. reflexivity.
  - destruct (is_utf8 e) eqn:E.
    + apply (MULTI a _ eq_refl eq_refl); cbn; [apply len_three; exact Ha|lia|nums].
    + destruct n as [|[|[|n]]]; [cbn in Hn; lia ..|]. cbn [append].
      destruct (words_step e a (String b (String c t)) (S (S n)) ws acc) as (w1 & x1 & X1); [nums|apply HI; [nums|reflexivity]|].
      destruct (words_step e b (String c t) (S n) w1 (acc ++ x1)) as (w2 & x2 & X2); [nums|apply HI; [nums|reflexivity]|].
      destruct (words_step e c t n w2 ((acc ++ x1) ++ x2)) as (w3 & x3 & X3); [nums|apply HI; [nums|reflexivity]|].
      exists n, w3, (x1 ++ x2 ++ x3). split; [cbn in Hn; lia|]. rewrite X1, X2, X3, !app_assoc_s. reflexivity.
  - destruct (is_utf8 e) eqn:E.
    + apply (MULTI a _ eq_refl eq_refl); cbn; [apply len_four; exact Ha|lia|nums].
    + destruct n as [|[|[|[|n]]]]; [cbn in Hn; lia ..|]. cbn [append].
      destruct (words_step e a (String b (String c (String d t))) (S (S (S n))) ws acc) as (w1 & x1 & X1); [nums|apply HI; [nums|reflexivity]|].
      destruct (words_step e b (String c (String d t)) (S (S n)) w1 (acc ++ x1)) as (w2 & x2 & X2); [nums|apply HI; [nums|reflexivity]|].
      destruct (words_step e c (String d t) (S n) w2 ((acc ++ x1) ++ x2)) as (w3 & x3 & X3); [nums|apply HI; [nums|reflexivity]|].
      destruct (words_step e d t n w3 (((acc ++ x1) ++ x2) ++ x3)) as (w4 & x4 & X4); [nums|apply HI; [nums|reflexivity]|].
      exists n, w4, (x1 ++ x2 ++ x3 ++ x4). split; [cbn in Hn; lia|]. rewrite X1, X2, X3, X4, !app_assoc_s. reflexivity.
Qed.

Lemma read_data e txt v : spells (eq "<"%char) txt v ->
  forall rest acc n ws, slen txt <= n ->
  exists x, read_words n e "<" ws (Some (txt ++ String "<" rest)) acc = Ok (Some (String "<" rest), acc ++ x).
Proof.
  intros S0. induction S0 as [|u t v U N S0 IH|w c t v W S0 IH|ds c t v NE D H E S0 IH|ds c t v NE D H E S0 IH];
    intros rest acc n ws Hn.
  - exists "". cbn [append]. destruct n; cbn [read_words]; rewrite str_eq1, is_refl, app_nil_s; reflexivity.
  - rewrite app_length_s in Hn. rewrite <- app_assoc_s.
    destruct (words_one e u (t ++ String "<" rest) acc (slen t) n ws U) as (n' & ws' & x & Hn' & R).
    + intros c Hc. destruct (N c Hc) as [A B]. split; [congruence|exact B].
    + exact Hn.
    + rewrite R. destruct (IH rest (acc ++ x) n' ws' Hn') as (y & Y). exists (x ++ y). rewrite Y, app_assoc_s. reflexivity.
  - rewrite app_length_s in Hn. rewrite <- app_assoc_s.
    assert (A : exists r, w = String "&" r) by (cbn in W; destruct W as [W|[W|[W|[W|[W|[]]]]]]; injection W as <- <-; eexists; reflexivity).
    destruct A as (r & A). destruct n as [|n]; [subst w; cbn in Hn; lia|].
    pose proof (get_entity e w c (t ++ String "<" rest) W) as G.
    assert (S1 : w ++ t ++ String "<" rest = String "&" (r ++ t ++ String "<" rest)) by (subst w; reflexivity).
    destruct (words_skip e _ _ n ws acc "&" _ _ S1 ltac:(cbn; lia) eq_refl G) as (w' & x & X).
    rewrite X. destruct (IH rest (acc ++ x) n w') as (y & Y); [subst w; cbn in Hn; lia|].
    exists (x ++ y). rewrite Y, app_assoc_s. reflexivity.
  - rewrite !app_length_s in Hn. destruct n as [|n]; [cbn in Hn; lia|].
    pose proof (get_decimal e ds c (t ++ String "<" rest) NE D H E) as G.
    destruct (words_skip e ("&#" ++ ds ++ ";" ++ t ++ String "<" rest) _ n ws acc "&" _ _ eq_refl ltac:(cbn; lia) eq_refl G) as (w' & x & X).
    rewrite <- !app_assoc_s. rewrite X. destruct (IH rest (acc ++ x) n w') as (y & Y); [cbn in Hn; lia|].
    exists (x ++ y). rewrite Y, app_assoc_s. reflexivity.
  - rewrite !app_length_s in Hn. destruct n as [|n]; [cbn in Hn; lia|].
    pose proof (get_hex e ds c (t ++ String "<" rest) NE D H E) as G.
    destruct (words_skip e ("&#x" ++ ds ++ ";" ++ t ++ String "<" rest) _ n ws acc "&" _ _ eq_refl ltac:(cbn; lia) eq_refl G) as (w' & x & X).
    rewrite <- !app_assoc_s. rewrite X. destruct (IH rest (acc ++ x) n w') as (y & Y); [cbn in Hn; lia|].
    exists (x ++ y). rewrite Y, app_assoc_s. reflexivity.
Qed.

Lemma runs_data e d rest : data_text d -> rest <> "" ->
  forall w q, d = w ++ q -> white w -> solid q ->
  exists v, runs (text_parse e (q ++ String "<" rest)) (Some (String "<" rest), v) /\ blank v = false.
Proof.
  intros (w0 & c & d0 & v0 & E & W0 & C & N1 & N2 & S0) R w q Ed W Sq.
  assert (Q : q = String c d0).
  { assert (Sc : is_space c = false) by (apply not_space; nums).
    subst d. revert w Ed W. induction w0 as [|a w0 IH]; intros w Ed W.
    - destruct w as [|b w]; [cbn in *; congruence|]. exfalso. cbn in Ed. injection Ed as <- _.
      destruct W as [W _]. rewrite (white_is_space c W) in Sc. discriminate Sc.
    - destruct w as [|b w].
      + exfalso. cbn in Ed. subst q. destruct Sq as [Sq _]. destruct W0 as [W0 _].
        rewrite (white_is_space a W0) in Sq. discriminate Sq.
      + cbn in Ed. injection Ed as <- Ed. destruct W0 as [_ W0]. destruct W as [_ W].
        exact (IH W0 w Ed W). }
  subst q. cbn [append].
  assert (L : exists x, ReadText e true "<" (Some (String c (d0 ++ String "<" rest))) = Ok (Some rest, String c x)).
  { unfold ReadText. rewrite skip_solid_p by (apply solid_ascii; nums). cbn [ptr_len String.length read_words].
    rewrite str_eq1, (is_not "<" c N1). rewrite (not_space c) by nums.
    rewrite (get_plain e c) by (try exact N2; apply len_ascii; nums). cbn [rbind fst snd append].
    destruct (read_data e d0 v0 S0 rest (String c "") (slen (d0 ++ String "<" rest)) false) as (x & X);
      [rewrite app_length_s; lia|].
    exists x. rewrite X. cbn. destruct rest; [contradiction|reflexivity]. }
  destruct L as (x & L). exists (String c x). split.
  - unfold text_parse. apply (runs_bind _ _ tt); [apply runs_stamp|].
    apply (runs_bind _ _ (Some rest, String c x)); [apply runs_lift, L|]. cbn. apply runs_ret.
  - cbn. rewrite not_space by nums. reflexivity.
Qed.
