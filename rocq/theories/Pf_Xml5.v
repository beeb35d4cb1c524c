(** The parser ends, without undefined behaviour, on every text in which no multi-byte
    character is cut off. *)
From Coq Require Import String List Arith NArith Ascii Bool Lia.
From Verif Require Import Base Urdf TinyXml Spec_Xml Pf_Xml1 Pf_Xml2.
Import ListNotations.
Local Open Scope string_scope.
Local Open Scope m_scope.

Definition calm (s : pst) : Prop := uncut (p_stamp s).
Definition ends {A} (m : M pst A) (Q : A -> Prop) : Prop :=
  forall s, calm s -> exists s' a, calm s' /\ m s = (s', Ok a) /\ Q a.

Lemma ends_ret {A} (a : A) (Q : A -> Prop) : Q a -> ends (ret a) Q.
Proof. intros H s C. exists s, a. split; [exact C|]. split; [reflexivity|exact H]. Qed.
Lemma ends_bind {A B} (m : M pst A) (f : A -> M pst B) (P : A -> Prop) (Q : B -> Prop) :
  ends m P -> (forall a, P a -> ends (f a) Q) -> ends (bind m f) Q.
Proof.
  intros H1 H2 s C. destruct (H1 s C) as (s1 & a & C1 & E1 & Pa). destruct (H2 a Pa s1 C1) as (s2 & b & C2 & E2 & Qb).
  exists s2, b. split; [exact C2|]. split; [|exact Qb]. unfold bind. rewrite E1. exact E2.
Qed.
Lemma ends_lift {A} (r : res A) (Q : A -> Prop) a : r = Ok a -> Q a -> ends (lift r) Q.
Proof. intros -> H. exact (ends_ret a Q H). Qed.
Lemma ends_stamp e q : ends (Stamp e q) (fun _ => True).
Proof.
  intros s C. unfold Stamp. destruct (walk_uncut e (slen q) _ 0 C) as (p' & E & U). rewrite E.
  eexists _, tt. split; [|split; [reflexivity|exact I]]. exact U.
Qed.
Lemma ends_error e p : ends (SetError e p) (fun _ => True).
Proof.
  intros s C. unfold SetError. destruct (p_err s).
  - exists s, tt. split; [exact C|]. split; [reflexivity|exact I].
  - destruct p as [q|].
    + exact (ends_stamp e q (mkP true (p_stamp s)) C).
    + eexists _, tt. split; [|split; [reflexivity|exact I]]. exact C.
Qed.
Lemma ends_error_if b e p : ends (error_if b e p) (fun _ => True).
Proof. destruct b; [apply ends_error|apply ends_ret; exact I]. Qed.
Lemma ends_fail {A} e p (a : A) (Q : A -> Prop) : Q a -> ends (SetError e p ;;; ret a) Q.
Proof. intros H. apply (ends_bind _ _ (fun _ => True)); [apply ends_error|]. intros _ _. apply ends_ret, H. Qed.
Lemma ends_fail_if {A} b e p (a : A) (Q : A -> Prop) : Q a -> ends (error_if b e p ;;; ret a) Q.
Proof. intros H. apply (ends_bind _ _ (fun _ => True)); [apply ends_error_if|]. intros _ _. apply ends_ret, H. Qed.
Lemma ends_stamped {A} e q (m : M pst A) Q : ends m Q -> ends (Stamp e q ;;; m) Q.
Proof. intros H. apply (ends_bind _ _ (fun _ => True)); [apply ends_stamp|]. intros _ _. exact H. Qed.

(** a position with at most [n] characters left *)
Definition within (n : nat) (p : ptr) : Prop :=
  match p with None => True | Some s => uncut s /\ slen s <= n end.
Lemma within_le n m p : n <= m -> within n p -> within m p.
Proof. destruct p; cbn; [|tauto]. intros H [U L]. split; [exact U|lia]. Qed.

Lemma uncut_tail c t : uncut (String c t) -> uncut t.
Proof. intros [_ H]. exact H. Qed.
Lemma sdrop_uncut n : forall s r, sdrop n s = Some r -> uncut s -> uncut r /\ slen r + n = slen s.
Proof.
  induction n as [|n IH]; intros s r E U; cbn in E.
  - injection E as <-. split; [exact U|lia].
  - destruct s as [|c s]; [discriminate E|]. destruct (IH s r E (uncut_tail _ _ U)) as [A B].
    split; [exact A|]. cbn. lia.
Qed.
Lemma sdrop_some n : forall s, n <= slen s -> exists r, sdrop n s = Some r.
Proof.
  induction n as [|n IH]; intros s H; [exists s; reflexivity|].
  destruct s as [|c s]; [cbn in H; lia|]. cbn in H. exact (IH s ltac:(lia)).
Qed.

Lemma skip_within e s : uncut s -> uncut (skip_spaces e s) /\ slen (skip_spaces e s) <= slen s.
Proof.
  assert (X : forall n s, slen s <= n -> uncut s -> uncut (skip_spaces e s) /\ slen (skip_spaces e s) <= slen s).
  { clear s. induction n as [|n IH]; intros s L U.
    - destruct s; [|cbn in L; lia]. split; [exact I|cbn; lia].
    - destruct s as [|c t]; [split; [exact I|cbn; lia]|]. cbn [skip_spaces]. cbn in L.
      destruct (is_utf8 e && is LEAD_0 c && _) eqn:E.
      + destruct t as [|b [|d t']]; [split; [exact U|lia] ..|].
        cbn in L. destruct U as [_ [_ [_ U]]].
        destruct (IH t' ltac:(lia) U) as [A B]. split; [exact A|]. cbn. lia.
      + destruct (is_space c).
        * destruct (IH t ltac:(lia) (uncut_tail _ _ U)) as [A B]. split; [exact A|]. cbn. lia.
        * split; [exact U|lia]. }
  exact (X (slen s) s (le_n _)).
Qed.
Lemma SkipWhiteSpace_within e n p : within n p -> within n (SkipWhiteSpace e p).
Proof.
  destruct p as [[|c t]|]; cbn [SkipWhiteSpace]; [intros _; exact I| |intros _; exact I].
  intros [U L]. destruct (skip_within e _ U) as [A B]. split; [exact A|]. lia.
Qed.

Lemma until_semi_within s a b : until_semi s = Some (a, b) -> uncut s -> uncut b /\ slen b < slen s.
Proof.
  revert a. induction s as [|c s IH]; intros a E U; [discriminate E|]. cbn in E.
  destruct (is ";" c).
  - injection E as <- <-. split; [exact (uncut_tail _ _ U)|cbn; lia].
  - destruct (until_semi s) as [[a' b']|] eqn:E2; [|discriminate E]. injection E as <- <-.
    destruct (IH a' eq_refl (uncut_tail _ _ U)) as [A B]. split; [exact A|cbn; lia].
Qed.
Lemma numeric_within e stop base digit s : uncut s -> within (slen s) (fst (numeric e stop base digit s)).
Proof.
  intros U. unfold numeric. destruct (until_semi s) as [[a b]|] eqn:E; [|exact I].
  destruct (digits_back _ _ _ _ _ _); [|exact I]. destruct (until_semi_within s a b E U) as [A B].
  split; [exact A|lia].
Qed.
Lemma named_within l t c r : named l t = Some (c, r) -> uncut t -> uncut r /\ slen r <= slen t.
Proof.
  induction l as [|[w d] l IH]; [discriminate|]. cbn. intros E U.
  destruct (prefix w t); [|exact (IH E U)].
  destruct (sdrop (slen w) t) as [r'|] eqn:D; [|discriminate E]. injection E as _ <-.
  destruct (sdrop_uncut _ _ _ D U) as [A B]. split; [exact A|lia].
Qed.
Lemma entity_within e t : uncut t -> within (slen t) (fst (GetEntity e t)).
Proof.
  intros U.
  assert (P : within (slen t) (fst (match named entities t with Some (c, r) => (Some r, String c "") | None => (Some t, "") end))).
  { destruct (named entities t) as [[c r]|] eqn:E; [|split; [exact U|lia]]. exact (named_within _ _ _ _ E U). }
  unfold GetEntity. destruct t as [|h [|x t3]]; [exact P|exact P|].
  destruct (is "#" h); [|exact P]. destruct U as [_ U]. destruct (is "x" x).
  - destruct t3 as [|y t3]; [exact I|]. destruct U as [_ U]. apply (within_le (slen (String y t3))); [cbn; lia|].
    apply numeric_within, U.
  - apply (within_le (slen (String x t3))); [cbn; lia|]. apply numeric_within, U.
Qed.

Lemma get_char_ends e c t : uncut (String c t) ->
  exists p v, GetChar e (String c t) = Ok (p, v) /\ within (slen t) p.
Proof.
  intros U. unfold GetChar. destruct (Nat.eqb (if is_utf8 e then utf8_len c else 1) 1) eqn:K.
  - destruct (is "&" c).
    + pose proof (entity_within e t (uncut_tail _ _ U)) as W. destruct (GetEntity e t) as [p v].
      exists p, v. split; [reflexivity|exact W].
    + exists (Some t), (String c ""). split; [reflexivity|]. split; [exact (uncut_tail _ _ U)|lia].
  - apply Nat.eqb_neq in K. destruct (is_utf8 e); [|contradiction].
    pose proof (len_pos c). destruct (sdrop_some (utf8_len c) (String c t)) as (r & D).
    { destruct U as [U _]. rewrite announces_len in U. cbn. exact U. }
    rewrite D. exists (Some r), (stake (utf8_len c) (String c t)). split; [reflexivity|].
    destruct (sdrop_uncut _ _ _ D U) as [A B]. split; [exact A|]. cbn in B. lia.
Qed.

Lemma read_chars_ends e endTag : forall n q acc, uncut q -> slen q <= n ->
  exists p v, read_chars n e endTag (Some q) acc = Ok (p, v) /\ within (slen q) p.
Proof.
  induction n as [|n IH]; intros q acc U L; destruct q as [|c t].
  - exists (Some ""), acc. split; [reflexivity|]. split; [exact I|lia].
  - cbn in L. lia.
  - exists (Some ""), acc. split; [reflexivity|]. split; [exact I|lia].
  - cbn [read_chars]. destruct (StringEqual endTag (String c t)).
    + eexists _, _. split; [reflexivity|]. split; [exact U|lia].
    + destruct (get_char_ends e c t U) as (p & v & E & W). rewrite E. cbn [rbind fst snd].
      destruct p as [s|].
      * destruct W as [Us Ls]. destruct (IH s (acc ++ v) Us) as (p' & v' & E' & W'); [cbn in L; lia|].
        exists p', v'. split; [exact E'|]. apply (within_le (slen s)); [cbn; lia|exact W'].
      * exists None, (acc ++ v). split; [destruct n; reflexivity|exact I].
Qed.
Lemma read_words_ends e endTag : forall n q ws acc, uncut q -> slen q <= n ->
  exists p v, read_words n e endTag ws (Some q) acc = Ok (p, v) /\ within (slen q) p.
Proof.
  induction n as [|n IH]; intros q ws acc U L; destruct q as [|c t].
  - exists (Some ""), acc. split; [reflexivity|]. split; [exact I|lia].
  - cbn in L. lia.
  - exists (Some ""), acc. split; [reflexivity|]. split; [exact I|lia].
  - cbn [read_words]. destruct (StringEqual endTag (String c t)).
    + eexists _, _. split; [reflexivity|]. split; [exact U|lia].
    + destruct (is_space c).
      * destruct (IH t true acc (uncut_tail _ _ U)) as (p' & v' & E' & W'); [cbn in L; lia|].
        exists p', v'. split; [exact E'|]. apply (within_le (slen t)); [cbn; lia|exact W'].
      * destruct (get_char_ends e c t U) as (p & v & E & W). rewrite E. cbn [rbind fst snd].
        destruct p as [s|].
        -- destruct W as [Us Ls].
           destruct (IH s false ((if ws then acc ++ " " else acc) ++ v) Us) as (p' & v' & E' & W'); [cbn in L; lia|].
           exists p', v'. split; [exact E'|]. apply (within_le (slen s)); [cbn; lia|exact W'].
        -- eexists None, _. split; [destruct n; reflexivity|exact I].
Qed.
Lemma past_within endTag n p : within n p -> within (n - slen endTag) (past endTag p).
Proof.
  destruct p as [[|c t]|]; cbn [past]; [intros _; exact I| |intros _; exact I]. intros [U L].
  destruct (sdrop (slen endTag) (String c t)) as [[|d r]|] eqn:D; [exact I| |exact I].
  destruct (sdrop_uncut _ _ _ D U) as [A B]. split; [exact A|]. lia.
Qed.
Lemma read_raw_ends e endTag q : uncut q ->
  exists p v, ReadText e false endTag (Some q) = Ok (p, v) /\ within (slen q) p.
Proof.
  intros U. unfold ReadText. destruct (read_chars_ends e endTag (slen q) q "" U (le_n _)) as (p & v & E & W).
  cbn [ptr_len]. rewrite E. exists (past endTag p), v. split; [reflexivity|].
  apply (within_le (slen q - slen endTag)); [lia|]. apply past_within, W.
Qed.

Lemma text_ends e c t : uncut (String c t) -> is "<" c = false ->
  ends (text_parse e (String c t)) (fun r => within (slen t) (fst r)).
Proof.
  intros U NL. unfold text_parse. apply ends_stamped.
  assert (X : exists p v, ReadText e true "<" (Some (String c t)) = Ok (p, v) /\
              match p with None => True | Some s => uncut s /\ slen s < slen t end).
  { unfold ReadText. cbn [SkipWhiteSpace].
    assert (Y : exists p v, read_words (slen (skip_spaces e (String c t))) e "<" false (Some (skip_spaces e (String c t))) "" = Ok (p, v) /\
                within (slen t) p).
    { assert (Z : (skip_spaces e (String c t) = String c t) \/ slen (skip_spaces e (String c t)) <= slen t).
      { cbn [skip_spaces]. destruct (is_utf8 e && is LEAD_0 c && _) eqn:E.
        - destruct t as [|b [|d t']]; [left; reflexivity ..|]. right. destruct U as [_ [_ [_ U]]].
          destruct (skip_within e t' U). cbn. lia.
        - destruct (is_space c); [|left; reflexivity]. right. destruct (skip_within e t (uncut_tail _ _ U)). lia. }
      destruct (skip_within e (String c t) U) as [US LS].
      destruct Z as [Z|Z].
      - rewrite Z in *. cbn [String.length]. cbn [read_words]. rewrite str_eq1, NL. destruct (is_space c).
        + exact (read_words_ends e "<" (slen t) t true "" (uncut_tail _ _ U) (le_n _)).
        + destruct (get_char_ends e c t U) as (p & v & E & W). rewrite E. cbn [rbind fst snd].
          destruct p as [s|].
          * destruct W as [Us Ls].
            destruct (read_words_ends e "<" (slen t) s false ("" ++ v) Us Ls) as (p' & v' & E' & W').
            exists p', v'. split; [exact E'|]. apply (within_le (slen s)); [exact Ls|exact W'].
          * eexists None, _. split; [destruct (slen t); reflexivity|exact I].
      - destruct (read_words_ends e "<" _ (skip_spaces e (String c t)) false "" US (le_n _)) as (p & v & E & W).
        exists p, v. split; [exact E|]. apply (within_le (slen (skip_spaces e (String c t)))); [exact Z|exact W]. }
    destruct Y as (p & v & E & W). cbn [ptr_len]. rewrite E. exists (past "<" p), v. split; [reflexivity|].
    destruct p as [[|d s]|]; cbn [past]; [exact I| |exact I]. destruct W as [W L].
    cbn [String.length sdrop]. destruct s as [|f s]; [exact I|]. split; [exact (uncut_tail _ _ W)|]. cbn in *. lia. }
  destruct X as (p & v & E & W). eapply ends_bind; [apply (ends_lift _ (fun a => a = (p, v)) _ E); reflexivity|].
  intros a ->. apply ends_ret. cbn [fst]. destruct p as [s|]; [|exact I]. destruct W as [Us Ls]. split; [|cbn; lia].
  split; [|exact Us]. change (announces "<") with 1. lia.
Qed.

Lemma bare_within s : forall acc, uncut s ->
  match bare_value s acc with inl (v, r) => uncut r /\ slen r <= slen s | inr b => True end.
Proof.
  induction s as [|c t IH]; intros acc U; cbn [bare_value]; [split; [exact I|lia]|].
  destruct (is_space c || is "/" c || is ">" c); [split; [exact U|lia]|].
  destruct (is "'" c || is """" c); [exact I|]. specialize (IH (acc ++ String c "") (uncut_tail _ _ U)).
  destruct (bare_value t _) as [[v r]|b]; [|exact I]. destruct IH as [A B]. split; [exact A|cbn; lia].
Qed.
Lemma name_span_within s : uncut s -> uncut (snd (name_span s)) /\ slen (snd (name_span s)) <= slen s.
Proof.
  induction s as [|c t IH]; intros U; cbn [name_span]; [split; [exact I|cbn; lia]|].
  destruct (name_char c); [|split; [exact U|cbn; lia]]. cbn [snd]. destruct (IH (uncut_tail _ _ U)) as [A B].
  split; [exact A|cbn; lia].
Qed.
Lemma start_is_name c : name_start c = true -> name_char c = true.
Proof.
  unfold name_start, name_char, is_alpha, is_alnum. destruct (is_letter c), (is_digit c), (N.leb 127 (code c)), (is "_" c); cbn; congruence.
Qed.
(** a name takes at least one character *)
Lemma read_name_within n p : within (S n) p -> within n (snd (ReadName p)).
Proof.
  destruct p as [[|c t]|]; [intros _; exact I| |intros _; exact I]. intros [U L]. cbn [ReadName].
  destruct (name_start c) eqn:E; [|exact I]. cbn [name_span]. rewrite (start_is_name c E). cbn [snd].
  destruct (name_span_within t (uncut_tail _ _ U)) as [A B]. split; [exact A|]. cbn in L. lia.
Qed.

Lemma attr_ends document e n p : within (S n) p -> ends (attr_parse document e p) (fun r => within n (fst r)).
Proof.
  intros W. unfold attr_parse. pose proof (SkipWhiteSpace_within e _ _ W) as WQ.
  destruct (SkipWhiteSpace e p) as [[|c t]|]; [apply ends_ret; exact I| |apply ends_ret; exact I].
  apply ends_stamped. pose proof (read_name_within n _ WQ) as WN.
  destruct (ReadName (Some (String c t))) as [nm [[|d q1]|]]; cbn [snd] in WN; [apply ends_fail_if; exact I| |apply ends_fail_if; exact I].
  pose proof (SkipWhiteSpace_within e _ _ WN) as W1.
  destruct (SkipWhiteSpace e (Some (String d q1))) as [[|eq q2]|]; [apply ends_fail_if; exact I| |apply ends_fail_if; exact I].
  destruct (is "=" eq); [|apply ends_fail_if; exact I].
  assert (W2 : within (n - 1) (Some q2)) by (destruct W1 as [U L]; split; [exact (uncut_tail _ _ U)|cbn in L; lia]).
  pose proof (SkipWhiteSpace_within e _ _ W2) as W3.
  destruct (SkipWhiteSpace e (Some q2)) as [[|x q3]|]; [apply ends_fail_if; exact I| |apply ends_fail_if; exact I].
  destruct W3 as [U3 L3].
  assert (RT : forall tag, ends (r <- lift (ReadText e false tag (Some q3)) ;; ret (fst r, mkAttr nm (snd r)))
                             (fun r => within n (fst r))).
  { intros tag. destruct (read_raw_ends e tag q3 (uncut_tail _ _ U3)) as (p' & v & E & W').
    eapply ends_bind; [apply (ends_lift _ (fun a => a = (p', v)) _ E); reflexivity|]. intros a ->. apply ends_ret. cbn [fst].
    apply (within_le (slen q3)); [cbn in L3; lia|exact W']. }
  destruct (is "'" x); [apply RT|]. destruct (is """" x); [apply RT|].
  pose proof (bare_within (String x q3) "" U3) as BW.
  destruct (bare_value (String x q3) "") as [[v r]|b]; [|apply ends_fail_if; exact I].
  apply ends_ret. cbn [fst]. destruct BW as [A B]. split; [exact A|lia].
Qed.

Lemma find_tag_within tag s : uncut s -> uncut (find_tag tag s) /\ slen (find_tag tag s) <= slen s.
Proof.
  induction s as [|c t IH]; intros U; cbn [find_tag]; [split; [exact I|lia]|].
  destruct (prefix tag (String c t)); [split; [exact U|lia]|].
  destruct (IH (uncut_tail _ _ U)) as [A B]. split; [exact A|cbn; lia].
Qed.
Lemma to_gt_within s : uncut s -> uncut (to_gt s) /\ slen (to_gt s) <= slen s.
Proof.
  induction s as [|c t IH]; intros U; cbn [to_gt]; [split; [exact I|lia]|].
  destruct (is ">" c); [split; [exact U|lia]|].
  destruct (IH (uncut_tail _ _ U)) as [A B]. split; [exact A|cbn; lia].
Qed.
Lemma skip_word_within s : uncut s -> uncut (skip_word s) /\ slen (skip_word s) <= slen s.
Proof.
  induction s as [|c t IH]; intros U; cbn [skip_word]; [split; [exact I|lia]|].
  destruct (is ">" c || is_space c); [split; [exact U|lia]|].
  destruct (IH (uncut_tail _ _ U)) as [A B]. split; [exact A|cbn; lia].
Qed.

Lemma unknown_ends e n p : within (S n) p -> ends (unknown_parse e p) (within n).
Proof.
  intros W. unfold unknown_parse. pose proof (SkipWhiteSpace_within e _ _ W) as WQ.
  destruct (SkipWhiteSpace e p) as [[|c t]|]; [apply ends_fail; exact I| |apply ends_fail; exact I].
  apply ends_stamped. destruct WQ as [U L]. destruct (is "<" c); [|apply ends_fail; exact I].
  destruct (to_gt_within t (uncut_tail _ _ U)) as [A B].
  destruct (to_gt t) as [|d r]; apply ends_ret; [split; [exact I|cbn; lia]|].
  split; [exact (uncut_tail _ _ A)|]. cbn in *. lia.
Qed.
Lemma comment_ends e n p : within (S n) p -> ends (comment_parse e p) (within n).
Proof.
  intros W. unfold comment_parse. pose proof (SkipWhiteSpace_within e _ _ W) as WQ.
  destruct (SkipWhiteSpace e p) as [[|c t]|]; [apply ends_fail; exact I| |apply ends_fail; exact I].
  apply ends_stamped. destruct WQ as [U L].
  destruct (StringEqual "<!--" (String c t)); [|apply ends_fail; exact I].
  destruct (sdrop 4 (String c t)) as [r|] eqn:D; [|apply ends_fail; exact I].
  destruct (sdrop_uncut _ _ _ D U) as [A B]. destruct (find_tag_within "-->" r A) as [C E].
  destruct (find_tag "-->" r) as [|d f]; [apply ends_ret; split; [exact I|cbn; lia]|].
  apply ends_ret. destruct (sdrop 3 (String d f)) as [z|] eqn:D2; [|exact I].
  destruct (sdrop_uncut _ _ _ D2 C) as [F G]. split; [exact F|lia].
Qed.
Lemma cdata_ends e n p : within (S n) p -> ends (cdata_parse e p) (within n).
Proof.
  intros W. unfold cdata_parse.
  destruct p as [[|c t]|]; [apply ends_fail; exact I| |apply ends_fail; exact I].
  apply ends_stamped. destruct W as [U L].
  destruct (StringEqual "<![CDATA[" (String c t)); [|apply ends_fail; exact I].
  destruct (sdrop 9 (String c t)) as [r|] eqn:D; [|apply ends_fail; exact I].
  destruct (sdrop_uncut _ _ _ D U) as [A B]. destruct (find_tag_within "]]>" r A) as [C E].
  destruct (read_raw_ends e "]]>" _ C) as (p' & v & RT & W').
  eapply ends_bind; [apply (ends_lift _ (fun a => a = (p', v)) _ RT); reflexivity|]. intros a ->. apply ends_ret.
  cbn [fst]. apply (within_le (slen (find_tag "]]>" r))); [lia|exact W'].
Qed.
Lemma decl_loop_ends e : forall n enc p, within n p -> ends (decl_loop n e enc p) (fun r => within (n - 1) (fst r)).
Proof.
  induction n as [|n IH]; intros enc p W; destruct p as [[|c t]|]; cbn [decl_loop];
    try (apply ends_ret; exact I).
  - destruct W as [_ L]. cbn in L. lia.
  - destruct W as [U L]. cbn in L. destruct (is ">" c) eqn:GT.
    + apply ends_ret. split; [exact (uncut_tail _ _ U)|lia].
    + assert (WS : within (S n) (SkipWhiteSpace e (Some (String c t)))).
      { apply SkipWhiteSpace_within. split; [exact U|cbn; lia]. }
      assert (NEXT : forall (f : ptr * attr -> string),
                ends (r <- attr_parse false e (SkipWhiteSpace e (Some (String c t))) ;; decl_loop n e (f r) (fst r))
                     (fun r => within (S n - 1) (fst r))).
      { intros f. eapply ends_bind; [apply (attr_ends false e n _ WS)|]. intros a Wa.
        intros s Cs. destruct (IH (f a) (fst a) Wa s Cs) as (s' & b & C' & E' & W'). exists s', b.
        split; [exact C'|]. split; [exact E'|]. apply (within_le (n - 1)); [lia|exact W']. }
      destruct (StringEqual_ci "version" _); [exact (NEXT (fun _ => enc))|].
      destruct (StringEqual_ci "encoding" _); [exact (NEXT (fun r => c_str (a_value (snd r))))|].
      destruct (StringEqual_ci "standalone" _); [exact (NEXT (fun _ => enc))|].
      assert (WN : within n (option_map skip_word (SkipWhiteSpace e (Some (String c t))))).
      { cbn [SkipWhiteSpace option_map].
        assert (Z : (skip_spaces e (String c t) = String c t /\ is_space c = false) \/
                    uncut (skip_spaces e (String c t)) /\ slen (skip_spaces e (String c t)) <= slen t).
        { cbn [skip_spaces]. destruct (is_utf8 e && is LEAD_0 c && _) eqn:E.
          - destruct t as [|b [|d t']]; [rewrite andb_false_r in E; discriminate E ..|]. right. destruct U as [_ [_ [_ U]]].
            destruct (skip_within e t' U). split; [assumption|]. cbn. lia.
          - destruct (is_space c) eqn:SP; [|left; split; reflexivity]. right.
            destruct (skip_within e t (uncut_tail _ _ U)). split; assumption. }
        destruct Z as [[Z SP]|[Z1 Z2]].
        - rewrite Z. cbn [skip_word]. rewrite GT, SP. cbn [orb].
          destruct (skip_word_within t (uncut_tail _ _ U)) as [A B]. split; [exact A|lia].
        - destruct (skip_word_within _ Z1) as [A B]. split; [exact A|lia]. }
      intros s Cs. destruct (IH enc _ WN s Cs) as (s' & b & C' & E' & W'). exists s', b.
      split; [exact C'|]. split; [exact E'|]. apply (within_le (n - 1)); [lia|exact W'].
Qed.
Lemma decl_ends e n p : within (S n) p -> ends (decl_parse e p) (fun r => within n (fst r)).
Proof.
  intros W. unfold decl_parse. pose proof (SkipWhiteSpace_within e _ _ W) as WQ.
  destruct (SkipWhiteSpace e p) as [[|c t]|]; [apply ends_fail; exact I| |apply ends_fail; exact I].
  destruct (prefix_ci "<?xml" (String c t)); [|apply ends_fail; exact I].
  apply ends_stamped. destruct WQ as [U L].
  assert (WP : within (ptr_len (sdrop 5 (String c t))) (sdrop 5 (String c t)) /\ ptr_len (sdrop 5 (String c t)) <= n).
  { destruct (sdrop 5 (String c t)) as [r|] eqn:D; [|split; [exact I|cbn; lia]].
    destruct (sdrop_uncut _ _ _ D U) as [A B]. cbn [ptr_len]. split; [split; [exact A|lia]|]. lia. }
  destruct WP as [WP LP]. intros s Cs. destruct (decl_loop_ends e _ "" _ WP s Cs) as (s' & b & C' & E' & W').
  exists s', b. split; [exact C'|]. split; [exact E'|]. eapply within_le; [|exact W']. lia.
Qed.

Lemma ends_imp {A} (m : M pst A) (P Q : A -> Prop) : (forall a, P a -> Q a) -> ends m P -> ends m Q.
Proof.
  intros H E s C. destruct (E s C) as (s' & a & C' & X & Pa). exists s', a. auto.
Qed.

Lemma elements_end e : forall n,
  (forall p k, within (S k) p -> 4 * S k + 2 <= n -> ends (elem_parse n e p) (fun r => within k (fst r))) /\
  (forall name attrs s, uncut s -> 4 * slen s + 1 <= n ->
     ends (attrs_loop n e name attrs s) (fun r => within (slen s) (fst r))) /\
  (forall kids p k, within k p -> 4 * k + 3 <= n -> ends (read_value n e kids p) (fun r => within k (fst r))).
Proof.
  induction n as [|n (IHe & IHa & IHv)]; [split; [|split]; intros; lia|]. split; [|split].
  - intros p k W Hn. cbn [elem_parse]. pose proof (SkipWhiteSpace_within e _ _ W) as WQ.
    destruct (SkipWhiteSpace e p) as [[|c t]|]; [apply ends_fail; exact I| |apply ends_fail; exact I].
    apply ends_stamped. destruct (negb (is "<" c)); [apply ends_fail; exact I|].
    destruct WQ as [U L].
    assert (WT : within k (Some t)) by (split; [exact (uncut_tail _ _ U)|cbn in L; lia]).
    pose proof (SkipWhiteSpace_within e _ _ WT) as W1.
    pose proof (read_name_within (k - 1) (SkipWhiteSpace e (Some t))) as RN.
    destruct (ReadName (SkipWhiteSpace e (Some t))) as [nm [[|d q1]|]] eqn:ER; [apply ends_fail; exact I| |apply ends_fail; exact I].
    cbn [snd] in RN.
    assert (K1 : 1 <= k).
    { destruct t as [|x y]; [cbn in ER; discriminate ER|]. destruct WT as [_ WT]. cbn in WT. lia. }
    assert (WN : within (k - 1) (Some (String d q1))).
    { apply RN. replace (S (k - 1)) with k by lia. exact W1. }
    destruct WN as [UN LN]. eapply ends_imp; [|apply IHa; [exact UN|lia]].
    intros a. apply within_le. lia.
  - intros name attrs s U Hn. cbn [attrs_loop].
    pose proof (SkipWhiteSpace_within e (slen s) (Some s) (conj U (le_n _))) as WQ.
    destruct (SkipWhiteSpace e (Some s)) as [[|c t]|]; [apply ends_fail; exact I| |apply ends_fail; exact I].
    destruct WQ as [UQ LQ]. cbn [String.length] in LQ. pose proof (uncut_tail _ _ UQ) as UT.
    destruct (is "/" c).
    + destruct t as [|d t']; [apply ends_fail; exact I|]. destruct (is ">" d); [|apply ends_fail; exact I].
      apply ends_ret. split; [exact (uncut_tail _ _ UT)|cbn in LQ; lia].
    + destruct (is ">" c).
      * eapply ends_bind; [apply (IHv [] (Some t) (slen t)); [split; [exact UT|lia]|lia]|].
        intros [p kids] W. cbn [fst snd] in *.
        destruct p as [[|x u]|]; [apply ends_fail; exact I| |apply ends_fail; exact I].
        destruct (StringEqual ("</" ++ name) (String x u)); [|apply ends_fail; exact I].
        assert (WD : within (slen t) (sdrop (slen ("</" ++ name)) (String x u))).
        { destruct (sdrop _ (String x u)) as [z|] eqn:D; [|exact I]. destruct W as [UW LW].
          destruct (sdrop_uncut _ _ _ D UW) as [A B]. split; [exact A|lia]. }
        pose proof (SkipWhiteSpace_within e _ _ WD) as WE.
        destruct (SkipWhiteSpace e (sdrop _ _)) as [[|y t']|]; [apply ends_fail; exact I| |apply ends_fail; exact I].
        destruct (is ">" y); [|apply ends_fail; exact I]. apply ends_ret. destruct WE as [UE LE].
        split; [exact (uncut_tail _ _ UE)|cbn in LE; lia].
      * eapply ends_bind; [apply (attr_ends true e (slen t)); split; [exact UQ|cbn; lia]|].
        intros [p a] W. cbn [fst snd] in *.
        destruct p as [[|x s']|]; [apply ends_fail; exact I| |apply ends_fail; exact I].
        destruct (known (a_name a) attrs); [apply ends_fail; exact I|].
        destruct W as [UW LW]. eapply ends_imp; [|apply IHa; [exact UW|lia]].
        intros b. apply within_le. lia.
  - intros kids p k W Hn. cbn [read_value]. pose proof (SkipWhiteSpace_within e _ _ W) as WQ.
    destruct (SkipWhiteSpace e p) as [[|c t]|]; [apply ends_ret; exact WQ| |apply ends_fail; exact I].
    destruct WQ as [U L]. cbn [String.length] in L.
    assert (WS : within (S (k - 1)) (Some (String c t))) by (split; [exact U|cbn; lia]).
    assert (NEXT : forall kids p, within (k - 1) p -> ends (read_value n e kids p) (fun r => within k (fst r))).
    { intros kids' p' W'. eapply ends_imp; [|apply (IHv kids' p' (k - 1) W'); lia]. intros a. apply within_le. lia. }
    destruct (is "<" c) eqn:LT; cbn [negb].
    + destruct (StringEqual "</" (String c t)); [apply ends_ret; split; [exact U|exact L]|].
      destruct (Identify e (Some (String c t))) as [[]|]; [| | | | |apply ends_ret; exact I].
      * eapply ends_bind; [apply (decl_ends e (k - 1) _ WS)|]. intros a Wa. apply NEXT, Wa.
      * eapply ends_bind; [apply (comment_ends e (k - 1) _ WS)|]. intros a Wa. apply NEXT, Wa.
      * eapply ends_bind; [apply (cdata_ends e (k - 1) _ WS)|]. intros a Wa. apply NEXT, Wa.
      * eapply ends_bind; [apply (unknown_ends e (k - 1) _ WS)|]. intros a Wa. apply NEXT, Wa.
      * eapply ends_bind; [apply (IHe _ (k - 1) WS); lia|]. intros a Wa. apply NEXT, Wa.
    + eapply ends_bind; [apply (text_ends e c t U LT)|]. intros a Wa. apply NEXT.
      apply (within_le (slen t)); [lia|exact Wa].
Qed.

Lemma doc_ends : forall n e nodes p, within n p -> ends (doc_loop n e nodes p) (fun _ => True).
Proof.
  induction n as [|n IH]; intros e nodes p W; destruct p as [[|c t]|]; cbn [doc_loop]; try (apply ends_ret; exact I).
  - destruct W as [_ L]. cbn in L. lia.
  - assert (WS : within (S n) (Some (String c t))) by exact W.
    destruct (Identify e (Some (String c t))) as [[]|]; [| | | | |apply ends_ret; exact I].
    + eapply ends_bind; [apply (decl_ends e n _ WS)|]. intros a Wa. apply IH, SkipWhiteSpace_within, Wa.
    + eapply ends_bind; [apply (comment_ends e n _ WS)|]. intros a Wa. apply IH, SkipWhiteSpace_within, Wa.
    + eapply ends_bind; [apply (cdata_ends e n _ WS)|]. intros a Wa. apply IH, SkipWhiteSpace_within, Wa.
    + eapply ends_bind; [apply (unknown_ends e n _ WS)|]. intros a Wa. apply IH, SkipWhiteSpace_within, Wa.
    + destruct W as [U L]. eapply ends_bind.
      * apply (proj1 (elements_end e (depth_for (String c t))) _ (slen t)); [split; [exact U|cbn; lia]|].
        unfold depth_for. cbn [String.length]. lia.
      * intros a Wa. apply IH, SkipWhiteSpace_within. apply (within_le (slen t)); [cbn in L; lia|exact Wa].
Qed.

Theorem parse_ends text : uncut (c_str text) -> exists d, tinyxml_parse text = Ok d.
Proof.
  intros U. unfold tinyxml_parse. set (s := c_str text) in *.
  pose proof (SkipWhiteSpace_within (bom s) (slen s) (Some s) (conj U (le_n _))) as W.
  destruct (SkipWhiteSpace (bom s) (Some s)) as [q|]; [|eexists; reflexivity].
  destruct (doc_ends (slen s) (bom s) [] (Some q) W (mkP false s) U) as (s' & a & _ & E & _).
  rewrite E. eexists. reflexivity.
Qed.
