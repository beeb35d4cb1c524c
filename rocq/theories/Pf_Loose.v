(** Whatever the parser accepts has the loose form of Spec_Loose. *)
From Coq Require Import String List Arith NArith Ascii Bool Lia.
From Verif Require Import Base Num Urdf Kin TinyXml Spec_Xml Spec_Loose Pf_Xml1 Pf_Xml2 Pf_Xml3 Pf_Xml4 Pf_Xml5 Pf_Xml7 Pf_Xml8.
Import ListNotations.
Local Open Scope string_scope.
Local Open Scope m_scope.

(** ** characters *)
Lemma space_loose c : is_space c = true <-> loose_space c.
Proof.
  unfold is_space, loose_space, byte_in. rewrite orb_true_iff, !between_iff. split; intros [H|H]; auto; right.
  - apply (f_equal ascii_of_N) with (x := N_of_ascii c) (y := 32%N) in H || idtac.
    assert (E : N_of_ascii c = 32%N) by lia. rewrite <- (ascii_N_embedding c), E. reflexivity.
  - subst c. vm_compute. split; discriminate.
Qed.
Lemma letter_loose c : is_letter c = true <-> letter c.
Proof. unfold is_letter, letter, byte_in. rewrite orb_true_iff, !between_iff. tauto. Qed.
Lemma high_loose c : N.leb 127 (code c) = true <-> byte_in 127 255 c.
Proof. unfold byte_in, code. rewrite N.leb_le. pose proof (N_ascii_bounded c). lia. Qed.
Lemma start_loose c : name_start c = true <-> loose_first c.
Proof. unfold name_start, is_alpha, loose_first. rewrite !orb_true_iff, letter_loose, high_loose, is_iff. tauto. Qed.
Lemma later_loose c : name_char c = true -> loose_later c.
Proof.
  unfold name_char, is_alnum, loose_later. rewrite !orb_true_iff, letter_loose, high_loose, !is_iff. unfold is_digit. rewrite between_iff.
  unfold digit, byte_in. tauto.
Qed.

(** ** white space and names *)
Lemma skip_gap e s : exists g, gap g /\ s = g ++ skip_spaces e s.
Proof.
  remember (slen s) as n eqn:L. revert s L. induction n as [n IH] using lt_wf_ind. intros s L.
  destruct s as [|a t]; [exists ""; split; [constructor|reflexivity]|]. rewrite skip_cons.
  match goal with |- context [if ?b then _ else _] => destruct b eqn:Z end.
  - destruct t as [|b [|c t']]; rewrite ?andb_false_r in Z; try discriminate Z.
    apply andb_true_iff in Z as [Z1 Z2]. apply andb_true_iff in Z1 as [_ Z1]. apply is_iff in Z1.
    destruct (IH (slen t') ltac:(subst n; cbn [String.length]; lia) t' eq_refl) as (g & G & E).
    exists (String a (String b (String c g))). split; [|cbn [append]; rewrite <- E; reflexivity].
    rewrite Z1. apply gap_zero; [|exact G]. unfold zero_width in Z2. rewrite !orb_true_iff, !andb_true_iff, !is_iff in Z2.
    destruct Z2 as [[[-> ->]|[-> ->]]|[-> ->]]; vm_compute; tauto.
  - destruct (is_space a) eqn:S; [|exists ""; split; [constructor|reflexivity]].
    destruct (IH (slen t) ltac:(subst n; cbn [String.length]; lia) t eq_refl) as (g & G & E).
    exists (String a g). split; [|cbn [append]; rewrite <- E; reflexivity]. apply gap_space; [apply space_loose, S|exact G].
Qed.
Lemma skip_gap_p e s r : SkipWhiteSpace e (Some s) = Some r -> exists g, gap g /\ s = g ++ r.
Proof.
  unfold SkipWhiteSpace. destruct s as [|c s]; [discriminate|]. intros H. assert (E : r = skip_spaces e (String c s)) by congruence. rewrite E. apply skip_gap.
Qed.
Lemma span_loose s : s = fst (name_span s) ++ snd (name_span s) /\ each loose_later (fst (name_span s)).
Proof.
  induction s as [|c s [IH1 IH2]]; [split; [reflexivity|exact I]|]. cbn [name_span].
  destruct (name_char c) eqn:C; cbn [fst snd append]; [|split; [reflexivity|exact I]].
  split; [rewrite <- IH1; reflexivity|]. split; [apply later_loose, C|exact IH2].
Qed.
Lemma name_loose s n r : ReadName (Some s) = (n, Some r) -> s = n ++ r /\ loose_name n.
Proof.
  unfold ReadName. destruct s as [|c s]; [discriminate|]. destruct (name_start c) eqn:C; [|discriminate].
  intros H. assert (E1 : n = fst (name_span (String c s))) by congruence. assert (E2 : r = snd (name_span (String c s))) by congruence.
  destruct (span_loose (String c s)) as [E F]. rewrite <- E1, <- E2 in *. split; [exact E|].
  destruct n as [|c' n].
  - exfalso. cbn [name_span] in E1. destruct (name_char c) eqn:D; [discriminate E1|].
    unfold name_start, is_alpha in C. unfold name_char, is_alnum in D.
    destruct (is_letter c), (N.leb 127 (code c)), (is "_" c); cbn in C, D; rewrite ?orb_true_r in D; discriminate.
  - cbn [append] in E. injection E as <- _. split; [apply start_loose, C|exact (proj2 F)].
Qed.

(** ** character data *)
Definition mark (q : ascii) : Prop := quote q \/ q = "<"%char.
Lemma sdrop_split : forall k s r, sdrop k s = Some r -> exists u, s = u ++ r /\ slen u = k.
Proof.
  induction k as [|k IH]; intros s r H; [injection H as <-; exists ""; auto|]. destruct s as [|c s]; [discriminate H|].
  destruct (IH s r H) as (u & -> & <-). exists (String c u). auto.
Qed.
Lemma semi_split : forall s a b, until_semi s = Some (a, b) -> s = a ++ ";" ++ b /\ each (fun c => c <> ";"%char) a.
Proof.
  induction s as [|c s IH]; intros a b H; [discriminate H|]. cbn [until_semi] in H. destruct (is ";" c) eqn:C.
  - injection H as <- <-. apply is_iff in C. subst c. split; [reflexivity|exact I].
  - destruct (until_semi s) as [[a' b']|]; [|discriminate H]. injection H as <- <-. destruct (IH a' b' eq_refl) as [-> E].
    split; [reflexivity|]. split; [|exact E]. intros ->. rewrite is_refl in C. discriminate C.
Qed.
Lemma free_plain q w t : each (fun c => c <> q) w -> free q t -> free q (w ++ t).
Proof. induction w as [|c w IH]; intros W F; [exact F|]. destruct W as [C W]. constructor; [exact C|exact (IH W F)]. Qed.
Lemma free_app q a b : free q a -> free q b -> free q (a ++ b).
Proof.
  intros Fa Fb. induction Fa as [|c t C _ IH|seg t S _ IH|c s t C L _ IH]; [exact Fb|constructor; [exact C|exact IH]| |].
  - replace (("&#" ++ seg ++ ";" ++ t) ++ b) with ("&#" ++ seg ++ ";" ++ (t ++ b)) by (rewrite <- !app_assoc_s; reflexivity).
    constructor; [exact S|exact IH].
  - cbn [append]. rewrite <- app_assoc_s. apply fr_wide; [exact C|exact L|exact IH].
Qed.
Lemma named_split : forall l t c r, named l t = Some (c, r) -> exists w, In w (map fst l) /\ t = w ++ r.
Proof.
  induction l as [|[w c0] l IH]; intros t c r H; [discriminate H|]. cbn [named] in H. destruct (prefix w t) eqn:P.
  - destruct (sdrop (slen w) t) as [r'|] eqn:D; [|discriminate H]. injection H as _ <-. exists w. split; [left; reflexivity|].
    destruct (sdrop_split _ _ _ D) as (u & -> & L). f_equal.
    clear -P L. revert u L P. induction w as [|a w IH]; intros [|b u] L P; try discriminate L; [reflexivity|].
    cbn [append prefix] in P. destruct (ascii_dec a b) as [->|]; [|discriminate P]. f_equal. apply IH; [injection L as L; exact L|exact P].
  - destruct (IH t c r H) as (w' & I' & E). exists w'. split; [right; exact I'|exact E].
Qed.
Lemma mark_plain q c : mark q -> N_of_ascii c <> 34%N -> N_of_ascii c <> 39%N -> N_of_ascii c <> 60%N -> c <> q.
Proof. intros [[-> | ->] | ->] A B C ->; [apply A|apply B|apply C]; reflexivity. Qed.
Definition plain (u : string) : Prop := each (fun c => c <> "&"%char) u.
Lemma plain_app a b : plain (a ++ b) -> plain a /\ plain b.
Proof. unfold plain. apply each_app. Qed.
Lemma stake_app : forall u r, stake (slen u) (u ++ r) = u.
Proof. induction u as [|c u IH]; intros r; [reflexivity|]. cbn. rewrite IH. reflexivity. Qed.
Lemma char_free q e c t r v : mark q -> c <> q -> GetChar e (String c t) = Ok (Some r, v) ->
  exists u, String c t = u ++ r /\ free q u /\ (plain u -> v = u).
Proof.
  intros Q C H. unfold GetChar in H.
  set (k := if is_utf8 e then utf8_len c else 1) in H.
  assert (K : k = 1 \/ k = utf8_len c) by (unfold k; destruct (is_utf8 e); auto).
  destruct (Nat.eqb k 1) eqn:K1.
  - destruct (is "&" c) eqn:Amp.
    2: { injection H as <- <-. exists (String c ""). split; [reflexivity|]. split; [constructor; [exact C|constructor]|reflexivity]. }
    apply is_iff in Amp. subst c.
    assert (PL : (match named entities t with Some (c, r) => (Some r, String c "") | None => (Some t, "") end) = (Some r, v) ->
              exists u, String "&" t = u ++ r /\ free q u /\ (plain u -> v = u)).
    { destruct (named entities t) as [[c0 r0]|] eqn:N; intros X; injection X as <- _.
      - destruct (named_split _ _ _ _ N) as (w & Iw & ->). exists (String "&" w). split; [reflexivity|]. split; [|intros [X _]; contradiction X; reflexivity].
        constructor; [exact C|]. rewrite <- (app_nil_s w). apply free_plain; [|constructor].
        cbn [map fst entities] in Iw.
        repeat (destruct Iw as [<-|Iw]; [cbn [each]; repeat split; apply mark_plain; try exact Q; vm_compute; discriminate|]). destruct Iw.
      - exists "&". split; [reflexivity|]. split; [constructor; [exact C|constructor]|intros [X _]; contradiction X; reflexivity]. }
    assert (H' : GetEntity e t = (Some r, v)) by congruence. clear H. unfold GetEntity in H'.
    assert (NUM : forall stop base dg s, numeric e stop base dg s = (Some r, v) -> exists seg, s = seg ++ ";" ++ r /\ each (fun c => c <> ";"%char) seg).
    { intros stop base dg s Hn. unfold numeric in Hn. destruct (until_semi s) as [[seg rest]|] eqn:U; [|discriminate Hn].
      destruct (digits_back _ _ _ _ _ _); [|discriminate Hn]. injection Hn as <- _. exists seg. exact (semi_split _ _ _ U). }
    assert (REF : forall seg, each (fun c => c <> ";"%char) seg -> free q ("&#" ++ seg ++ ";")).
    { intros seg E. pose proof (fr_ref q seg "" E (fr_nil q)) as F. exact F. }
    destruct t as [|h [|x t3]]; [exact (PL H')|exact (PL H')|].
    destruct (is "#" h) eqn:Hh; [|exact (PL H')]. apply is_iff in Hh. subst h.
    destruct (is "x" x) eqn:Hx.
    + apply is_iff in Hx. subst x. destruct t3 as [|y t3]; [discriminate H'|]. destruct (NUM _ _ _ _ H') as (seg & E & F).
      exists ("&#" ++ String "x" seg ++ ";"). split; [|split; [apply REF; split; [discriminate|exact F]|intros [X _]; contradiction X; reflexivity]]. rewrite E. cbn [append]. rewrite <- app_assoc_s. reflexivity.
    + destruct (NUM _ _ _ _ H') as (seg & E & F). exists ("&#" ++ seg ++ ";"). split; [|split; [apply REF, F|intros [X _]; contradiction X; reflexivity]]. rewrite E. cbn [append]. rewrite <- app_assoc_s. reflexivity.
  - destruct K as [K|K]; [rewrite K in K1; discriminate K1|].
    destruct (sdrop k (String c t)) as [r'|] eqn:D; [|discriminate H]. injection H as <- Hv. rewrite K in D, Hv.
    pose proof (len_pos c) as LP. destruct (utf8_len c) as [|j] eqn:L; [lia|]. cbn [sdrop] in D.
    destruct (sdrop_split _ _ _ D) as (u & -> & Lu). exists (String c u). split; [reflexivity|].
    split; [|intros _; rewrite <- Hv, <- Lu; exact (stake_app (String c u) r')].
    rewrite <- (app_nil_s u). apply fr_wide; [exact C| |constructor]. rewrite announces_len, L. lia.
Qed.

Lemma mark_equal q c t : StringEqual (String q "") (String c t) = true <-> c = q.
Proof.
  cbn. destruct (ascii_dec q c) as [->|N]; split; intros H; try reflexivity; try congruence.
  destruct t; reflexivity.
Qed.
Definition stands (q : ascii) (r : string) : Prop := r = "" \/ exists r', r = String q r'.
Lemma chars_free q e : mark q -> forall n s acc r v, read_chars n e (String q "") (Some s) acc = Ok (Some r, v) ->
  exists d, s = d ++ r /\ free q d /\ stands q r /\ (plain d -> v = acc ++ d).
Proof.
  intros Q. induction n as [|n IH]; intros s acc r v H; (destruct s as [|c t]; [injection H as <- <-; exists ""; split; [reflexivity|]; split; [constructor|]; split; [left; reflexivity|intros _; symmetry; apply app_nil_s]|]); cbn [read_chars] in H;
    destruct (StringEqual (String q "") (String c t)) eqn:E.
  1,3: injection H as <- <-; apply mark_equal in E; subst c; exists ""; split; [reflexivity|]; split; [constructor|]; split; [right; eauto|intros _; symmetry; apply app_nil_s].
  - discriminate H.
  - assert (C : c <> q) by (intros X; apply (mark_equal q c t) in X; congruence).
    destruct (GetChar e (String c t)) as [[[r1|] v1]| | |] eqn:G; try discriminate H; cbn [rbind fst snd] in H.
    + destruct (char_free q e c t r1 v1 Q C G) as (u & Eu & Fu & Vu). destruct (IH _ _ _ _ H) as (d & -> & Fd & S & Vd).
      exists (u ++ d). split; [rewrite Eu; apply app_assoc_s|]. split; [exact (free_app _ _ _ Fu Fd)|]. split; [exact S|].
      intros P. apply plain_app in P as [P1 P2]. rewrite (Vd P2), (Vu P1), <- app_assoc_s. reflexivity.
    + destruct n; discriminate H.
Qed.
Lemma words_free q e : mark q -> forall n s ws acc r v, read_words n e (String q "") ws (Some s) acc = Ok (Some r, v) ->
  exists d, s = d ++ r /\ free q d /\ stands q r.
Proof.
  intros Q. induction n as [|n IH]; intros s ws acc r v H; (destruct s as [|c t]; [injection H as <- _; exists ""; repeat split; [constructor|left; reflexivity]|]); cbn [read_words] in H;
    destruct (StringEqual (String q "") (String c t)) eqn:E.
  1,3: injection H as <- _; apply mark_equal in E; subst c; exists ""; repeat split; [constructor|right; eauto].
  - discriminate H.
  - assert (C : c <> q) by (intros X; apply (mark_equal q c t) in X; congruence).
    destruct (is_space c).
    { destruct (IH _ _ _ _ _ H) as (d & -> & Fd & S). exists (String c d). split; [reflexivity|]. split; [constructor; assumption|exact S]. }
    destruct (GetChar e (String c t)) as [[[r1|] v1]| | |] eqn:G; try discriminate H; cbn [rbind fst snd] in H.
    + destruct (char_free q e c t r1 v1 Q C G) as (u & Eu & Fu & _). destruct (IH _ _ _ _ _ H) as (d & -> & Fd & S).
      exists (u ++ d). split; [rewrite Eu; apply app_assoc_s|]. split; [exact (free_app _ _ _ Fu Fd)|exact S].
    + destruct n; discriminate H.
Qed.
Lemma raw_free q e s r v : mark q -> ReadText e false (String q "") (Some s) = Ok (Some r, v) ->
  exists d, s = d ++ String q r /\ free q d /\ (plain d -> v = d).
Proof.
  intros Q H. unfold ReadText in H. destruct (read_chars _ _ _ _ _) as [[p v1]| | |] eqn:E; try discriminate H. cbn [rbind fst snd] in H.
  assert (P : past (String q "") p = Some r) by congruence. assert (v1 = v) as -> by congruence. destruct (past_some _ _ _ P) as (_ & c & ->).
  destruct (chars_free q e Q _ _ _ _ _ E) as (d & -> & F & [S|(r' & S)] & V); [discriminate S|]. injection S as -> ->. exists d. auto.
Qed.
Lemma trim_free q e s r v : mark q -> ReadText e true (String q "") (Some s) = Ok (Some r, v) ->
  exists g d, s = g ++ d ++ String q r /\ gap g /\ free q d.
Proof.
  intros Q H. unfold ReadText in H. cbv zeta in H. destruct (SkipWhiteSpace e (Some s)) as [s1|] eqn:K; [|discriminate H].
  destruct (read_words _ _ _ _ _ _) as [[p v1]| | |] eqn:E; try discriminate H. cbn [rbind fst snd] in H.
  assert (P : past (String q "") p = Some r) by congruence. destruct (past_some _ _ _ P) as (_ & c & ->).
  destruct (words_free q e Q _ _ _ _ _ _ E) as (d & -> & F & [S|(r' & S)]); [discriminate S|]. injection S as -> ->.
  destruct (skip_gap_p _ _ _ K) as (g & G & ->). exists g, d. auto.
Qed.

(** ** attributes *)
Lemma bare_split : forall s acc v r, bare_value s acc = inl (v, r) ->
  exists t, s = t ++ r /\ each (fun c => ~ loose_space c /\ c <> "/"%char /\ c <> ">"%char /\ ~ quote c) t /\ v = acc ++ t.
Proof.
  induction s as [|c s IH]; intros acc v r H; [injection H as <- <-; exists ""; split; [reflexivity|split; [exact I|symmetry; apply app_nil_s]]|].
  cbn [bare_value] in H. destruct (is_space c || is "/" c || is ">" c) eqn:A; [injection H as <- <-; exists ""; split; [reflexivity|split; [exact I|symmetry; apply app_nil_s]]|].
  destruct (is "'" c || is """" c) eqn:B; [discriminate H|]. destruct (IH _ _ _ H) as (t & -> & E & ->).
  exists (String c t). split; [reflexivity|]. split; [|rewrite <- app_assoc_s; reflexivity]. split; [|exact E].
  apply orb_false_iff in A as [A A3]. apply orb_false_iff in A as [A1 A2]. apply orb_false_iff in B as [B1 B2].
  split; [rewrite <- space_loose; congruence|]. split; [intros ->; discriminate A2|]. split; [intros ->; discriminate A3|].
  intros [-> | ->]; [discriminate B2|discriminate B1].
Qed.
Lemma c_str_same s : each (fun c => c <> "000"%char) s -> c_str s = s.
Proof.
  intros H. apply c_str_id. revert H. apply each_imp. intros c N E. apply N. rewrite <- (ascii_N_embedding c), E. reflexivity.
Qed.
Lemma attr_loose d e s st st1 r a : attr_parse d e (Some s) st = (st1, Ok (Some r, a)) ->
  exists g t, s = g ++ t ++ r /\ gap g /\ loose_attr (a_name a) (c_str (a_value a)) t.
Proof.
  unfold attr_parse. intros H. destruct (SkipWhiteSpace e (Some s)) as [[|c q]|] eqn:K1; try discriminate H.
  apply stamp_then in H as (st2 & H). destruct (skip_gap_p _ _ _ K1) as (g & G & ->). exists g. clear K1.
  destruct (ReadName (Some (String c q))) as [name [[|y q1]|]] eqn:RN; try (exfalso; exact (fails_error _ _ _ _ _ _ _ _ H)).
  destruct (name_loose _ _ _ RN) as (-> & LN). clear RN.
  destruct (SkipWhiteSpace e (Some (String y q1))) as [[|eq q2]|] eqn:K2; try (exfalso; exact (fails_error _ _ _ _ _ _ _ _ H)).
  destruct (skip_gap_p _ _ _ K2) as (g1 & G1 & ->). clear K2.
  destruct (is "=" eq) eqn:EQ; [|exfalso; exact (fails_error _ _ _ _ _ _ _ _ H)]. apply is_iff in EQ. subst eq.
  destruct (SkipWhiteSpace e (Some q2)) as [[|c3 t]|] eqn:K3; try (exfalso; exact (fails_error _ _ _ _ _ _ _ _ H)).
  destruct (skip_gap_p _ _ _ K3) as (g2 & G2 & ->). clear K3.
  assert (FIN : forall v, String c3 t = v ++ r -> loose_value v (c_str (a_value a)) -> a_name a = name ->
            exists t0, g ++ name ++ g1 ++ String "=" (g2 ++ String c3 t) = g ++ t0 ++ r /\ gap g /\ loose_attr (a_name a) (c_str (a_value a)) t0).
  { intros v Ev LV ->. exists (name ++ g1 ++ "=" ++ g2 ++ v). split; [|split; [exact G|exists g1, g2, v; auto 6]].
    rewrite Ev. cbn [append]. rewrite <- !app_assoc_s. cbn [append]. rewrite <- !app_assoc_s. reflexivity. }
  assert (QUO : forall qt, quote qt -> c3 = qt ->
     (r0 <- lift (ReadText e false (String qt "") (Some t)) ;; ret (fst r0, mkAttr name (snd r0))) st2 = (st1, Ok (Some r, a)) ->
     exists t0, g ++ name ++ g1 ++ String "=" (g2 ++ String c3 t) = g ++ t0 ++ r /\ gap g /\ loose_attr (a_name a) (c_str (a_value a)) t0).
  { intros qt Qt -> Hq. apply lift_then in Hq as ((p & v) & R & Hq). cbn [fst snd] in Hq. injection Hq as _ -> <-.
    destruct (raw_free qt e t r v (or_introl Qt) R) as (d0 & -> & F & V).
    apply (FIN (String qt (d0 ++ String qt ""))); [cbn [append]; rewrite <- app_assoc_s; reflexivity| |reflexivity].
    constructor; [exact Qt|exact F|]. intros L. cbn [a_value].
    rewrite V by (revert L; apply each_imp; intros x X; apply X). apply c_str_same. revert L. apply each_imp. intros x X. apply X. }
  destruct (is "'" c3) eqn:Q1; [apply is_iff in Q1; apply (QUO "'"%char); [right; reflexivity|exact Q1|exact H]|].
  destruct (is """" c3) eqn:Q2; [apply is_iff in Q2; apply (QUO """"%char); [left; reflexivity|exact Q2|exact H]|].
  destruct (bare_value (String c3 t) "") as [[v rest]|bad] eqn:B; [|exfalso; exact (fails_error _ _ _ _ _ _ _ _ H)].
  injection H as _ <- <-. destruct (bare_split _ _ _ _ B) as (w & Ew & F & ->). apply (FIN w); [exact Ew|apply lv_bare; [exact F|intros L; apply c_str_same, L]|reflexivity].
Qed.

(** ** other mark-up *)
Lemma gt_split : forall s r c, to_gt s = String c r -> exists body, s = body ++ ">" ++ r /\ each (fun c => c <> ">"%char) body.
Proof.
  induction s as [|a s IH]; intros r c H; [discriminate H|]. cbn [to_gt] in H. destruct (is ">" a) eqn:A.
  - injection H as <- <-. apply is_iff in A. subst a. exists "". split; [reflexivity|exact I].
  - destruct (IH _ _ H) as (body & -> & E). exists (String a body). split; [reflexivity|]. split; [|exact E]. intros ->. discriminate A.
Qed.
Lemma prefix_split w : forall s, prefix w s = true -> exists r, s = w ++ r.
Proof.
  induction w as [|a w IH]; intros s H; [exists s; reflexivity|]. destruct s as [|b s]; [discriminate H|]. cbn [prefix] in H.
  destruct (ascii_dec a b) as [->|]; [|discriminate H]. destruct (IH s H) as (r & ->). exists r. reflexivity.
Qed.
Lemma app_same_len (a a' b b' : string) : a ++ b = a' ++ b' -> slen a = slen a' -> a = a' /\ b = b'.
Proof.
  revert a'. induction a as [|x a IH]; intros [|y a'] E L; try discriminate L; [auto|]. cbn in E. injection E as -> E.
  injection L as L. destruct (IH a' E L) as [-> ->]. auto.
Qed.
Lemma find_split w : w <> "" -> forall s, find_tag w s <> "" -> exists body r, s = body ++ w ++ r /\ find_tag w s = w ++ r /\
  forall a b, s = a ++ w ++ b -> slen body <= slen a.
Proof.
  intros W. induction s as [|c s IH]; intros F; [exfalso; apply F; reflexivity|]. cbn [find_tag] in *.
  destruct (prefix w (String c s)) eqn:P.
  - destruct (prefix_split _ _ P) as (r & E). exists "", r. cbn [append]. split; [exact E|]. split; [exact E|]. intros. cbn. lia.
  - destruct (IH F) as (body & r & E & E2 & M). exists (String c body), r. split; [rewrite E; reflexivity|]. split; [exact E2|].
    intros a b Eab. destruct a as [|x a].
    + exfalso. cbn [append] in Eab. rewrite Eab, prefix_app in P. discriminate P.
    + cbn [append] in Eab. injection Eab as _ Eab. specialize (M a b Eab). cbn. lia.
Qed.
Lemma find_up_to w s body r : s = body ++ w ++ r -> (forall a b, s = a ++ w ++ b -> slen body <= slen a) -> up_to w body.
Proof.
  intros E M a b H. assert (L : slen body <= slen a).
  { apply (M a (b ++ r)). rewrite E, app_assoc_s, H, <- !app_assoc_s. reflexivity. }
  assert (L2 : slen a + slen b = slen body) by (apply (f_equal slen) in H; rewrite !app_length_s in H; lia).
  destruct b; [|cbn in L2; lia]. rewrite app_nil_s in H. apply app_same_len in H; [symmetry; apply H|cbn in L2; lia].
Qed.

Definition closed (s : string) (r : string) : Prop := exists o, s = o ++ r /\ loose_other o /\ ~ starts "</" o.
Lemma cons_app c s : String c s = String c "" ++ s. Proof. reflexivity. Qed.
Lemma comment_loose e s st st1 r : prefix "<!--" (String "<" s) = true ->
  comment_parse e (Some (String "<" s)) st = (st1, Ok (Some r)) -> closed (String "<" s) r \/ r = "".
Proof.
  intros P H. unfold comment_parse in H. rewrite skip_solid_p in H by apply lt_solid. apply stamp_then in H as (st2 & H).
  rewrite str_prefix, P in H. destruct (prefix_split _ _ P) as (t & E). rewrite E in *. change 4 with (slen "<!--") in H. rewrite sdrop_app in H.
  destruct (find_tag "-->" t) as [|c f] eqn:F; [right; injection H as _ <-; reflexivity|]. left.
  destruct (find_split "-->" ltac:(discriminate) t ltac:(congruence)) as (body & r' & Et & Ef & M). rewrite F in Ef. rewrite Ef in H.
  change 3 with (slen "-->") in H. rewrite sdrop_app in H. injection H as _ <-. exists ("<!--" ++ body ++ "-->"). split; [|split].
  - rewrite Et, <- !app_assoc_s. reflexivity.
  - apply lo_comment. exact (find_up_to _ _ _ _ Et M).
  - intros (x & X). discriminate X.
Qed.
Lemma str_prefix_at r : StringEqual "]]>" ("]]>" ++ r) = true.
Proof. destruct r; reflexivity. Qed.
Lemma cdata_loose e s st st1 r : prefix "<![CDATA[" (String "<" s) = true ->
  cdata_parse e (Some (String "<" s)) st = (st1, Ok (Some r)) -> closed (String "<" s) r \/ r = "".
Proof.
  intros P H. unfold cdata_parse in H. apply stamp_then in H as (st2 & H).
  rewrite str_prefix, P in H. destruct (prefix_split _ _ P) as (t & E). rewrite E in *. change 9 with (slen "<![CDATA[") in H. rewrite sdrop_app in H.
  apply lift_then in H as ((p & v) & R & H). cbn [fst snd] in H. injection H as _ ->.
  destruct (find_tag "]]>" t) as [|c f] eqn:F; [discriminate R|]. left.
  destruct (find_split "]]>" ltac:(discriminate) t ltac:(congruence)) as (body & r' & Et & Ef & M). rewrite F in Ef. rewrite Ef in R.
  unfold ReadText in R. cbn [ptr_len] in R. cbn [append String.length read_chars] in R.
  change (String "]" (String "]" (String ">" r'))) with ("]]>" ++ r') in R. rewrite str_prefix_at in R. cbn [rbind fst snd append] in R.
  unfold past in R. change (sdrop (slen "]]>") (String "]" (String "]" (String ">" r')))) with (Some r') in R.
  destruct r' as [|y r']; [discriminate R|]. injection R as <- _. exists ("<![CDATA[" ++ body ++ "]]>"). split; [|split].
  - rewrite Et, <- !app_assoc_s. reflexivity.
  - apply lo_cdata. exact (find_up_to _ _ _ _ Et M).
  - intros (x & X). discriminate X.
Qed.
Lemma letter_ci a c : byte_in 97 122 a -> is (to_lower a) (to_lower c) = true -> c = a \/ c = ascii_of_N (N_of_ascii a - 32).
Proof.
  intros B H. apply is_iff in H. unfold to_lower in H. unfold byte_in in B.
  rewrite (between_false 65 90 a) in H by lia. destruct (between 65 90 c) eqn:E; [|left; exact H]. right.
  apply between_iff in E. unfold chr, code in H. rewrite <- H, N_ascii_embedding by lia.
  replace (N_of_ascii c + 32 - 32)%N with (N_of_ascii c) by lia. symmetry. apply ascii_N_embedding.
Qed.

Lemma ci_iff w a c : prefix_ci (String a w) c = true -> byte_in 97 122 a ->
  exists x r, c = String x r /\ (x = a \/ x = ascii_of_N (N_of_ascii a - 32)) /\ prefix_ci w r = true.
Proof.
  destruct c as [|x r]; [discriminate|]. cbn [prefix_ci]. rewrite andb_true_iff. intros [H P] B.
  exists x, r. split; [reflexivity|]. split; [exact (letter_ci a x B H)|exact P].
Qed.
Lemma ci_q c : is (to_lower "?") (to_lower c) = true -> c = "?"%char.
Proof.
  intros H. apply is_iff in H. unfold to_lower in H. rewrite (between_false 65 90 "?"%char) in H by (vm_compute; auto).
  destruct (between 65 90 c) eqn:E; [|exact H]. exfalso. apply between_iff in E. apply (f_equal N_of_ascii) in H.
  unfold chr, code in H. rewrite N_ascii_embedding in H by lia. change (N_of_ascii "?") with 63%N in H. lia.
Qed.
Lemma decl_prefix s : prefix_ci "<?xml" (String "<" s) = true <-> decl_start (String "<" s).
Proof.
  split.
  - intros H. change (prefix_ci "?xml" s = true) in H. destruct s as [|q s]; [discriminate H|]. cbn [prefix_ci] in H.
    change (is (to_lower "?") (to_lower q) && prefix_ci "xml" s = true)%bool in H. apply andb_true_iff in H as [Hq H].
    apply ci_q in Hq. subst q.
    apply ci_iff in H as (a & s1 & -> & A & H); [|vm_compute; split; discriminate].
    apply ci_iff in H as (b & s2 & -> & B & H); [|vm_compute; split; discriminate].
    apply ci_iff in H as (c & s3 & -> & C & _); [|vm_compute; split; discriminate].
    exists a, b, c, s3. auto.
  - intros (a & b & c & r & E & A & B & C). injection E as ->. destruct A as [-> | ->], B as [-> | ->], C as [-> | ->]; destruct r; reflexivity.
Qed.

(** ** declarations *)
Lemma items_gap g t : gap g -> decl_items t -> decl_items (g ++ t).
Proof.
  intros G D. induction G as [|c g S _ IH|b c g B _ IH]; [exact D| |].
  - apply di_char; [|exact IH]. intros ->. destruct S as [S|S]; [vm_compute in S; destruct S as [_ S]; apply S; reflexivity|discriminate S].
  - cbn [append]. apply di_char; [discriminate|]. cbn in B.
    destruct B as [B|[B|[B|[]]]]; injection B as <- <-; (apply di_char; [discriminate|]); (apply di_char; [discriminate|exact IH]).
Qed.
Lemma word_split : forall s, exists w, s = w ++ skip_word s /\ forall t, decl_items t -> decl_items (w ++ t).
Proof.
  induction s as [|c s (w & E & D)]; [exists ""; auto|]. cbn [skip_word]. destruct (is ">" c || is_space c) eqn:C; [exists ""; auto|].
  exists (String c w). split; [cbn [append]; rewrite <- E; reflexivity|]. intros t Dt. apply di_char; [|exact (D t Dt)].
  intros ->. discriminate C.
Qed.
Lemma decl_loop_loose e : forall n enc s st st1 r enc', decl_loop n e enc (Some s) st = (st1, Ok (Some r, enc')) ->
  exists items, s = items ++ ">" ++ r /\ decl_items items.
Proof.
  induction n as [|n IH]; intros enc s st st1 r enc' H; (destruct s as [|c t]; [discriminate H|]); cbn [decl_loop] in H;
    destruct (is ">" c) eqn:C.
  1,3: injection H as _ <- _; apply is_iff in C; subst c; exists ""; split; [reflexivity|constructor].
  - discriminate H.
  - cbv zeta in H. destruct (SkipWhiteSpace e (Some (String c t))) as [s1|] eqn:K.
    2: { cbn in H. destruct n; discriminate H. }
    destruct (skip_gap_p _ _ _ K) as (g & G & ->).
    assert (AT : forall f, (r0 <- attr_parse false e (Some s1) ;; decl_loop n e (f r0) (fst r0)) st = (st1, Ok (Some r, enc')) ->
              exists items, g ++ s1 = items ++ ">" ++ r /\ decl_items items).
    { intros f Hf. apply bind_then in Hf as (st2 & [p a] & Ha & Hf). cbn [fst] in Hf.
      destruct p as [s2|]; [|destruct n; discriminate Hf]. destruct (attr_loose _ _ _ _ _ _ _ Ha) as (g2 & u & -> & G2 & LA).
      destruct (IH _ _ _ _ _ _ Hf) as (items & -> & DI). exists (g ++ g2 ++ u ++ items). split; [rewrite <- !app_assoc_s; reflexivity|].
      apply items_gap; [exact G|]. apply items_gap; [exact G2|]. exact (di_attr _ _ _ _ LA DI). }
    destruct (StringEqual_ci "version" (Some s1)); [exact (AT (fun _ => enc) H)|].
    destruct (StringEqual_ci "encoding" (Some s1)); [exact (AT (fun r0 => c_str (a_value (snd r0))) H)|].
    destruct (StringEqual_ci "standalone" (Some s1)); [exact (AT (fun _ => enc) H)|].
    cbn [option_map] in H. destruct (word_split s1) as (w & E & D). destruct (IH _ _ _ _ _ _ H) as (items & E2 & DI).
    exists (g ++ w ++ items). split; [rewrite E, E2, <- !app_assoc_s; reflexivity|]. apply items_gap; [exact G|exact (D _ DI)].
Qed.
Lemma decl_loose e s st st1 r enc : prefix_ci "<?xml" (String "<" s) = true ->
  decl_parse e (Some (String "<" s)) st = (st1, Ok (Some r, enc)) -> closed (String "<" s) r.
Proof.
  intros P H. unfold decl_parse in H. rewrite skip_solid_p in H by apply lt_solid. rewrite P in H. apply stamp_then in H as (st2 & H).
  apply decl_prefix in P. pose proof P as (a & b & c & t & E & A & B & C). injection E as ->. cbn [sdrop] in H. cbv zeta in H.
  destruct (decl_loop_loose _ _ _ _ _ _ _ _ H) as (items & -> & DI).
  exists (String "<" (String "?" (String a (String b (String c "")))) ++ items ++ ">"). split; [|split].
  - cbn [append]. rewrite <- app_assoc_s. reflexivity.
  - apply (lo_declaration (String "<" (String "?" (String a (String b (String c ""))))) items); [|reflexivity|exact DI]. exists a, b, c, "". auto.
  - intros (x & X). discriminate X.
Qed.
Lemma unknown_loose e s st st1 r : Identify e (Some (String "<" s)) = Some KUnknown ->
  unknown_parse e (Some (String "<" s)) st = (st1, Ok (Some r)) ->
  (exists o, String "<" s = o ++ r /\ loose_other o /\ (starts "</" o -> starts "</" (String "<" s))) \/ r = "".
Proof.
  intros K H. unfold unknown_parse in H. unfold Identify in K. rewrite skip_solid_p in H, K by apply lt_solid. apply stamp_then in H as (st2 & H).
  rewrite is_refl in H, K. cbn [negb] in K. destruct (to_gt s) as [|c f] eqn:F; [right; injection H as _ <-; reflexivity|].
  injection H as _ <-. left. destruct (gt_split _ _ _ F) as (body & -> & E). exists ("<" ++ body ++ ">").
  split; [cbn [append]; rewrite <- app_assoc_s; reflexivity|].
  rewrite !str_prefix in K.
  destruct (prefix_ci "<?xml" (String "<" (body ++ ">" ++ f))) eqn:P1; [discriminate K|].
  destruct (prefix "<!--" (String "<" (body ++ ">" ++ f))) eqn:P2; [discriminate K|].
  destruct (prefix "<![CDATA[" (String "<" (body ++ ">" ++ f))) eqn:P3; [discriminate K|].
  split.
  - apply lo_unknown; [| | | |exact E].
    + intros c' r' ->. cbn [append] in K. destruct (prefix "<!" _) eqn:P4.
      * destruct (prefix_split _ _ P4) as (x & X). injection X as -> _. intros [L|[L|L]]; [|discriminate L|].
        -- destruct L as [L|L]; vm_compute in L; destruct L as [L _]; apply L; reflexivity.
        -- vm_compute in L. destruct L as [L _]. apply L. reflexivity.
      * rewrite <- start_loose. destruct (name_start c'); [discriminate K|discriminate].
    + intros D. assert (D' : decl_start (String "<" (body ++ ">" ++ f))).
      { destruct D as (a & b & c1 & t & Et & A & B & C). exists a, b, c1, (t ++ f). split; [|auto].
        change (String "<" (body ++ ">" ++ f)) with ("<" ++ body ++ ">" ++ f). rewrite (app_assoc_s body), (app_assoc_s "<"), Et. reflexivity. }
      apply decl_prefix in D'. congruence.
    + intros (x & X). rewrite (app_assoc_s body), X in P2. cbn in P2. destruct (x ++ f); discriminate P2.
    + intros (x & X). rewrite (app_assoc_s body), X in P3. cbn in P3. destruct (x ++ f); discriminate P3.
  - intros (x & X). exists (x ++ f). change (String "<" (body ++ ">" ++ f)) with ("<" ++ body ++ ">" ++ f).
    rewrite (app_assoc_s body), (app_assoc_s "<"), X. reflexivity.
Qed.

(** ** elements *)
Lemma gap_free g : gap g -> free "<" g.
Proof.
  intros G. induction G as [|c g S _ IH|b c g B _ IH]; [constructor| |].
  - apply fr_char; [|exact IH]. intros ->. destruct S as [S|S]; [vm_compute in S; destruct S as [_ S]; apply S; reflexivity|discriminate S].
  - apply fr_char; [discriminate|]. cbn in B.
    destruct B as [B|[B|[B|[]]]]; injection B as <- <-; (apply fr_char; [discriminate|]); (apply fr_char; [discriminate|exact IH]).
Qed.
Lemma attrs_snoc ats l : loose_attrs ats l -> forall g n v t, gap g -> loose_attr n v t -> loose_attrs (ats ++ g ++ t) (l ++ [(n, v)]).
Proof.
  induction 1 as [|g0 n0 v0 t0 rest l G0 A0 _ IH]; intros g n v t G A.
  - cbn [append app]. rewrite <- (app_nil_s t). apply la_cons; [exact G|exact A|constructor].
  - replace ((g0 ++ t0 ++ rest) ++ g ++ t) with (g0 ++ t0 ++ (rest ++ g ++ t)) by (rewrite <- !app_assoc_s; reflexivity).
    apply la_cons; [exact G0|exact A0|exact (IH _ _ _ _ G A)].
Qed.
Lemma str_cut w u : StringEqual w u = true -> exists r, u = w ++ r.
Proof.
  intros H. destruct u as [|c u]; [destruct w; discriminate H|]. rewrite str_prefix in H. exact (prefix_split _ _ H).
Qed.

Lemma id_kind e t kd : Identify e (Some (String "<" t)) = Some kd ->
  match kd with
  | KDeclaration => prefix_ci "<?xml" (String "<" t) = true
  | KComment => prefix "<!--" (String "<" t) = true
  | KCData => prefix "<![CDATA[" (String "<" t) = true
  | KUnknown => forall c r, t = String c r -> ~ loose_first c
  | KElement => True
  end.
Proof.
  rewrite identify_lt. intros H.
  destruct (prefix_ci "<?xml" (String "<" t)); [injection H as <-; reflexivity|].
  destruct (prefix "<!--" (String "<" t)); [injection H as <-; reflexivity|].
  destruct (prefix "<![CDATA[" (String "<" t)); [injection H as <-; reflexivity|].
  destruct (prefix "<!" (String "<" t)) eqn:P.
  - injection H as <-. intros c r ->. destruct (prefix_split _ _ P) as (x & X). injection X as -> _. rewrite <- start_loose. discriminate.
  - destruct t as [|d t]; [injection H as <-; discriminate|]. destruct (name_start d) eqn:D; injection H as <-; [exact I|].
    intros c r E. injection E as <- _. rewrite <- start_loose, D. discriminate.
Qed.
Lemma elements_loose e : forall n,
  (forall s st st1 r x,
     elem_parse n e (Some (String "<" s)) st = (st1, Ok (Some r, x)) ->
     exists t, String "<" s = t ++ r /\ loose_element t x) /\
  (forall name attrs s st st1 r x, NoDup (map a_name attrs) -> loose_name name ->
     attrs_loop n e name attrs s st = (st1, Ok (Some r, x)) ->
     exists t, s = t ++ r /\ forall z ats, gap z -> loose_attrs ats (map dom_attr attrs) -> loose_element ("<" ++ z ++ name ++ ats ++ t) x) /\
  (forall kids p st st1 r k, read_value n e kids p st = (st1, Ok (Some r, k)) ->
     exists s body k', p = Some s /\ s = body ++ r /\ k = (kids ++ k')%list /\ loose_content body k').
Proof.
  induction n as [|n (IHe & IHa & IHv)]; (split; [|split]).
  1-3: intros; discriminate.
  - intros s st st1 r x H. cbn [elem_parse] in H. rewrite skip_solid_p in H by apply lt_solid.
    apply stamp_then in H as (st2 & H). rewrite is_refl in H. cbn [negb] in H. cbv zeta in H.
    destruct (SkipWhiteSpace e (Some s)) as [s1|] eqn:K; [|exfalso; exact (fails_set _ _ _ _ _ _ _ H)].
    destruct (skip_gap_p _ _ _ K) as (z & Z & ->).
    destruct (ReadName (Some s1)) as [name [[|y q1]|]] eqn:RN; try (exfalso; exact (fails_set _ _ _ _ _ _ _ H)).
    destruct (name_loose _ _ _ RN) as (E & LN).
    destruct (IHa name [] _ _ _ _ _ (NoDup_nil _) LN H) as (t & Et & L). exists ("<" ++ z ++ name ++ t). split.
    + rewrite E, Et. cbn [append]. rewrite <- !app_assoc_s. reflexivity.
    + exact (L z "" Z la_nil).
  - intros name attrs s st st1 r x ND LN H. cbn [attrs_loop] in H.
    destruct (SkipWhiteSpace e (Some s)) as [[|c t]|] eqn:K; try (exfalso; exact (fails_set _ _ _ _ _ _ _ H)).
    destruct (skip_gap_p _ _ _ K) as (g & G & ->).
    destruct (is "/" c) eqn:C1.
    { apply is_iff in C1. subst c. destruct t as [|d t]; [exfalso; exact (fails_set _ _ _ _ _ _ _ H)|].
      destruct (is ">" d) eqn:C2; [|exfalso; exact (fails_set _ _ _ _ _ _ _ H)]. apply is_iff in C2. subst d. injection H as _ <- <-.
      exists (g ++ "/>"). split; [rewrite <- app_assoc_s; reflexivity|]. intros z ats Z LA. apply le_empty; rewrite ?dom_names; assumption. }
    destruct (is ">" c) eqn:C2.
    { apply is_iff in C2. subst c. apply bind_then in H as (st2 & [p k] & Hv & H). cbn [fst snd] in H. cbv zeta in H.
      destruct p as [[|y u]|]; try (exfalso; exact (fails_set _ _ _ _ _ _ _ H)).
      destruct (StringEqual ("</" ++ name) (String y u)) eqn:SE; [|exfalso; exact (fails_set _ _ _ _ _ _ _ H)].
      destruct (str_cut _ _ SE) as (z & Ez). rewrite Ez in *. rewrite sdrop_app in H.
      destruct (SkipWhiteSpace e (Some z)) as [[|d t']|] eqn:K2; try (exfalso; exact (fails_set _ _ _ _ _ _ _ H)).
      destruct (is ">" d) eqn:C3; [|exfalso; exact (fails_set _ _ _ _ _ _ _ H)]. apply is_iff in C3. subst d. injection H as _ <- <-.
      destruct (skip_gap_p _ _ _ K2) as (g' & G' & ->).
      destruct (IHv _ _ _ _ _ _ Hv) as (s0 & body & k' & E0 & E1 & E2 & LC). injection E0 as ->. cbn [app] in E2. subst k'.
      exists (g ++ ">" ++ body ++ "</" ++ name ++ g' ++ ">"). split.
      - rewrite E1. cbn [append]. rewrite <- !app_assoc_s. cbn [append]. rewrite <- !app_assoc_s. cbn [append]. rewrite <- !app_assoc_s. reflexivity.
      - intros z0 ats Z0 LA. apply le_full; rewrite ?dom_names; assumption. }
    apply bind_then in H as (st2 & [p a] & Ha & H). cbn [fst snd] in H.
    destruct p as [[|y s1]|]; try (exfalso; exact (fails_set _ _ _ _ _ _ _ H)).
    destruct (known (a_name a) attrs) eqn:KN; [exfalso; exact (fails_set _ _ _ _ _ _ _ H)|].
    destruct (attr_loose _ _ _ _ _ _ _ Ha) as (g2 & u & E & G2 & LA).
    assert (ND' : NoDup (map a_name (attrs ++ [a])%list)) by (rewrite map_app; apply NoDup_snoc; [exact ND|exact (known_not _ _ KN)]).
    destruct (IHa name _ _ _ _ _ _ ND' LN H) as (t1 & Et & L). rewrite Et in E.
    exists ((g ++ g2 ++ u) ++ t1). split; [rewrite E, <- !app_assoc_s; reflexivity|].
    intros z ats Z LAs.
    replace ("<" ++ z ++ name ++ ats ++ (g ++ g2 ++ u) ++ t1) with ("<" ++ z ++ name ++ (ats ++ (g ++ g2) ++ u) ++ t1) by (rewrite <- !app_assoc_s; reflexivity).
    apply L; [exact Z|]. rewrite map_app. apply attrs_snoc; [exact LAs| |exact LA].
    clear -G G2. induction G; [exact G2|constructor; assumption|]. cbn [append]. constructor; assumption.
  - intros kids p st st1 r k H. destruct p as [s|]; [|exfalso; exact (value_null _ _ _ _ _ _ _ H)].
    cbn [read_value] in H. destruct (SkipWhiteSpace e (Some s)) as [[|c t]|] eqn:K; [| |exfalso; exact (fails_set _ _ _ _ _ _ _ H)].
    { injection H as _ <- <-. destruct (skip_gap_p _ _ _ K) as (g & G & E). exists s, s, []. rewrite !app_nil_s, app_nil_r.
      split; [reflexivity|]. split; [reflexivity|]. split; [reflexivity|]. rewrite E. exact (lc_gap g "" [] G lc_nil). }
    destruct (skip_gap_p _ _ _ K) as (g & G & ->).
    assert (UP : (exists body k', String c t = body ++ r /\ k = (kids ++ k')%list /\ loose_content body k') ->
       exists s body k', Some (g ++ String c t) = Some s /\ s = body ++ r /\ k = (kids ++ k')%list /\ loose_content body k').
    { intros (body & k' & -> & -> & LC). exists (g ++ body ++ r), (g ++ body), k'. rewrite <- app_assoc_s. repeat split; auto. exact (lc_gap _ _ _ G LC). }
    apply UP. clear UP K g G. destruct (is "<" c) eqn:C; cbn [negb] in H.
    2: { apply bind_then in H as (st2 & [p d] & Ht & H). cbn [fst snd] in H.
         destruct (IHv _ _ _ _ _ _ H) as (s1 & body & k' & -> & E1 & E2 & LC).
         unfold text_parse in Ht. apply stamp_then in Ht as (st3 & Ht). apply lift_then in Ht as ([p v] & R & Ht). cbn [fst snd] in Ht.
         destruct p as [s2|]; [|discriminate Ht]. injection Ht as _ <- _.
         destruct (trim_free "<" e _ _ _ (or_intror eq_refl) R) as (g & w & E & G & F).
         assert (NE : g ++ w <> "").
         { intros X. rewrite app_assoc_s, X in E. injection E as -> _. discriminate C. }
         exists ((g ++ w) ++ body), (if blank d then k' else XOther :: k'). split; [rewrite E, E1, <- !app_assoc_s; reflexivity|]. split.
         - rewrite E2. destruct (blank d); [reflexivity|]. rewrite <- app_assoc. reflexivity.
         - apply (lc_text (g ++ w) body k'); [exact NE|apply free_app; [exact (gap_free g G)|exact F]| |exact LC|destruct (blank d); auto].
           destruct body as [|b body]; [left; reflexivity|right]. injection E1 as -> _. exists body. reflexivity. }
    apply is_iff in C. subst c. rewrite str_prefix in H. destruct (prefix "</" (String "<" t)) eqn:CL.
    { injection H as _ <- <-. exists "", []. rewrite app_nil_r. repeat split. constructor. }
    assert (NC : ~ starts "</" (String "<" t)) by (intros (z & Z); rewrite Z, prefix_app in CL; discriminate CL).
    assert (OTH : forall o s1 st2, String "<" t = o ++ s1 -> loose_other o -> ~ starts "</" o ->
      read_value n e (kids ++ [XOther]) (Some s1) st2 = (st1, Ok (Some r, k)) ->
      exists body k', String "<" t = body ++ r /\ k = (kids ++ k')%list /\ loose_content body k').
    { intros o s1 st2 E LO NS Hv. destruct (IHv _ _ _ _ _ _ Hv) as (s2 & body & k' & E0 & E1 & E2 & LC). injection E0 as <-.
      exists (o ++ body), (XOther :: k'). split; [rewrite E, E1, <- app_assoc_s; reflexivity|]. split; [rewrite E2, <- app_assoc; reflexivity|].
      apply lc_other; assumption. }
    destruct (Identify e (Some (String "<" t))) as [kd|] eqn:ID; [|discriminate H].
    assert (CLO : forall s1 st2, closed (String "<" t) s1 \/ s1 = "" ->
      read_value n e (kids ++ [XOther]) (Some s1) st2 = (st1, Ok (Some r, k)) ->
      exists body k', String "<" t = body ++ r /\ k = (kids ++ k')%list /\ loose_content body k').
    { intros s1 st2 [(o & E & LO & NS)| ->] Hv; [exact (OTH o s1 st2 E LO NS Hv)|exfalso; exact (value_end _ _ _ _ _ _ _ Hv)]. }
    destruct kd; apply bind_then in H as (st2 & p & Hp & H).
    + destruct p as [p enc]. cbn [fst snd] in H. destruct p as [s1|]; [|exfalso; exact (value_null _ _ _ _ _ _ _ H)].
      apply (CLO s1 st2); [left|exact H]. refine (decl_loose e t _ _ _ _ _ Hp).
      exact (id_kind _ _ _ ID).
    + destruct p as [s1|]; [|exfalso; exact (value_null _ _ _ _ _ _ _ H)].
      apply (CLO s1 st2); [|exact H]. refine (comment_loose e t _ _ _ _ Hp).
      exact (id_kind _ _ _ ID).
    + destruct p as [s1|]; [|exfalso; exact (value_null _ _ _ _ _ _ _ H)].
      apply (CLO s1 st2); [|exact H]. refine (cdata_loose e t _ _ _ _ Hp).
      exact (id_kind _ _ _ ID).
    + destruct p as [s1|]; [|exfalso; exact (value_null _ _ _ _ _ _ _ H)].
      destruct (unknown_loose e t _ _ _ ID Hp) as [(o & E & LO & NS)| ->]; [|exfalso; exact (value_end _ _ _ _ _ _ _ H)].
      apply (OTH o s1 st2 E LO); [intros X; exact (NC (NS X))|exact H].
    + destruct p as [p x]. cbn [fst snd] in H. destruct p as [s1|]; [|exfalso; exact (value_null _ _ _ _ _ _ _ H)].
      destruct (IHe t _ _ _ _ Hp) as (o & E & LE). destruct (IHv _ _ _ _ _ _ H) as (s2 & body & k' & E0 & E1 & E2 & LC). injection E0 as <-.
      exists (o ++ body), (x :: k'). split; [rewrite E, E1, <- app_assoc_s; reflexivity|]. split; [rewrite E2, <- app_assoc; reflexivity|].
      apply lc_element; assumption.
Qed.

(** ** documents *)
Lemma nodes_after e r nodes k : 
  (forall s, SkipWhiteSpace e (Some r) = Some s -> exists k', k = (nodes ++ k')%list /\ loose_nodes s k') ->
  (SkipWhiteSpace e (Some r) = None -> k = nodes) -> exists k', k = (nodes ++ k')%list /\ loose_nodes r k'.
Proof.
  intros H1 H2. destruct (SkipWhiteSpace e (Some r)) as [s|] eqn:K.
  - destruct (H1 s eq_refl) as (k' & E & L). exists k'. split; [exact E|]. destruct (skip_gap_p _ _ _ K) as (g & G & ->). apply ln_gap; assumption.
  - exists []. rewrite app_nil_r. split; [exact (H2 eq_refl)|]. destruct r; [|discriminate K]. apply ln_end. discriminate.
Qed.
Lemma doc_loose : forall n e nodes s st st1 l, skip_spaces e s = s ->
  doc_loop n e nodes (Some s) st = (st1, Ok l) -> p_err st1 = false ->
  exists k, l = (nodes ++ k)%list /\ loose_nodes s k.
Proof.
  induction n as [|n IH]; intros e nodes s st st1 l SK H PE.
  - destruct s as [|c t]; [|discriminate H]. injection H as _ <-. exists []. rewrite app_nil_r. split; [reflexivity|]. apply ln_end. discriminate.
  - destruct s as [|c t].
    { injection H as _ <-. exists []. rewrite app_nil_r. split; [reflexivity|]. apply ln_end. discriminate. }
    cbn [doc_loop] in H. destruct (is "<" c) eqn:C.
    2: { unfold Identify in H. change (SkipWhiteSpace e (Some (String c t))) with (Some (skip_spaces e (String c t))) in H. rewrite SK, C in H.
         cbn [negb] in H. injection H as _ <-. exists []. rewrite app_nil_r. split; [reflexivity|]. apply ln_end. intros c' r' E. injection E as <- _.
         intros ->. discriminate C. }
    apply is_iff in C. subst c. clear SK.
    assert (NX : forall e' x r st2, doc_loop n e' (nodes ++ [x]) (SkipWhiteSpace e' (Some r)) st2 = (st1, Ok l) ->
              exists k, l = ((nodes ++ [x]) ++ k)%list /\ loose_nodes r k).
    { intros e' x r st2 Hd. apply (nodes_after e').
      - intros s' K. rewrite K in Hd. refine (IH _ _ _ _ _ _ _ Hd PE).
        destruct r as [|a r]; [discriminate K|]. assert (E : s' = skip_spaces e' (String a r)) by (cbn in K |- *; congruence). rewrite E. apply skip_twice.
      - intros K. rewrite K in Hd. destruct n; injection Hd as _ <-; reflexivity. }
    assert (NN : forall e' x st2, doc_loop n e' (nodes ++ [x]) (SkipWhiteSpace e' None) st2 = (st1, Ok l) -> l = (nodes ++ [x])%list).
    { intros e' x st2 Hd. destruct n; injection Hd as _ <-; reflexivity. }
    assert (OP : l = (nodes ++ [XOther])%list -> (forall c r, t = String c r -> ~ loose_first c) ->
              exists k, l = (nodes ++ k)%list /\ loose_nodes (String "<" t) k).
    { intros -> F. exists [XOther]. split; [reflexivity|]. apply ln_open, F. }
    assert (GO : forall e' p st2, (forall c r, t = String c r -> ~ loose_first c) ->
              (forall r, p = Some r -> (exists o, String "<" t = o ++ r /\ loose_other o) \/ r = "") ->
              doc_loop n e' (nodes ++ [XOther]) (SkipWhiteSpace e' p) st2 = (st1, Ok l) ->
              exists k, l = (nodes ++ k)%list /\ loose_nodes (String "<" t) k).
    { intros e' p st2 F P Hd. destruct p as [r|]; [|exact (OP (NN _ _ _ Hd) F)].
      destruct (P r eq_refl) as [(o & E & LO)| ->].
      - destruct (NX _ _ _ _ Hd) as (k & -> & L). exists (XOther :: k). rewrite <- app_assoc. split; [reflexivity|]. rewrite E. apply ln_other; assumption.
      - apply OP; [|exact F]. exact (NN e' XOther st2 Hd). }
    destruct (Identify e (Some (String "<" t))) as [kd|] eqn:ID.
    2: { rewrite identify_lt in ID. repeat match type of ID with (if ?b then _ else _) = _ => destruct b; [discriminate ID|] end.
         destruct t as [|d t]; [discriminate ID|]. destruct (name_start d); discriminate ID. }
    pose proof (id_kind _ _ _ ID) as KD.
    assert (FB : prefix "<!" (String "<" t) = true \/ prefix "<?" (String "<" t) = true -> forall c r, t = String c r -> ~ loose_first c).
    { intros [P|P] c r ->; destruct (prefix_split _ _ P) as (x & X); injection X as -> _; rewrite <- start_loose; discriminate. }
    destruct kd; apply bind_then in H as (st2 & p & Hp & H).
    + destruct p as [p enc]. cbn [fst snd] in H. cbv zeta in H. refine (GO _ _ _ _ _ H).
      * apply FB. right. apply decl_prefix in KD as (a & b & c & r & E & _). rewrite E. reflexivity.
      * intros r ->. left. destruct (decl_loose e t _ _ _ _ KD Hp) as (o & E & LO & _). eauto.
    + refine (GO _ _ _ _ _ H); [apply FB; left; destruct (prefix_split _ _ KD) as (x & ->); reflexivity|].
      intros r ->. destruct (comment_loose e t _ _ _ KD Hp) as [(o & E & LO & _)|E]; eauto.
    + refine (GO _ _ _ _ _ H); [apply FB; left; destruct (prefix_split _ _ KD) as (x & ->); reflexivity|].
      intros r ->. destruct (cdata_loose e t _ _ _ KD Hp) as [(o & E & LO & _)|E]; eauto.
    + refine (GO _ _ _ KD _ H). intros r ->. destruct (unknown_loose e t _ _ _ ID Hp) as [(o & E & LO & _)|E]; eauto.
    + destruct p as [p x]. cbn [fst snd] in H. destruct p as [r|].
      * destruct (proj1 (elements_loose e _) _ _ _ _ _ Hp) as (o & E & LE). destruct (NX _ _ _ _ H) as (k & -> & L).
        exists (x :: k). rewrite <- app_assoc. split; [reflexivity|]. rewrite E. apply ln_element; assumption.
      * exfalso. pose proof (proj1 (element_null e _) _ _ _ _ Hp) as X. destruct n; injection H as -> _; congruence.
Qed.
Lemma c_str_cut s : (s = c_str s \/ exists r, s = c_str s ++ String "000" r) /\ each (fun c => c <> "000"%char) (c_str s).
Proof.
  induction s as [|c s [IH1 IH2]]; [split; [left; reflexivity|exact I]|]. cbn [c_str]. destruct (N.eqb (code c) 0) eqn:C.
  - apply N.eqb_eq in C. assert (X : c = "000"%char) by (rewrite <- (ascii_N_embedding c); unfold code in C; rewrite C; reflexivity). subst c. split; [right; exists s; reflexivity|exact I].
  - split; [|split; [intros ->; discriminate C|exact IH2]]. destruct IH1 as [E|(r & E)]; [left; rewrite <- E; reflexivity|right; exists r; cbn [append]; rewrite <- E; reflexivity].
Qed.
Theorem parse_loose text nodes : tinyxml_parse text = Ok (Some nodes) -> loose_document text nodes.
Proof.
  unfold tinyxml_parse. cbv zeta. intros H. destruct (c_str_cut text) as [E N]. exists (c_str text). split; [exact E|]. split; [exact N|].
  destruct (SkipWhiteSpace (bom (c_str text)) (Some (c_str text))) as [q|] eqn:K; [|discriminate H].
  destruct (doc_loop _ _ _ _ _) as [st [l| | |]] eqn:D; try discriminate H.
  destruct (p_err st) eqn:PE; [discriminate H|].
  assert (l = nodes) as -> by (destruct l; congruence).
  assert (SK : skip_spaces (bom (c_str text)) q = q).
  { destruct (c_str text) as [|a r]; [discriminate K|].
    assert (Eq : q = skip_spaces (bom (String a r)) (String a r)) by (unfold SkipWhiteSpace in K; congruence). rewrite Eq. apply skip_twice. }
  destruct (doc_loose _ _ _ _ _ _ _ SK D PE) as (k & -> & L). cbn [app]. destruct (skip_gap_p _ _ _ K) as (g & G & Eg). rewrite Eg. apply ln_gap; assumption.
Qed.
