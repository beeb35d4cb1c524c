(** What the parser read from the beginning of a text, it reads from every longer text
    as well: only the end of the text can change its mind. *)
From Coq Require Import String List Arith NArith Ascii Bool Lia.
From Verif Require Import Base Urdf TinyXml Spec_Xml Pf_Xml1 Pf_Xml2 Pf_Xml5.
Import ListNotations.
Local Open Scope string_scope.
Local Open Scope m_scope.

(** the beginning of a zero-width sequence that the end of the text cuts off *)
Definition half (e : encoding) (s : string) : Prop :=
  is_utf8 e = true /\ (s = String LEAD_0 "" \/ s = String LEAD_0 (String LEAD_1 "") \/ s = String LEAD_0 (String (chr 191) "")).

Lemma zero_first b c : zero_width b c = true -> b = LEAD_1 \/ b = chr 191.
Proof.
  unfold zero_width. rewrite !orb_true_iff, !andb_true_iff, !is_iff. tauto.
Qed.
Lemma skip_cons e a t : skip_spaces e (String a t) =
  if is_utf8 e && is LEAD_0 a && match t with String b (String c _) => zero_width b c | _ => false end
  then match t with String b (String c t') => skip_spaces e t' | _ => String a t end
  else if is_space a then skip_spaces e t else String a t.
Proof. destruct t as [|b [|c t]]; reflexivity. Qed.

Lemma skip_ext e t : forall s, skip_spaces e s <> "" ->
  skip_spaces e (s ++ t) = skip_spaces e s ++ t \/ half e (skip_spaces e s).
Proof.
  assert (X : forall n s, slen s <= n -> skip_spaces e s <> "" ->
            skip_spaces e (s ++ t) = skip_spaces e s ++ t \/ half e (skip_spaces e s)).
  { induction n as [|n IH]; intros s L NE; (destruct s as [|a s]; [contradiction NE; reflexivity|]); cbn in L; [lia|].
    cbn [append]. rewrite (skip_cons e a s) in *. rewrite skip_cons.
    destruct (is_utf8 e && is LEAD_0 a) eqn:EA; cbn [andb].
    - apply andb_true_iff in EA as [EU EL]. apply is_iff in EL. subst a.
      assert (SP : is_space LEAD_0 = false) by reflexivity. rewrite SP in *.
      destruct s as [|b [|c s]]; cbn [append] in *.
      + destruct t as [|b [|c t]]; [left; reflexivity ..|]. destruct (zero_width b c); [|left; reflexivity].
        right. split; [exact EU|left; reflexivity].
      + destruct t as [|c t]; [left; reflexivity|]. destruct (zero_width b c) eqn:Z; [|left; reflexivity].
        right. split; [exact EU|]. destruct (zero_first b c Z) as [-> | ->]; [right; left|right; right]; reflexivity.
      + destruct (zero_width b c); [|left; reflexivity]. apply IH; [cbn in L; lia|exact NE].
    - destruct (is_space a); [|left; reflexivity]. apply IH; [lia|exact NE]. }
  intros s. exact (X (slen s) s (le_n _)).
Qed.
Lemma skip_ext_p e t s r : SkipWhiteSpace e (Some s) = Some r -> r <> "" ->
  SkipWhiteSpace e (Some (s ++ t)) = Some (r ++ t) \/ half e r.
Proof.
  destruct s as [|a s]; [discriminate|]. cbn [SkipWhiteSpace append]. intros E NE. injection E as <-.
  destruct (skip_ext e t (String a s) NE) as [H|H]; [left|right; exact H]. cbn [append] in H. rewrite H. reflexivity.
Qed.

Lemma span_ext t : forall s, snd (name_span s) <> "" ->
  name_span (s ++ t) = (fst (name_span s), snd (name_span s) ++ t).
Proof.
  induction s as [|c s IH]; cbn [name_span append fst snd]; [intros []; reflexivity|].
  destruct (name_char c); cbn [fst snd]; [|reflexivity]. intros NE. rewrite (IH NE). reflexivity.
Qed.
Lemma name_ext t s n r : ReadName (Some s) = (n, Some r) -> r <> "" -> ReadName (Some (s ++ t)) = (n, Some (r ++ t)).
Proof.
  destruct s as [|c s]; [discriminate|]. intros E NE. pose proof (span_ext t (String c s)) as X.
  cbn [append] in *. unfold ReadName in *. destruct (name_start c); [|discriminate E].
  destruct (name_span (String c s)) as [x y]. cbn [fst snd] in *. injection E as <- <-. rewrite (X NE). reflexivity.
Qed.

Lemma prefix_ext w t : forall s, prefix w s = true -> prefix w (s ++ t) = true.
Proof.
  induction w as [|a w IH]; intros s H; [destruct (s ++ t); reflexivity|].
  destruct s as [|c s]; [discriminate H|]. cbn [append prefix] in *. destruct (ascii_dec a c); [auto|discriminate H].
Qed.
Lemma prefix_cut w t : forall s, prefix w s = false -> prefix w (s ++ t) = true -> exists x, x <> "" /\ w = s ++ x.
Proof.
  induction w as [|a w IH]; intros s H1 H2; [destruct s; discriminate H1|].
  destruct s as [|c s]; [exists (String a w); split; [discriminate|reflexivity]|].
  cbn [append prefix] in *. destruct (ascii_dec a c) as [->|]; [|discriminate H2].
  destruct (IH s H1 H2) as (x & Nx & ->). exists x. split; [exact Nx|reflexivity].
Qed.
Lemma prefix_long w t s : slen w <= slen s -> prefix w (s ++ t) = prefix w s.
Proof.
  intros L. destruct (prefix w s) eqn:E1; [apply prefix_ext, E1|].
  destruct (prefix w (s ++ t)) eqn:E2; [|reflexivity]. destruct (prefix_cut w t s E1 E2) as (x & Nx & ->).
  rewrite app_length_s in L. destruct x; [contradiction|cbn in L; lia].
Qed.
Lemma sdrop_ext t : forall k s r, sdrop k s = Some r -> sdrop k (s ++ t) = Some (r ++ t).
Proof.
  induction k as [|k IH]; intros s r E; [injection E as <-; reflexivity|].
  destruct s as [|c s]; [discriminate E|]. exact (IH s r E).
Qed.
Lemma stake_ext t : forall k s r, sdrop k s = Some r -> stake k (s ++ t) = stake k s.
Proof.
  induction k as [|k IH]; intros s r E; [reflexivity|].
  destruct s as [|c s]; [discriminate E|]. cbn. rewrite (IH s r E). reflexivity.
Qed.
Lemma prefix_len w : forall s, prefix w s = true -> slen w <= slen s.
Proof.
  induction w as [|a w IH]; intros s H; [cbn; lia|]. destruct s as [|c s]; [discriminate H|].
  cbn [prefix] in H. destruct (ascii_dec a c); [|discriminate H]. cbn. specialize (IH s H). lia.
Qed.

(** the beginning of an entity that the end of the text cuts off *)
Definition lower (c : ascii) : Prop := byte_in 97 122 c \/ c = "#"%char.
Lemma lower_plain c : lower c -> is_space c = false /\ is "&" c = false /\ utf8_len c = 1.
Proof.
  intros [H| ->]; [|repeat split; reflexivity]. unfold byte_in in H.
  split; [apply not_space; lia|]. split; [apply is_code; cbn; lia|]. apply len_ascii. lia.
Qed.

Lemma semi_ext t : forall s a b, until_semi s = Some (a, b) -> until_semi (s ++ t) = Some (a, b ++ t).
Proof.
  induction s as [|c s IH]; intros a b E; [discriminate E|]. cbn in *. destruct (is ";" c).
  - injection E as <- <-. reflexivity.
  - destruct (until_semi s) as [[a' b']|]; [|discriminate E]. injection E as <- <-. rewrite (IH a' b' eq_refl). reflexivity.
Qed.
Lemma numeric_ext t e stop base dg s r v : numeric e stop base dg s = (Some r, v) ->
  numeric e stop base dg (s ++ t) = (Some (r ++ t), v).
Proof.
  unfold numeric. destruct (until_semi s) as [[a b]|] eqn:E; [|discriminate].
  rewrite (semi_ext t _ _ _ E). destruct (digits_back _ _ _ _ _ _); [|discriminate]. intros H. injection H as <- <-. reflexivity.
Qed.
Lemma each_sdrop (P : ascii -> Prop) : forall k s r, sdrop k s = Some r -> each P s -> each P r.
Proof.
  induction k as [|k IH]; intros s r E H; [injection E as <-; exact H|].
  destruct s as [|c s]; [discriminate E|]. exact (IH s r E (proj2 H)).
Qed.
Definition almost (w : string) : Prop := forall s x, x <> "" -> w = s ++ x -> each lower s.
Lemma almost_word w : each (byte_in 97 122) w -> almost (w ++ ";").
Proof.
  induction w as [|c w IH]; intros H s x Nx E.
  - destruct s as [|a s]; [exact I|]. cbn in E. injection E as <- E. destruct s; [destruct x; [contradiction|discriminate E]|discriminate E].
  - destruct s as [|a s]; [exact I|]. cbn in E. injection E as <- E. destruct H as [H1 H2].
    split; [left; exact H1|exact (IH H2 s x Nx E)].
Qed.
Lemma named_ext t : forall l, Forall (fun wc => almost (fst wc)) l -> forall s,
  match named l s with
  | Some (c, r) => named l (s ++ t) = Some (c, r ++ t) \/ each lower r
  | None => named l (s ++ t) = None \/ each lower s
  end.
Proof.
  induction 1 as [|[w c] l Aw Al IH]; intros s; cbn [named]; [left; reflexivity|]. cbn [fst] in Aw.
  destruct (prefix w s) eqn:E1.
  - rewrite (prefix_ext w t s E1). destruct (sdrop_some (slen w) s (prefix_len w s E1)) as (r & D).
    rewrite D, (sdrop_ext t _ _ _ D). left. reflexivity.
  - destruct (prefix w (s ++ t)) eqn:E2; [|exact (IH s)].
    destruct (prefix_cut w t s E1 E2) as (x & Nx & Ew). pose proof (Aw s x Nx Ew) as Ls.
    destruct (named l s) as [[c' r]|] eqn:EN; [|right; exact Ls]. right. clear IH E1 E2 Al.
    revert EN. induction l as [|[w' c''] l IHl]; cbn [named]; [discriminate|]. destruct (prefix w' s); [|exact IHl].
    destruct (sdrop (slen w') s) as [r'|] eqn:D; [|discriminate]. intros EN. injection EN as _ <-. exact (each_sdrop _ _ _ _ D Ls).
Qed.
Lemma entities_almost : Forall (fun wc => almost (fst wc)) entities.
Proof.
  unfold entities. repeat constructor; cbn [fst].
  - apply (almost_word "amp"). cbn. repeat split; vm_compute; discriminate.
  - apply (almost_word "lt"). cbn. repeat split; vm_compute; discriminate.
  - apply (almost_word "gt"). cbn. repeat split; vm_compute; discriminate.
  - apply (almost_word "quot"). cbn. repeat split; vm_compute; discriminate.
  - apply (almost_word "apos"). cbn. repeat split; vm_compute; discriminate.
Qed.
Lemma entity_ext t e s r v : GetEntity e s = (Some r, v) ->
  GetEntity e (s ++ t) = (Some (r ++ t), v) \/ each lower r.
Proof.
  assert (P : forall s, match named entities s with Some (c, r) => (Some r, String c "") | None => (Some s, "") end = (Some r, v) ->
              match named entities (s ++ t) with Some (c, r) => (Some r, String c "") | None => (Some (s ++ t), "") end = (Some (r ++ t), v)
              \/ each lower r).
  { intros s0 H. pose proof (named_ext t entities entities_almost s0) as X.
    destruct (named entities s0) as [[c r0]|].
    - injection H as -> <-. destruct X as [->|X]; [left; reflexivity|right; exact X].
    - injection H as -> <-. destruct X as [->|X]; [left; reflexivity|right; exact X]. }
  unfold GetEntity. destruct s as [|h [|x s3]].
  - intros H. right. cbn in H. injection H as <- _. exact I.
  - destruct (is "#" h) eqn:EH.
    + apply is_iff in EH. subst h. intros H. right. cbn in H. injection H as <- _. split; [right; reflexivity|exact I].
    + intros H. specialize (P (String h "") H). cbn [append] in *. destruct t as [|x t]; [exact P|]. rewrite EH. exact P.
  - cbn [append]. destruct (is "#" h).
    + destruct (is "x" x).
      * destruct s3 as [|y s3]; [discriminate|]. cbn [append]. intros H. left. exact (numeric_ext t _ _ _ _ _ _ _ H).
      * intros H. left. exact (numeric_ext t _ _ _ _ _ _ _ H).
    + exact (P (String h (String x s3))).
Qed.
Lemma char_ext t e c s r v : GetChar e (String c s) = Ok (Some r, v) ->
  GetChar e (String c (s ++ t)) = Ok (Some (r ++ t), v) \/ each lower r.
Proof.
  unfold GetChar. destruct (Nat.eqb _ 1).
  - destruct (is "&" c).
    + intros H. injection H as H. destruct (entity_ext t e s r v H) as [->|X]; [left; reflexivity|right; exact X].
    + intros H. injection H as <- <-. left. reflexivity.
  - set (k := if is_utf8 e then utf8_len c else 1). destruct (sdrop k (String c s)) as [q|] eqn:D; [|discriminate].
    intros H. injection H as <- <-. left. change (String c (s ++ t)) with (String c s ++ t).
    rewrite (sdrop_ext t _ _ _ D), (stake_ext t _ _ _ D). reflexivity.
Qed.

Definition tag1 (q : ascii) : Prop := ~ lower q.
Lemma tag1_no q c : tag1 q -> lower c -> is q c = false.
Proof. intros T L. apply is_not. intros ->. exact (T L). Qed.

Lemma char_lower e c s : lower c -> GetChar e (String c s) = Ok (Some s, String c "").
Proof.
  intros L. destruct (lower_plain c L) as (_ & A & K). unfold GetChar. rewrite K, A. destruct (is_utf8 e); reflexivity.
Qed.
Lemma chars_lower e q : tag1 q -> forall s n acc r v, each lower s ->
  read_chars n e (String q "") (Some s) acc = Ok (Some r, v) -> r = "".
Proof.
  intros T. induction s as [|c s IH]; intros n acc r v L H; destruct n; cbn [read_chars] in H;
    try (injection H as <- _; reflexivity); rewrite str_eq1, (tag1_no q c T (proj1 L)) in H; [discriminate H|].
  rewrite (char_lower e c s (proj1 L)) in H. exact (IH _ _ _ _ (proj2 L) H).
Qed.
Lemma words_lower e q : tag1 q -> forall s n ws acc r v, each lower s ->
  read_words n e (String q "") ws (Some s) acc = Ok (Some r, v) -> r = "".
Proof.
  intros T. induction s as [|c s IH]; intros n ws acc r v L H; destruct n; cbn [read_words] in H;
    try (injection H as <- _; reflexivity); rewrite str_eq1, (tag1_no q c T (proj1 L)) in H; [discriminate H|].
  rewrite (proj1 (lower_plain c (proj1 L))), (char_lower e c s (proj1 L)) in H. exact (IH _ _ _ _ _ (proj2 L) H).
Qed.

Lemma chars_ext t e q : tag1 q -> forall n n' s acc r v, n <= n' ->
  read_chars n e (String q "") (Some s) acc = Ok (Some r, v) -> r <> "" ->
  read_chars n' e (String q "") (Some (s ++ t)) acc = Ok (Some (r ++ t), v).
Proof.
  intros T. induction n as [|n IH]; intros n' s acc r v Hn H NE;
    (destruct s as [|c s]; [cbn in H; injection H as <- _; contradiction NE; reflexivity|]).
  - cbn [read_chars] in H. rewrite str_eq1 in H. destruct (is q c) eqn:E; [|discriminate H]. injection H as <- <-.
    destruct n'; cbn [append read_chars]; rewrite str_eq1, E; reflexivity.
  - destruct n' as [|n']; [lia|]. cbn [append read_chars] in *. rewrite str_eq1 in *. destruct (is q c) eqn:E.
    + injection H as <- <-. reflexivity.
    + destruct (GetChar e (String c s)) as [[p w]| | |] eqn:G; cbn [rbind fst snd] in H; try discriminate H.
      destruct p as [s'|]; [|destruct n; discriminate H]. destruct (char_ext t e c s s' w G) as [G'|L].
      * rewrite G'. cbn [rbind fst snd]. apply IH with (r := r) (v := v); [lia|exact H|exact NE].
      * contradiction NE. exact (chars_lower e q T _ _ _ _ _ L H).
Qed.
Lemma words_ext t e q : tag1 q -> forall n n' s ws acc r v, n <= n' ->
  read_words n e (String q "") ws (Some s) acc = Ok (Some r, v) -> r <> "" ->
  read_words n' e (String q "") ws (Some (s ++ t)) acc = Ok (Some (r ++ t), v).
Proof.
  intros T. induction n as [|n IH]; intros n' s ws acc r v Hn H NE;
    (destruct s as [|c s]; [cbn in H; injection H as <- _; contradiction NE; reflexivity|]).
  - cbn [read_words] in H. rewrite str_eq1 in H. destruct (is q c) eqn:E; [|discriminate H]. injection H as <- <-.
    destruct n'; cbn [append read_words]; rewrite str_eq1, E; reflexivity.
  - destruct n' as [|n']; [lia|]. cbn [append read_words] in *. rewrite str_eq1 in *. destruct (is q c) eqn:E.
    + injection H as <- <-. reflexivity.
    + destruct (is_space c); [apply IH; [lia|exact H|exact NE]|].
      destruct (GetChar e (String c s)) as [[p w]| | |] eqn:G; cbn [rbind fst snd] in H; try discriminate H.
      destruct p as [s'|]; [|destruct n; discriminate H]. destruct (char_ext t e c s s' w G) as [G'|L].
      * rewrite G'. cbn [rbind fst snd]. apply IH with (r := r) (v := v); [lia|exact H|exact NE].
      * contradiction NE. exact (words_lower e q T _ _ _ _ _ _ L H).
Qed.

Lemma past_some q p r : past (String q "") p = Some r -> r <> "" /\ exists c, p = Some (String c r).
Proof.
  destruct p as [[|c s]|]; cbn [past]; try discriminate. cbn [String.length sdrop]. destruct s as [|d s]; [discriminate|].
  intros H. injection H as <-. split; [discriminate|]. exists c. reflexivity.
Qed.
Lemma past_of q c r : r <> "" -> past (String q "") (Some (String c r)) = Some r.
Proof. cbn [past String.length sdrop]. destruct r; [intros []; reflexivity|reflexivity]. Qed.
Lemma app_ne r t : r <> "" -> r ++ t <> "".
Proof. destruct r; [intros []; reflexivity|discriminate]. Qed.

Lemma raw_ext t e q s r v : tag1 q -> ReadText e false (String q "") (Some s) = Ok (Some r, v) ->
  ReadText e false (String q "") (Some (s ++ t)) = Ok (Some (r ++ t), v).
Proof.
  intros T. unfold ReadText. cbn [ptr_len]. destruct (read_chars (slen s) e _ (Some s) "") as [[p w]| | |] eqn:E; cbn [rbind fst snd]; try discriminate.
  intros H. injection H as H <-. apply past_some in H as (NE & c & ->).
  rewrite (chars_ext t e q T (slen s) (slen (s ++ t)) _ _ _ _ ltac:(rewrite app_length_s; lia) E) by discriminate.
  cbn [rbind fst snd append]. rewrite past_of by (apply app_ne, NE). reflexivity.
Qed.

Lemma half_cut e s : half e s -> GetChar e s = UB OutOfBounds.
Proof. intros [U H]. destruct e; [discriminate U| |discriminate U]. destruct H as [->|[->| ->]]; reflexivity. Qed.
Lemma half_head e s : half e s -> exists s', s = String LEAD_0 s'.
Proof. intros [_ [->|[->| ->]]]; eexists; reflexivity. Qed.

Lemma trim_ext t e s r v : ReadText e true "<" (Some s) = Ok (Some r, v) ->
  ReadText e true "<" (Some (s ++ t)) = Ok (Some (r ++ t), v).
Proof.
  unfold ReadText. destruct (SkipWhiteSpace e (Some s)) as [q|] eqn:SK.
  2: { cbn. discriminate. }
  cbn [ptr_len]. destruct (read_words (slen q) e _ false (Some q) "") as [[p w]| | |] eqn:E; cbn [rbind fst snd]; try discriminate.
  intros H. injection H as H <-. apply past_some in H as (NE & c & ->).
  assert (NQ : q <> "") by (intros ->; cbn in E; discriminate E).
  destruct (skip_ext_p e t s q SK NQ) as [SK'|HF].
  - rewrite SK'. cbn [ptr_len].
    rewrite (words_ext t e "<" ltac:(intros [[H1 H2]|H1]; [vm_compute in H1; contradiction|discriminate H1]) (slen q) (slen (q ++ t)) _ _ _ _ _
               ltac:(rewrite app_length_s; lia) E) by discriminate.
    cbn [rbind fst snd append]. rewrite past_of by (apply app_ne, NE). reflexivity.
  - pose proof (half_cut e q HF) as G. destruct (half_head e q HF) as (q' & ->). cbn [String.length read_words] in E.
    rewrite str_eq1 in E. change (is "<" LEAD_0) with false in E. change (is_space LEAD_0) with false in E. cbn iota in E.
    rewrite G in E. discriminate E.
Qed.

(** ** attributes *)
Definition carries {A} (t : string) (m m' : M pst (ptr * A)) : Prop :=
  forall st st1 r a, m st = (st1, Ok (Some r, a)) -> r <> "" -> runs m' (Some (r ++ t), a).

Lemma fails_error {A} d e p (a : A) st st1 r b : (error_if d e p ;;; ret ((None : ptr), a)) st = (st1, Ok (Some r, b)) -> False.
Proof. unfold bind. destruct (error_if d e p st) as [s [[]| | |]]; discriminate. Qed.
Lemma fails_set {A} e p (a : A) st st1 r b : (SetError e p ;;; ret ((None : ptr), a)) st = (st1, Ok (Some r, b)) -> False.
Proof. unfold bind. destruct (SetError e p st) as [s [[]| | |]]; discriminate. Qed.
Lemma fails_set1 e p st st1 r : (SetError e p ;;; ret (None : ptr)) st = (st1, Ok (Some r)) -> False.
Proof. unfold bind. destruct (SetError e p st) as [s [[]| | |]]; discriminate. Qed.
Lemma stamp_then {A} e q (m : M pst A) st st1 a : (Stamp e q ;;; m) st = (st1, Ok a) -> exists st2, m st2 = (st1, Ok a).
Proof. unfold bind. destruct (Stamp e q st) as [s [[]| | |]]; try discriminate. intros H. exists s. exact H. Qed.
Lemma runs_stamped {A} e q (m : M pst A) a : runs m a -> runs (Stamp e q ;;; m) a.
Proof. intros H. eapply runs_bind; [apply runs_stamp|exact H]. Qed.
Lemma lift_then {A B} (x : res A) (f : A -> M pst B) st st1 b : (r <- lift x ;; f r) st = (st1, Ok b) ->
  exists a, x = Ok a /\ f a st = (st1, Ok b).
Proof. unfold bind, lift. destruct x as [a| | |]; try discriminate. intros H. exists a. split; [reflexivity|exact H]. Qed.
Lemma bind_then {A B} (m : M pst A) (f : A -> M pst B) st st1 b : (r <- m ;; f r) st = (st1, Ok b) ->
  exists st2 a, m st = (st2, Ok a) /\ f a st2 = (st1, Ok b).
Proof. unfold bind. destruct (m st) as [s2 [a| | |]]; try discriminate. intros H. exists s2, a. split; [reflexivity|exact H]. Qed.

Lemma bare_ext t : forall s acc v r, bare_value s acc = inl (v, r) -> r <> "" -> bare_value (s ++ t) acc = inl (v, r ++ t).
Proof.
  induction s as [|c s IH]; intros acc v r E NE; cbn [bare_value append] in *.
  - injection E as _ <-. contradiction NE. reflexivity.
  - destruct (is_space c || is "/" c || is ">" c); [injection E as <- <-; reflexivity|].
    destruct (is "'" c || is """" c); [discriminate E|]. exact (IH _ _ _ E NE).
Qed.
Lemma half_bare e s v r : half e s -> bare_value s "" = inl (v, r) -> r = "".
Proof. intros [_ [->|[->| ->]]]; cbn; intros H; injection H as _ <-; reflexivity. Qed.
Lemma half_name e s : half e s -> exists n, ReadName (Some s) = (n, Some "").
Proof. intros [_ [->|[->| ->]]]; eexists; reflexivity. Qed.

Lemma tag_dq : tag1 """".
Proof. intros [[H _]|H]; [vm_compute in H; contradiction|discriminate H]. Qed.
Lemma tag_sq : tag1 "'".
Proof. intros [[H _]|H]; [vm_compute in H; contradiction|discriminate H]. Qed.

Lemma attr_carries t d e s : carries t (attr_parse d e (Some s)) (attr_parse d e (Some (s ++ t))).
Proof.
  intros st st1 r a H NE. unfold attr_parse in *.
  destruct (SkipWhiteSpace e (Some s)) as [q|] eqn:S1; [|discriminate H].
  destruct q as [|c q]; [discriminate H|]. apply stamp_then in H as (st2 & H).
  destruct (skip_ext_p e t s _ S1 ltac:(discriminate)) as [S1'|HF].
  2: { destruct (half_name e _ HF) as (n & ->) in H. destruct (fails_error _ _ _ _ _ _ _ _ H). }
  rewrite S1'. cbn [append]. apply runs_stamped.
  destruct (ReadName (Some (String c q))) as [n [q1|]] eqn:RN; [|destruct (fails_error _ _ _ _ _ _ _ _ H)].
  destruct q1 as [|x q1]; [destruct (fails_error _ _ _ _ _ _ _ _ H)|].
  pose proof (name_ext t _ _ _ RN ltac:(discriminate)) as RN'. cbn [append] in RN'. rewrite RN'.
  destruct (SkipWhiteSpace e (Some (String x q1))) as [q2|] eqn:S2; [|destruct (fails_error _ _ _ _ _ _ _ _ H)].
  destruct q2 as [|eq q2]; [destruct (fails_error _ _ _ _ _ _ _ _ H)|].
  destruct (is "=" eq) eqn:EQ; [|destruct (fails_error _ _ _ _ _ _ _ _ H)].
  destruct (skip_ext_p e t _ _ S2 ltac:(discriminate)) as [S2'|HF].
  2: { destruct (half_head e _ HF) as (z & Z). injection Z as -> _. discriminate EQ. }
  cbn [append] in S2'. rewrite S2', EQ.
  destruct (SkipWhiteSpace e (Some q2)) as [q3|] eqn:S3; [|destruct (fails_error _ _ _ _ _ _ _ _ H)].
  destruct q3 as [|y q3]; [destruct (fails_error _ _ _ _ _ _ _ _ H)|].
  destruct (skip_ext_p e t _ _ S3 ltac:(discriminate)) as [S3'|HF].
  - cbn [append] in S3'. rewrite S3'. destruct (is "'" y).
    { apply lift_then in H as ([p w] & E & H). cbn [fst snd] in H. injection H as _ -> <-.
      eapply runs_bind; [apply runs_lift, (raw_ext t e _ _ _ _ tag_sq E)|]. apply runs_ret. }
    destruct (is """" y).
    { apply lift_then in H as ([p w] & E & H). cbn [fst snd] in H. injection H as _ -> <-.
      eapply runs_bind; [apply runs_lift, (raw_ext t e _ _ _ _ tag_dq E)|]. apply runs_ret. }
    destruct (bare_value (String y q3) "") as [[v rest]|b] eqn:B; [|destruct (fails_error _ _ _ _ _ _ _ _ H)].
    injection H as _ -> <-. rewrite (bare_ext t _ _ _ _ B NE : bare_value (String y (q3 ++ t)) "" = _). apply runs_ret.
  - destruct (half_head e _ HF) as (z & Z). injection Z as -> ->.
    change (is "'" LEAD_0) with false in H. change (is """" LEAD_0) with false in H. cbn iota in H.
    destruct (bare_value (String LEAD_0 z) "") as [[v rest]|b] eqn:B; [|destruct (fails_error _ _ _ _ _ _ _ _ H)].
    injection H as _ -> <-. contradiction NE. exact (half_bare e _ _ _ HF B).
Qed.

(** ** other nodes *)
Definition carries1 (t : string) (m m' : M pst ptr) : Prop :=
  forall st st1 r, m st = (st1, Ok (Some r)) -> r <> "" -> runs m' (Some (r ++ t)).

Lemma gt_ext t : forall s, to_gt s <> "" -> to_gt (s ++ t) = to_gt s ++ t.
Proof.
  induction s as [|c s IH]; cbn [to_gt append]; [intros []; reflexivity|]. destruct (is ">" c); [reflexivity|exact IH].
Qed.
Lemma find_ext w t : w <> "" -> forall s, find_tag w s <> "" -> find_tag w (s ++ t) = find_tag w s ++ t /\ slen w <= slen (find_tag w s) /\ slen (find_tag w s) <= slen s /\ prefix w (find_tag w s) = true.
Proof.
  intros NW. induction s as [|c s IH]; cbn [find_tag append]; [intros []; reflexivity|].
  destruct (prefix w (String c s)) eqn:E.
  - intros _. pose proof (prefix_ext w t _ E) as X. cbn [append] in X. rewrite X. split; [reflexivity|].
    split; [apply prefix_len, E|]. split; [lia|exact E].
  - intros NE. destruct (IH NE) as (A & B & C & D).
    pose proof (prefix_long w t (String c s) ltac:(cbn; lia)) as X. cbn [append] in X. rewrite X, E.
    split; [exact A|]. split; [exact B|]. split; [cbn; lia|exact D].
Qed.
Lemma lt_solid s : solid (String "<" s).
Proof. split; reflexivity. Qed.

Lemma unknown_carries t e s : carries1 t (unknown_parse e (Some (String "<" s))) (unknown_parse e (Some (String "<" (s ++ t)))).
Proof.
  intros st st1 r H NE. unfold unknown_parse in *. rewrite skip_solid_p in * by apply lt_solid.
  apply stamp_then in H as (st2 & H). apply runs_stamped. change (is "<" "<") with true in *. cbn iota in *.
  pose proof (gt_ext t s) as X. destruct (to_gt s) as [|c f]; [injection H as _ <-; contradiction NE; reflexivity|].
  rewrite X by discriminate. cbn [append]. injection H as _ <-. apply runs_ret.
Qed.
Lemma str_prefix w c s : StringEqual w (String c s) = prefix w (String c s).
Proof. reflexivity. Qed.
Lemma comment_carries t e s : carries1 t (comment_parse e (Some (String "<" s))) (comment_parse e (Some (String "<" (s ++ t)))).
Proof.
  intros st st1 r H NE. unfold comment_parse in *. rewrite skip_solid_p in * by apply lt_solid.
  apply stamp_then in H as (st2 & H). apply runs_stamped. rewrite str_prefix in *.
  change (String "<" (s ++ t)) with (String "<" s ++ t).
  destruct (prefix "<!--" (String "<" s)) eqn:P; [|destruct (fails_set1 _ _ _ _ _ H)].
  rewrite (prefix_ext _ t _ P). destruct (sdrop 4 (String "<" s)) as [q|] eqn:D; [|destruct (fails_set1 _ _ _ _ _ H)].
  rewrite (sdrop_ext t _ _ _ D). pose proof (find_ext "-->" t ltac:(discriminate) q) as X.
  destruct (find_tag "-->" q) as [|c f]; [injection H as _ <-; contradiction NE; reflexivity|].
  destruct (X ltac:(discriminate)) as (-> & _). cbn [append].
  assert (D2 : sdrop 3 (String c f) = Some r) by (injection H as _ H; exact H).
  change (String c (f ++ t)) with (String c f ++ t). rewrite (sdrop_ext t _ _ _ D2). apply runs_ret.
Qed.
Lemma cdata_carries t e s : carries1 t (cdata_parse e (Some (String "<" s))) (cdata_parse e (Some (String "<" (s ++ t)))).
Proof.
  intros st st1 r H NE. unfold cdata_parse in *.
  apply stamp_then in H as (st2 & H). apply runs_stamped. rewrite str_prefix in *.
  change (String "<" (s ++ t)) with (String "<" s ++ t).
  destruct (prefix "<![CDATA[" (String "<" s)) eqn:P; [|destruct (fails_set1 _ _ _ _ _ H)].
  rewrite (prefix_ext _ t _ P). destruct (sdrop 9 (String "<" s)) as [q|] eqn:D; [|destruct (fails_set1 _ _ _ _ _ H)].
  rewrite (sdrop_ext t _ _ _ D). pose proof (find_ext "]]>" t ltac:(discriminate) q) as X.
  apply lift_then in H as ([p v] & E & H). cbn [fst] in H. injection H as _ ->.
  destruct (find_tag "]]>" q) as [|c f]; [discriminate E|]. destruct (X ltac:(discriminate)) as (-> & L & _ & Pf).
  unfold ReadText in *. cbn [append ptr_len String.length read_chars] in *. rewrite !str_prefix in *. rewrite Pf in E.
  pose proof (prefix_ext _ t _ Pf) as Pf'. cbn [append] in Pf'. rewrite Pf'. cbn [rbind fst snd] in *.
  eapply runs_bind; [apply runs_lift; reflexivity|]. cbn [fst]. injection E as E _. cbn [past] in *.
  change (match sdrop (slen "]]>") (String c f) with Some (String _ _ as r) => Some r | _ => None end = Some r) in E.
  destruct (sdrop (slen "]]>") (String c f)) as [z|] eqn:D2; [|discriminate E].
  pose proof (sdrop_ext t _ _ _ D2) as D3. cbn [append] in D3. rewrite D3.
  destruct z as [|y z]; [discriminate E|]. injection E as <-. cbn [append]. apply runs_ret.
Qed.
Lemma text_carries t e s : carries t (text_parse e s) (text_parse e (s ++ t)).
Proof.
  intros st st1 r a H NE. unfold text_parse in *. apply stamp_then in H as (st2 & H). apply runs_stamped.
  apply lift_then in H as ([p v] & E & H). cbn [fst snd] in H. injection H as _ H <-.
  destruct p as [s'|]; [|discriminate H]. injection H as <-.
  eapply runs_bind; [apply runs_lift, (trim_ext t e _ _ _ E)|]. apply runs_ret.
Qed.

(** ** declarations *)
Definition wordy (s : string) : Prop := each (fun c => is_letter c = true) s.
Lemma letter_lower a c : byte_in 97 122 a -> is (to_lower a) (to_lower c) = true -> is_letter c = true.
Proof.
  intros B H. apply is_iff in H. unfold to_lower in H. unfold byte_in in B.
  rewrite (between_false 65 90 a) in H by lia. unfold is_letter. destruct (between 65 90 c) eqn:E; [reflexivity|].
  subst c. cbn [orb]. apply between_true. lia.
Qed.
Lemma prefix_ci_ext w t : forall s, prefix_ci w s = true -> prefix_ci w (s ++ t) = true.
Proof.
  induction w as [|a w IH]; intros s H; [reflexivity|]. destruct s as [|c s]; [discriminate H|].
  cbn [append prefix_ci] in *. apply andb_true_iff in H as [H1 H2]. rewrite H1, (IH s H2). reflexivity.
Qed.
Lemma prefix_ci_cut w t : each (byte_in 97 122) w -> forall s, prefix_ci w s = false -> prefix_ci w (s ++ t) = true -> wordy s.
Proof.
  induction w as [|a w IH]; intros L s H1 H2; [destruct s; discriminate H1|]. destruct s as [|c s]; [exact I|].
  cbn [append prefix_ci] in *. apply andb_true_iff in H2 as [H2 H3]. rewrite H2 in H1. destruct L as [L1 L2].
  split; [exact (letter_lower a c L1 H2)|exact (IH L2 s H1 H3)].
Qed.
Lemma letter_name c : is_letter c = true -> name_start c = true /\ name_char c = true /\ is_space c = false /\ is ">" c = false /\ is LEAD_0 c = false.
Proof.
  intros H. unfold name_start, name_char, is_alpha, is_alnum. rewrite H. cbn [orb].
  split; [reflexivity|]. split; [reflexivity|]. unfold is_letter in H. apply orb_true_iff in H. rewrite !between_iff in H.
  split; [apply not_space; lia|]. split; apply is_code; cbn; lia.
Qed.
Lemma wordy_span s : wordy s -> name_span s = (s, "").
Proof.
  induction s as [|c s IH]; [reflexivity|]. intros [H1 H2]. cbn [name_span].
  rewrite (proj1 (proj2 (letter_name c H1))), (IH H2). reflexivity.
Qed.
Lemma wordy_word s : wordy s -> skip_word s = "".
Proof.
  induction s as [|c s IH]; [reflexivity|]. intros [H1 H2]. destruct (letter_name c H1) as (_ & _ & A & B & _).
  cbn [skip_word]. rewrite A, B. exact (IH H2).
Qed.
Lemma wordy_attr d e s st st1 r a : wordy s -> attr_parse d e (Some s) st = (st1, Ok (Some r, a)) -> False.
Proof.
  destruct s as [|c s]; [intros _ H; discriminate H|]. intros W H. unfold attr_parse in H.
  destruct W as [H1 H2]. destruct (letter_name c H1) as (S1 & S2 & A & _ & B).
  rewrite skip_solid_p in H by (split; assumption). apply stamp_then in H as (st2 & H).
  unfold ReadName in H. rewrite S1, (wordy_span (String c s) (conj H1 H2)) in H. cbv zeta in H. cbn [fst snd] in H.
  exact (fails_error _ _ _ _ _ _ _ _ H).
Qed.

Lemma decl_end n e enc st st1 r b : decl_loop n e enc (Some "") st = (st1, Ok (Some r, b)) -> False.
Proof. destruct n; discriminate. Qed.
Lemma decl_null n e enc st st1 r b : decl_loop n e enc None st = (st1, Ok (Some r, b)) -> False.
Proof. destruct n; discriminate. Qed.

Lemma decl_loop_carries t e : forall n n' enc s, n <= n' ->
  carries t (decl_loop n e enc (Some s)) (decl_loop n' e enc (Some (s ++ t))).
Proof.
  induction n as [|n IH]; intros n' enc s Hn st st1 r b H NE;
    (destruct s as [|c s]; [destruct (decl_end _ _ _ _ _ _ _ H)|]).
  - cbn [decl_loop] in H. destruct (is ">" c) eqn:E; [|discriminate H]. injection H as _ <- <-.
    destruct n'; cbn [append decl_loop]; rewrite E; apply runs_ret.
  - destruct n' as [|n']; [lia|]. cbn [append decl_loop] in *. destruct (is ">" c) eqn:E.
    { injection H as _ <- <-. apply runs_ret. }
    set (q := skip_spaces e (String c s)) in *.
    assert (SK : SkipWhiteSpace e (Some (String c s)) = Some q) by reflexivity.
    rewrite SK in H. cbv zeta in *. clearbody q.
    (** whichever branch is taken, a word that the end cuts off leads nowhere *)
    assert (DEAD : wordy q \/ half e q -> False).
    { intros W.
      assert (At : forall st2 r' a, attr_parse false e (Some q) st = (st2, Ok (Some r', a)) -> False).
      { destruct W as [W|W]; [intros; eapply wordy_attr; eassumption|]. intros st2 r' a Ha. unfold attr_parse in Ha.
        assert (SQ : SkipWhiteSpace e (Some q) = Some q).
        { destruct W as [U [->|[->| ->]]]; destruct e; try discriminate U; reflexivity. }
        rewrite SQ in Ha. destruct (half_name e _ W) as (nm & RN). rewrite RN in Ha. destruct q as [|y q]; [discriminate Ha|].
        apply stamp_then in Ha as (st3 & Ha). exact (fails_error _ _ _ _ _ _ _ _ Ha). }
      assert (SW : skip_word q = "").
      { destruct W as [W|[_ [->|[->| ->]]]]; [apply wordy_word, W|reflexivity ..]. }
      destruct (StringEqual_ci "version" (Some q)).
      { apply bind_then in H as (st2 & [[r'|] a] & Ha & H); [exact (At _ _ _ Ha)|exact (decl_null _ _ _ _ _ _ _ H)]. }
      destruct (StringEqual_ci "encoding" (Some q)).
      { apply bind_then in H as (st2 & [[r'|] a] & Ha & H); [exact (At _ _ _ Ha)|exact (decl_null _ _ _ _ _ _ _ H)]. }
      destruct (StringEqual_ci "standalone" (Some q)).
      { apply bind_then in H as (st2 & [[r'|] a] & Ha & H); [exact (At _ _ _ Ha)|exact (decl_null _ _ _ _ _ _ _ H)]. }
      cbn [option_map] in H. rewrite SW in H. exact (decl_end _ _ _ _ _ _ _ H). }
    destruct q as [|y q]; [destruct (DEAD (or_introl I))|].
    destruct (skip_ext_p e t _ _ SK ltac:(discriminate)) as [SK'|HF]; [|destruct (DEAD (or_intror HF))].
    cbn [append] in SK'. rewrite SK'.
    assert (SE : forall w, each (byte_in 97 122) w -> StringEqual_ci w (Some (String y (q ++ t))) = StringEqual_ci w (Some (String y q))).
    { intros w L. cbn [StringEqual_ci]. change (String y (q ++ t)) with (String y q ++ t).
      destruct (prefix_ci w (String y q)) eqn:P1; [apply prefix_ci_ext, P1|].
      destruct (prefix_ci w (String y q ++ t)) eqn:P2; [|reflexivity].
      destruct (DEAD (or_introl (prefix_ci_cut w t L _ P1 P2))). }
    rewrite !SE by (cbn; repeat split; vm_compute; discriminate).
    assert (NEXT : forall f : ptr * attr -> string,
              (r0 <- attr_parse false e (Some (String y q)) ;; decl_loop n e (f (None, snd r0)) (fst r0)) st = (st1, Ok (Some r, b)) ->
              runs (r0 <- attr_parse false e (Some (String y (q ++ t))) ;; decl_loop n' e (f (None, snd r0)) (fst r0)) (Some (r ++ t), b)).
    { intros f Hf. apply bind_then in Hf as (st2 & [p a] & Ha & Hf). cbn [fst snd] in Hf.
      destruct p as [[|z p]|]; [destruct (decl_end _ _ _ _ _ _ _ Hf)| |destruct (decl_null _ _ _ _ _ _ _ Hf)].
      eapply runs_bind; [apply (attr_carries t false e (String y q) _ _ _ _ Ha); discriminate|]. cbn [fst snd].
      apply (IH n' _ (String z p) ltac:(lia) _ _ _ _ Hf NE). }
    destruct (StringEqual_ci "version" (Some (String y q))); [exact (NEXT (fun _ => enc) H)|].
    destruct (StringEqual_ci "encoding" (Some (String y q))); [exact (NEXT (fun r => c_str (a_value (snd r))) H)|].
    destruct (StringEqual_ci "standalone" (Some (String y q))); [exact (NEXT (fun _ => enc) H)|].
    cbn [option_map] in *. destruct (skip_word (String y q)) as [|z w] eqn:SW; [destruct (decl_end _ _ _ _ _ _ _ H)|].
    assert (SWX : forall s, skip_word s <> "" -> skip_word (s ++ t) = skip_word s ++ t).
    { clear. induction s as [|c s IHs]; cbn [skip_word append]; [intros []; reflexivity|].
      destruct (is ">" c || is_space c); [reflexivity|exact IHs]. }
    specialize (SWX (String y q)). rewrite SW in SWX. cbn [append] in SWX. rewrite SWX by discriminate.
    apply (IH n' _ (String z w) ltac:(lia) _ _ _ _ H NE).
Qed.

Lemma decl_carries t e s : carries t (decl_parse e (Some (String "<" s))) (decl_parse e (Some (String "<" (s ++ t)))).
Proof.
  intros st st1 r b H NE. unfold decl_parse in *. rewrite skip_solid_p in * by apply lt_solid.
  destruct (prefix_ci "<?xml" (String "<" s)) eqn:P; [|destruct (fails_set _ _ _ _ _ _ _ H)].
  pose proof (prefix_ci_ext _ t _ P) as P'. cbn [append] in P'. rewrite P'.
  apply stamp_then in H as (st2 & H). apply runs_stamped. cbv zeta in *.
  destruct (sdrop 5 (String "<" s)) as [q|] eqn:D; [|destruct (decl_null _ _ _ _ _ _ _ H)].
  pose proof (sdrop_ext t _ _ _ D) as D'. cbn [append] in D'. rewrite D'. cbn [ptr_len] in *.
  apply (decl_loop_carries t e (slen q) (slen (q ++ t)) "" q ltac:(rewrite app_length_s; lia) _ _ _ _ H NE).
Qed.

(** ** which node it is *)
(** the beginning of a mark-up opener that the end of the text cuts off *)
Definition opener (e : encoding) (s : string) : Prop :=
  to_gt s = "" /\ Identify e (Some (String "<" s)) = Some KUnknown /\ StringEqual "</" (String "<" s) = false.

Lemma identify_lt e s : Identify e (Some (String "<" s)) =
  if prefix_ci "<?xml" (String "<" s) then Some KDeclaration
  else if prefix "<!--" (String "<" s) then Some KComment
  else if prefix "<![CDATA[" (String "<" s) then Some KCData
  else if prefix "<!" (String "<" s) then Some KUnknown
  else match s with String d _ => if name_start d then Some KElement else Some KUnknown | "" => Some KUnknown end.
Proof. unfold Identify. rewrite skip_solid_p by apply lt_solid. reflexivity. Qed.

Lemma lower_is a c : between 65 90 a = false -> between 97 122 a = false -> is (to_lower a) (to_lower c) = true -> c = a.
Proof.
  intros A B H. apply is_iff in H. unfold to_lower in H. rewrite A in H. destruct (between 65 90 c) eqn:E; [|exact H].
  apply between_iff in E. subst a. unfold between, code, chr in B. rewrite N_ascii_embedding in B by lia.
  apply andb_false_iff in B. rewrite !N.leb_gt in B. lia.
Qed.

Lemma same_opener e t s :
  opener e s \/
  (StringEqual "</" (String "<" (s ++ t)) = StringEqual "</" (String "<" s) /\
   Identify e (Some (String "<" (s ++ t))) = Identify e (Some (String "<" s))).
Proof.
  assert (DEC : forall w, (forall a b, b <> "" -> w = String "<" a ++ b -> opener e a) ->
            opener e s \/ prefix w (String "<" s ++ t) = prefix w (String "<" s)).
  { intros w K. destruct (prefix w (String "<" s)) eqn:P1; [right; apply prefix_ext, P1|].
    destruct (prefix w (String "<" s ++ t)) eqn:P2; [|right; reflexivity]. left.
    destruct (prefix_cut w t _ P1 P2) as (x & Nx & Ex). exact (K s x Nx Ex). }
  assert (ENUM : forall w, In w ["</"; "<!--"; "<![CDATA["; "<!"] -> forall a b, b <> "" -> w = String "<" a ++ b -> opener e a).
  { intros w Iw a b Nb Ew.
    assert (Ia : In a [""; "!"; "!-"; "!["; "![C"; "![CD"; "![CDA"; "![CDAT"; "![CDATA"]).
    { destruct Iw as [<-|[<-|[<-|[<-|[]]]]]; cbn [append] in Ew; injection Ew as Ew;
        repeat (destruct a as [|? a]; [cbn; tauto|cbn [append] in Ew; injection Ew as <- Ew; try discriminate Ew]);
        destruct a; cbn [append] in Ew; subst; try contradiction; try discriminate Ew; cbn; tauto. }
    unfold opener. rewrite identify_lt.
    repeat (destruct Ia as [<-|Ia]; [repeat split; reflexivity|]). destruct Ia. }
  destruct (DEC "</" (ENUM "</" ltac:(cbn; tauto))) as [H|E1]; [left; exact H|].
  destruct (DEC "<!--" (ENUM "<!--" ltac:(cbn; tauto))) as [H|E2]; [left; exact H|].
  destruct (DEC "<![CDATA[" (ENUM "<![CDATA[" ltac:(cbn; tauto))) as [H|E3]; [left; exact H|].
  destruct (DEC "<!" (ENUM "<!" ltac:(cbn; tauto))) as [H|E4]; [left; exact H|].
  assert (D : opener e s \/ prefix_ci "<?xml" (String "<" s ++ t) = prefix_ci "<?xml" (String "<" s)).
  { destruct (prefix_ci "<?xml" (String "<" s)) eqn:P1; [right; apply prefix_ci_ext, P1|].
    destruct (prefix_ci "<?xml" (String "<" s ++ t)) eqn:P2; [|right; reflexivity]. left.
    cbn [append] in P2. change (prefix_ci "<?xml" (String "<" (s ++ t))) with (prefix_ci "?xml" (s ++ t)) in P2.
    change (prefix_ci "<?xml" (String "<" s)) with (prefix_ci "?xml" s) in P1.
    destruct s as [|c s]; [apply (ENUM "</" ltac:(cbn; tauto) "" "/"); [discriminate|reflexivity]|].
    cbn [append prefix_ci] in P1, P2. apply andb_true_iff in P2 as [P2 P3].
    pose proof (lower_is "?" c eq_refl eq_refl P2) as ->.
    rewrite P2 in P1. cbn [andb] in P1. change (prefix_ci "xml" s = false) in P1. change (prefix_ci "xml" (s ++ t) = true) in P3.
    assert (W : wordy s) by (apply (prefix_ci_cut "xml" t); [cbn; repeat split; vm_compute; discriminate|exact P1|exact P3]).
    unfold opener. rewrite identify_lt. split.
    - change (to_gt (String "?" s)) with (to_gt s). clear -W. induction s as [|c s IH]; [reflexivity|].
      destruct W as [W1 W2]. cbn [to_gt]. destruct (letter_name c W1) as (_ & _ & _ & -> & _). exact (IH W2).
    - split; [|reflexivity].
      assert (X : prefix_ci "<?xml" (String "<" (String "?" s)) = false) by exact P1. rewrite X. reflexivity. }
  destruct D as [H|E5]; [left; exact H|].
  destruct s as [|d s]; [left; apply (ENUM "</" ltac:(cbn; tauto) "" "/"); [discriminate|reflexivity]|].
  right. split; [exact E1|]. rewrite !identify_lt. cbn [append] in *. rewrite E2, E3, E4, E5. reflexivity.
Qed.

(** ** elements *)
Lemma value_null n e kids st st1 r b : read_value n e kids None st = (st1, Ok (Some r, b)) -> False.
Proof. destruct n; [discriminate|]. intros H. cbn [read_value SkipWhiteSpace] in H. exact (fails_set _ _ _ _ _ _ _ H). Qed.
Lemma value_end n e kids st st1 r b : read_value n e kids (Some "") st = (st1, Ok (Some r, b)) -> False.
Proof. destruct n; [discriminate|]. intros H. cbn [read_value SkipWhiteSpace] in H. exact (fails_set _ _ _ _ _ _ _ H). Qed.
Lemma half_attr d e s st st1 r a : half e s -> attr_parse d e (Some s) st = (st1, Ok (Some r, a)) -> False.
Proof.
  intros W Ha. unfold attr_parse in Ha.
  assert (SQ : SkipWhiteSpace e (Some s) = Some s).
  { destruct W as [U [->|[->| ->]]]; destruct e; try discriminate U; reflexivity. }
  rewrite SQ in Ha. destruct (half_name e _ W) as (nm & RN). rewrite RN in Ha. destruct s as [|y q]; [discriminate Ha|].
  apply stamp_then in Ha as (st3 & Ha). exact (fails_error _ _ _ _ _ _ _ _ Ha).
Qed.

(** an element that was read to its end is read in the same way if the text goes on *)
Definition carries_all {A} (t : string) (m m' : M pst (ptr * A)) : Prop :=
  forall st st1 r a, m st = (st1, Ok (Some r, a)) -> runs m' (Some (r ++ t), a).

Lemma elements_carry t e : forall n,
  (forall n' s, n <= n' -> carries_all t (elem_parse n e (Some s)) (elem_parse n' e (Some (s ++ t)))) /\
  (forall n' name attrs s, n <= n' -> carries_all t (attrs_loop n e name attrs s) (attrs_loop n' e name attrs (s ++ t))) /\
  (forall n' kids s, n <= n' -> carries t (read_value n e kids (Some s)) (read_value n' e kids (Some (s ++ t)))).
Proof.
  induction n as [|n (IHe & IHa & IHv)]; [split; [|split]; intros; intros ? ? ? ? X; discriminate X|].
  split; [|split].
  - intros n' s Hn st st1 r a H. destruct n' as [|n']; [lia|]. cbn [elem_parse] in *.
    destruct (SkipWhiteSpace e (Some s)) as [[|c q]|] eqn:S1; [destruct (fails_set _ _ _ _ _ _ _ H)| |destruct (fails_set _ _ _ _ _ _ _ H)].
    apply stamp_then in H as (st2 & H).
    destruct (is "<" c) eqn:LT; cbn [negb] in H; [|destruct (fails_set _ _ _ _ _ _ _ H)].
    destruct (skip_ext_p e t _ _ S1 ltac:(discriminate)) as [S1'|HF].
    2: { destruct (half_head e _ HF) as (z & Z). injection Z as -> _. discriminate LT. }
    cbn [append] in S1'. rewrite S1'. apply runs_stamped. rewrite LT. cbn [negb]. cbv zeta in *.
    destruct (SkipWhiteSpace e (Some q)) as [q1|] eqn:S2; [|destruct (fails_set _ _ _ _ _ _ _ H)].
    destruct (ReadName (Some q1)) as [nm [[|x q2]|]] eqn:RN; [destruct (fails_set _ _ _ _ _ _ _ H)| |destruct (fails_set _ _ _ _ _ _ _ H)].
    assert (NQ : q1 <> "") by (intros ->; discriminate RN).
    destruct (skip_ext_p e t _ _ S2 NQ) as [S2'|HF].
    2: { destruct (half_name e _ HF) as (z & Z). rewrite Z in RN. discriminate RN. }
    rewrite S2'. pose proof (name_ext t _ _ _ RN ltac:(discriminate)) as RN'. cbn [append] in RN'. rewrite RN'.
    exact (IHa n' nm [] (String x q2) ltac:(lia) _ _ _ _ H).
  - intros n' name attrs s Hn st st1 r a H. destruct n' as [|n']; [lia|]. cbn [attrs_loop] in *.
    set (tag := "</" ++ name) in *. clearbody tag.
    destruct (SkipWhiteSpace e (Some s)) as [[|c q]|] eqn:S1; [destruct (fails_set _ _ _ _ _ _ _ H)| |destruct (fails_set _ _ _ _ _ _ _ H)].
    destruct (skip_ext_p e t _ _ S1 ltac:(discriminate)) as [S1'|HF].
    2: { exfalso. pose proof HF as HF'. destruct (half_head e _ HF) as (z & Z). injection Z as -> ->.
         change (is "/" LEAD_0) with false in H. change (is ">" LEAD_0) with false in H. cbn iota in H.
         apply bind_then in H as (st2 & [p b] & Ha & H). cbn [fst snd] in H.
         destruct p as [p|]; [exact (half_attr _ _ _ _ _ _ _ HF' Ha)|exact (fails_set _ _ _ _ _ _ _ H)]. }
    cbn [append] in S1'. rewrite S1'. destruct (is "/" c).
    + destruct q as [|d q]; [destruct (fails_set _ _ _ _ _ _ _ H)|]. cbn [append].
      destruct (is ">" d); [|destruct (fails_set _ _ _ _ _ _ _ H)]. injection H as _ <- <-. apply runs_ret.
    + destruct (is ">" c).
      * apply bind_then in H as (st2 & [p kids] & Hv & H). cbn [fst snd] in H. cbv zeta in H.
        destruct p as [[|x u]|]; [destruct (fails_set _ _ _ _ _ _ _ H)| |destruct (fails_set _ _ _ _ _ _ _ H)].
        eapply runs_bind; [apply (IHv n' [] q ltac:(lia) _ _ _ _ Hv); discriminate|]. cbn [fst snd append]. cbv zeta.
        rewrite str_prefix in *. destruct (prefix tag (String x u)) eqn:P; [|destruct (fails_set _ _ _ _ _ _ _ H)].
        pose proof (prefix_ext _ t _ P) as P'. cbn [append] in P'. rewrite P'.
        destruct (sdrop _ (String x u)) as [w|] eqn:D; [|destruct (fails_set _ _ _ _ _ _ _ H)].
        pose proof (sdrop_ext t _ _ _ D) as D'. cbn [append] in D'. rewrite D'.
        destruct (SkipWhiteSpace e (Some w)) as [[|d w']|] eqn:S2; [destruct (fails_set _ _ _ _ _ _ _ H)| |destruct (fails_set _ _ _ _ _ _ _ H)].
        destruct (is ">" d) eqn:GT; [|destruct (fails_set _ _ _ _ _ _ _ H)].
        destruct (skip_ext_p e t _ _ S2 ltac:(discriminate)) as [S2'|HF].
        2: { destruct (half_head e _ HF) as (z & Z). injection Z as -> _. discriminate GT. }
        cbn [append] in S2'. rewrite S2', GT. injection H as _ <- <-. apply runs_ret.
      * apply bind_then in H as (st2 & [p b] & Ha & H). cbn [fst snd] in H.
        destruct p as [[|x s']|]; [destruct (fails_set _ _ _ _ _ _ _ H)| |destruct (fails_set _ _ _ _ _ _ _ H)].
        eapply runs_bind; [apply (attr_carries t true e (String c q) _ _ _ _ Ha); discriminate|]. cbn [fst snd append].
        destruct (known (a_name b) attrs); [destruct (fails_set _ _ _ _ _ _ _ H)|].
        exact (IHa n' name _ (String x s') ltac:(lia) _ _ _ _ H).
  - intros n' kids s Hn st st1 r a H NE. destruct n' as [|n']; [lia|]. cbn [read_value] in *.
    destruct (SkipWhiteSpace e (Some s)) as [[|c q]|] eqn:S1.
    { injection H as _ <- _. contradiction NE. reflexivity. }
    2: { destruct (fails_set _ _ _ _ _ _ _ H). }
    destruct (is "<" c) eqn:LT; cbn [negb] in H.
    + apply is_iff in LT. subst c.
      destruct (skip_ext_p e t _ _ S1 ltac:(discriminate)) as [S1'|HF].
      2: { destruct (half_head e _ HF) as (z & Z). discriminate Z. }
      cbn [append] in S1'. rewrite S1'. change (negb (is "<" "<")) with false. cbn iota.
      assert (NEXT1 : forall (m m' : M pst ptr), carries1 t m m' ->
                (p <- m ;; read_value n e (kids ++ [XOther])%list p) st = (st1, Ok (Some r, a)) ->
                runs (p <- m' ;; read_value n' e (kids ++ [XOther])%list p) (Some (r ++ t), a)).
      { intros m m' C Hb. apply bind_then in Hb as (st2 & p & Hm & Hb).
        destruct p as [[|x p]|]; [destruct (value_end _ _ _ _ _ _ _ Hb)| |destruct (value_null _ _ _ _ _ _ _ Hb)].
        eapply runs_bind; [apply (C _ _ _ Hm); discriminate|]. exact (IHv n' _ (String x p) ltac:(lia) _ _ _ _ Hb NE). }
      destruct (same_opener e t q) as [(O1 & O2 & O3)|[E1 E2]].
      { exfalso. rewrite O3, O2 in H. apply bind_then in H as (st2 & p & Hm & H). unfold unknown_parse in Hm.
        rewrite skip_solid_p in Hm by apply lt_solid. apply stamp_then in Hm as (st3 & Hm).
        change (is "<" "<") with true in Hm. cbn iota in Hm. rewrite O1 in Hm. injection Hm as _ <-.
        exact (value_end _ _ _ _ _ _ _ H). }
      rewrite E1, E2. destruct (StringEqual "</" (String "<" q)); [injection H as _ <- <-; apply runs_ret|].
      destruct (Identify e (Some (String "<" q))) as [[]|]; [| | | | |discriminate H].
      * apply bind_then in H as (st2 & [p b] & Hm & H). cbn [fst snd] in H.
        destruct p as [[|x p]|]; [destruct (value_end _ _ _ _ _ _ _ H)| |destruct (value_null _ _ _ _ _ _ _ H)].
        eapply runs_bind; [apply (decl_carries t e q _ _ _ _ Hm); discriminate|]. exact (IHv n' _ (String x p) ltac:(lia) _ _ _ _ H NE).
      * exact (NEXT1 _ _ (comment_carries t e q) H).
      * exact (NEXT1 _ _ (cdata_carries t e q) H).
      * exact (NEXT1 _ _ (unknown_carries t e q) H).
      * apply bind_then in H as (st2 & [p b] & Hm & H). cbn [fst snd] in H.
        destruct p as [[|x p]|]; [destruct (value_end _ _ _ _ _ _ _ H)| |destruct (value_null _ _ _ _ _ _ _ H)].
        eapply runs_bind; [exact (IHe n' (String "<" q) ltac:(lia) _ _ _ _ Hm)|]. cbn [fst snd].
        exact (IHv n' _ (String x p) ltac:(lia) _ _ _ _ H NE).
    + apply bind_then in H as (st2 & [p b] & Hm & H). cbn [fst snd] in H.
      destruct p as [[|x p]|]; [destruct (value_end _ _ _ _ _ _ _ H)| |destruct (value_null _ _ _ _ _ _ _ H)].
      destruct (skip_ext_p e t _ _ S1 ltac:(discriminate)) as [S1'|HF].
      * cbn [append] in S1'. rewrite S1', LT. cbn [negb].
        eapply runs_bind; [apply (text_carries t e (String c q) _ _ _ _ Hm); discriminate|]. cbn [fst snd].
        exact (IHv n' _ (String x p) ltac:(lia) _ _ _ _ H NE).
      * exfalso. unfold text_parse in Hm. apply stamp_then in Hm as (st3 & Hm). apply lift_then in Hm as (y & E & _).
        assert (SQ : SkipWhiteSpace e (Some (String c q)) = Some (String c q)).
        { destruct HF as [U [->|[->| ->]]]; destruct e; try discriminate U; reflexivity. }
        unfold ReadText in E. rewrite SQ in E. pose proof (half_cut e _ HF) as G.
        destruct (half_head e _ HF) as (z & Z). injection Z as -> ->. cbn [ptr_len String.length read_words] in E.
        rewrite str_eq1 in E. change (is "<" LEAD_0) with false in E. change (is_space LEAD_0) with false in E. cbn iota in E.
        rewrite G in E. discriminate E.
Qed.
