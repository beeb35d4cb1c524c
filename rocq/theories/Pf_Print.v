(** What TinyXML prints spells the document that it prints. *)
From Coq Require Import String List Arith NArith Ascii Bool Lia.
From Verif Require Import Base Urdf TinyXml Print Spec_Xml Spec_Print Pf_Xml1 Pf_Xml2 Pf_Xml3 Pf_Xml4 Pf_Xml6.
Import ListNotations.
Local Open Scope string_scope.

Lemma no_reference_app a b : no_reference (a ++ b) -> no_reference b.
Proof. intros H x y ->. apply (H (a ++ x) y). rewrite <- app_assoc_s. reflexivity. Qed.
Lemma no_reference_start v : no_reference v -> prefix "&#x" v = false.
Proof.
  intros H. destruct (prefix "&#x" v) eqn:P; [|reflexivity]. exfalso. revert P H.
  assert (X : forall w s, prefix w s = true -> exists r, s = w ++ r).
  { induction w as [|a w IH]; intros s P; [exists s; reflexivity|]. destruct s as [|b s]; [discriminate P|]. cbn [prefix] in P.
    destruct (ascii_dec a b) as [-> | ]; [|discriminate P]. destruct (IH s P) as (r & ->). exists r. reflexivity. }
  intros P H. destruct (X _ _ P) as (r & E). exact (H "" r E).
Qed.

Definition special (c : ascii) : bool := is "&" c || is "<" c || is ">" c || is """" c || is "'" c || N.ltb (code c) 32.
Lemma encode_plain c : special c = false -> encode_char c = String c "".
Proof.
  unfold special, encode_char. intros H. repeat (apply orb_false_iff in H as [H ?]). rewrite H. 
  repeat match goal with K : _ = false |- _ => rewrite K; clear K end. reflexivity.
Qed.
Lemma plain_step c t : special c = false -> EncodeString false (String c t) = String c (EncodeString false t).
Proof.
  intros H. cbn [EncodeString]. replace (prefix "&#x" (String c t)) with false.
  - rewrite (encode_plain c H). reflexivity.
  - symmetry. cbn [prefix]. destruct (ascii_dec "&" c) as [<- | ]; [discriminate H|reflexivity].
Qed.
Lemma high_plain c : byte_in 128 255 c -> special c = false.
Proof.
  intros [H _]. unfold special.
  assert (L : N.ltb (code c) 32 = false) by (apply N.ltb_ge; unfold code; lia). rewrite L.
  assert (D : forall d, (N_of_ascii d < 128)%N -> is d c = false).
  { intros d B. destruct (is d c) eqn:E; [|reflexivity]. apply is_iff in E. subst d. lia. }
  rewrite !D by (vm_compute; reflexivity). reflexivity.
Qed.
Lemma hex2_control c : byte_in 1 31 c ->
  each hex_char (hex2 (code c)) /\ number 16 hex_value_of (hex2 (code c)) 0 = N_of_ascii c.
Proof.
  intros [B1 B2]. rewrite <- (ascii_N_embedding c) at 1 3. unfold code. remember (N_of_ascii c) as n eqn:E. clear E.
  assert (I : In n (map N.of_nat (seq 1 31))) by (apply in_map_iff; exists (N.to_nat n); split; [lia|apply in_seq; lia]).
  cbn [seq map] in I. repeat (destruct I as [<- | I]; [split; [cbn; unfold hex_char, digit, byte_in; vm_compute; repeat split; (left; split; discriminate) || (right; right; split; discriminate)|reflexivity]|]). destruct I.
Qed.

Lemma encode_spells (stop : ascii -> Prop) v :
  (forall c, stop c -> c = "&"%char \/ c = "<"%char \/ c = ">"%char \/ c = """"%char \/ c = "'"%char) ->
  utf8_text v -> no_reference v -> spells stop (EncodeString false v) v.
Proof.
  intros ST. induction 1 as [|u t U _ IH]; intros NR; [constructor|].
  specialize (IH (no_reference_app _ _ NR)). destruct U as [c B|a b A B|a b c A B C|a b c d A B C D].
  - cbn [append] in *. pose proof (no_reference_start _ NR) as P.
    change (EncodeString false (String c t)) with (if prefix "&#x" (String c t) then String c (EncodeString (negb (prefix ";" t)) t) else encode_char c ++ EncodeString false t).
    rewrite P. destruct (special c) eqn:S.
    2: { rewrite (encode_plain c S). apply (sp_char _ (String c "")); [constructor; exact B| |exact IH]. intros c' E. injection E as <-.
         split; [|intros ->; discriminate S]. intros K. destruct (ST c K) as [-> |[-> |[-> |[-> | -> ]]]]; discriminate S. }
    unfold encode_char.
    destruct (is "&" c) eqn:K1; [apply is_iff in K1; subst c; apply (sp_entity _ "&amp;" "&" _ _); [cbn; tauto|exact IH]|].
    destruct (is "<" c) eqn:K2; [apply is_iff in K2; subst c; apply (sp_entity _ "&lt;" "<" _ _); [cbn; tauto|exact IH]|].
    destruct (is ">" c) eqn:K3; [apply is_iff in K3; subst c; apply (sp_entity _ "&gt;" ">" _ _); [cbn; tauto|exact IH]|].
    destruct (is """" c) eqn:K4; [apply is_iff in K4; subst c; apply (sp_entity _ "&quot;" """" _ _); [cbn; tauto|exact IH]|].
    destruct (is "'" c) eqn:K5; [apply is_iff in K5; subst c; apply (sp_entity _ "&apos;" "'" _ _); [cbn; tauto|exact IH]|].
    destruct (N.ltb (code c) 32) eqn:K6; [|unfold special in S; rewrite K1, K2, K3, K4, K5, K6 in S; discriminate S].
    apply N.ltb_lt in K6. assert (B' : byte_in 1 31 c) by (unfold byte_in, code in *; lia). destruct (hex2_control c B') as [H1 H2].
    rewrite <- !app_assoc_s. apply sp_hex; [discriminate|exact H1|exact B|exact H2|exact IH].
  - cbn [append]. rewrite !plain_step by (apply high_plain; eapply high; [eassumption|vm_compute; discriminate]).
    apply (sp_char _ (String a (String b ""))); [constructor; assumption| |exact IH]. intros c' E; discriminate E.
  - cbn [append]. rewrite !plain_step by (apply high_plain; eapply high; [eassumption|vm_compute; discriminate]).
    apply (sp_char _ (String a (String b (String c "")))); [constructor; assumption| |exact IH]. intros c' E; discriminate E.
  - cbn [append]. rewrite !plain_step by (apply high_plain; eapply high; [eassumption|vm_compute; discriminate]).
    apply (sp_char _ (String a (String b (String c (String d ""))))); [constructor; assumption| |exact IH]. intros c' E; discriminate E.
Qed.

Lemma name_plain c : name_later c -> special c = false.
Proof.
  intros H.
  assert (X : ~ (special c = true /\ name_later c)); [|destruct (special c); tauto]. clear H. intros [S N]. unfold special in S.
  assert (Z : c = "&"%char \/ c = "<"%char \/ c = ">"%char \/ c = """"%char \/ c = "'"%char \/ (N_of_ascii c < 32)%N).
  { rewrite !orb_true_iff, !is_iff, N.ltb_lt in S. unfold code in S. tauto. }
  unfold name_later, letter, digit, byte_in in N.
  destruct Z as [-> |[-> |[-> |[-> |[-> | Z]]]]]; cbn in N; try (repeat destruct N as [N|N]; try discriminate N; lia).
  repeat destruct N as [N|N]; try lia; subst c; cbn in Z; lia.
Qed.
Lemma name_encodes n : xml_name n -> EncodeString false n = n.
Proof.
  intros N. assert (E : each name_later n).
  { destruct n as [|c n]; [destruct N|]. destruct N as [[L|L] T]; split; try exact T; [left; exact L|right; right; left; exact L]. }
  clear N. induction n as [|c n IH]; [reflexivity|]. destruct E as [C E]. rewrite plain_step by (apply name_plain, C). rewrite (IH E). reflexivity.
Qed.
Lemma print_attrs_text l : Forall (fun a => xml_name (fst a) /\ utf8_text (snd a) /\ no_reference (snd a)) l -> attrs_text (print_attrs l) l.
Proof.
  induction 1 as [|[n v] l (N & V & R) _ IH]; [constructor|]. unfold print_attrs. cbn [map]. rewrite concat_cons.
  unfold print_attr at 1. cbn [fst snd]. cbn [fst snd] in N, V, R. rewrite (name_encodes n N).
  set (q := if has_quote v then "'"%char else """"%char).
  replace (if has_quote v then "'" else """") with (String q "") by (unfold q; destruct (has_quote v); reflexivity).
  replace ((" " ++ n ++ "=" ++ String q "" ++ EncodeString false v ++ String q "") ++ String.concat "" (map (fun a => " " ++ print_attr a) l))
    with (" " ++ n ++ "" ++ "=" ++ "" ++ String q (EncodeString false v ++ String q (print_attrs l))).
  - apply at_cons; try assumption; try exact I; [split; [left; reflexivity|exact I]|discriminate| |].
    + unfold q. destruct (has_quote v); [right|left]; reflexivity.
    + apply encode_spells; [|exact V|exact R]. intros c <-. unfold q. destruct (has_quote v); tauto.
  - unfold print_attrs. rewrite <- !app_assoc_s. cbn [append]. try rewrite <- !app_assoc_s. reflexivity.
Qed.

Lemma indent_white d : white (indentation d).
Proof. induction d as [|d IH]; [exact I|]. cbn. unfold white_char. repeat split; try (left; reflexivity). exact IH. Qed.
Lemma newline_white : white newline.
Proof. split; [right; right; right; reflexivity|exact I]. Qed.

Lemma print_element_text : forall x, printable_tree x -> forall d, exists e, print_element d x = indentation d ++ e /\ element_text e x.
Proof.
  fix IH 1. intros [n l k|]; [|intros []]. intros (N & A & ND & K) d.
  assert (CT : forall w, white w -> content_text (String.concat "" (map (fun k => newline ++ print_element (S d) k) k) ++ w) k).
  { intros w W. clear N A ND. induction k as [|y k IHk].
    - cbn [map String.concat append]. rewrite <- (app_nil_s w). apply ct_white; [exact W|constructor].
    - destruct K as [Y K]. specialize (IHk K). cbn [map]. rewrite concat_cons. destruct (IH y Y (S d)) as (e & -> & E).
      rewrite <- !app_assoc_s. apply ct_white; [exact newline_white|]. apply ct_white; [exact (indent_white (S d))|]. apply ct_element; [exact E|exact IHk]. }
  destruct k as [|y k].
  - exists ("<" ++ n ++ print_attrs l ++ " " ++ "/>"). split; [reflexivity|].
    apply et_empty; [exact N|apply print_attrs_text, A|exact ND|split; [left; reflexivity|exact I]].
  - set (kids := y :: k) in *.
    exists ("<" ++ n ++ print_attrs l ++ "" ++ ">" ++ (String.concat "" (map (fun k => newline ++ print_element (S d) k) kids) ++ newline ++ indentation d) ++ "</" ++ n ++ "" ++ ">").
    split.
    + change (print_element d (XElem n l kids)) with (indentation d ++ "<" ++ n ++ print_attrs l ++ ">" ++
        String.concat "" (map (fun k => newline ++ print_element (S d) k) kids) ++ newline ++ indentation d ++ "</" ++ n ++ ">").
      rewrite <- !app_assoc_s. reflexivity.
    + apply et_full; [exact N|apply print_attrs_text, A|exact ND|exact I| |exact I]. apply CT.
      apply each_app. split; [exact newline_white|apply indent_white].
Qed.
Lemma stream_element_text : forall x, printable_tree x -> element_text (stream_element x) x.
Proof.
  fix IH 1. intros [n l k|]; [|intros []]. intros (N & A & ND & K).
  assert (CT : content_text (String.concat "" (map stream_element k)) k).
  { clear N A ND. induction k as [|y k IHk]; [constructor|]. destruct K as [Y K]. cbn [map]. rewrite concat_cons. apply ct_element; [exact (IH y Y)|exact (IHk K)]. }
  destruct k as [|y k].
  - change (stream_element (XElem n l [])) with ("<" ++ n ++ print_attrs l ++ " " ++ "/>").
    apply et_empty; [exact N|apply print_attrs_text, A|exact ND|split; [left; reflexivity|exact I]].
  - change (stream_element (XElem n l (y :: k))) with ("<" ++ n ++ print_attrs l ++ "" ++ ">" ++ String.concat "" (map stream_element (y :: k)) ++ "</" ++ n ++ "" ++ ">").
    apply et_full; [exact N|apply print_attrs_text, A|exact ND|exact I|exact CT|exact I].
Qed.
Theorem saved_document x : printable_tree x -> document_text (SaveFile [x]) [x] /\ document_text (stream_out [x]) [x].
Proof.
  intros P. split.
  - unfold SaveFile. cbn [map String.concat]. destruct (print_element_text x P 0) as (e & -> & E). cbn [indentation append].
    exists "", [], e, x, newline, []. split; [reflexivity|]. split; [|split; [exact E|split; [|reflexivity]]].
    + exact (pt_plain "" "" [] (or_introl eq_refl) mt_nil).
    + rewrite <- (app_nil_s newline). apply mt_white; [exact newline_white|constructor].
  - unfold stream_out. cbn [map String.concat]. exact (element_document _ _ (stream_element_text x P)).
Qed.
