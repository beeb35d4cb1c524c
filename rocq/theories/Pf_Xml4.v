(** Parsing whole documents; writing trees. *)
From Coq Require Import String List Arith NArith Ascii Bool Lia.
From Verif Require Import Base Urdf TinyXml Spec_Xml Pf_Xml1 Pf_Xml2 Pf_Xml3.
Import ListNotations.
Local Open Scope string_scope.
Local Open Scope m_scope.

(** ** the texts are UTF-8 *)
Ltac ascii_lit := apply ascii_utf8; cbn [each]; repeat split; vm_compute; discriminate.

Lemma cons_utf8 c t : byte_in 1 127 c -> utf8_text t -> utf8_text (String c t).
Proof. intros H U. change (String c t) with (String c "" ++ t). constructor; [constructor; exact H|exact U]. Qed.
Lemma spells_utf8 P txt v : spells P txt v -> utf8_text txt.
Proof.
  induction 1 as [|u t v U N S0 IH|w c t v W S0 IH|ds c t v NE D H E S0 IH|ds c t v NE D H E S0 IH].
  - constructor.
  - constructor; assumption.
  - apply utf8_app; [|exact IH]. cbn in W. destruct W as [W|[W|[W|[W|[W|[]]]]]]; injection W as <- <-; ascii_lit.
  - apply utf8_app; [ascii_lit|]. apply utf8_app.
    + apply ascii_utf8, (each_imp digit); [|exact D]. intros x Hx. nums.
    + apply utf8_app; [ascii_lit|exact IH].
  - apply utf8_app; [ascii_lit|]. apply utf8_app.
    + apply ascii_utf8, (each_imp hex_char); [|exact D]. intros x Hx. unfold hex_char in Hx. nums.
    + apply utf8_app; [ascii_lit|exact IH].
Qed.
Lemma quote_utf8 q : quote q -> byte_in 1 127 q.
Proof. intros [->| ->]; split; vm_compute; discriminate. Qed.
Lemma attrs_utf8 ats l : attrs_text ats l -> utf8_text ats.
Proof.
  induction 1 as [|w nm w1 w2 q txt v rst l W WN N W1 W2 Q S0 AT IH]; [constructor|].
  apply utf8_app; [apply white_utf8, W|]. apply utf8_app; [apply xml_name_utf8, N|].
  apply utf8_app; [apply white_utf8, W1|]. apply utf8_app; [ascii_lit|].
  apply utf8_app; [apply white_utf8, W2|]. apply cons_utf8; [apply quote_utf8, Q|].
  apply utf8_app; [apply (spells_utf8 _ _ _ S0)|]. apply cons_utf8; [apply quote_utf8, Q|exact IH].
Qed.
Lemma comment_utf8 c : comment_text c -> utf8_text c.
Proof.
  intros (b & -> & U & _). apply utf8_app; [ascii_lit|]. apply utf8_app; [exact U|ascii_lit].
Qed.
Lemma doctype_utf8 c : doctype_text c -> utf8_text c.
Proof.
  intros (b & -> & U & _). apply utf8_app; [ascii_lit|]. apply utf8_app; [exact U|ascii_lit].
Qed.
Lemma data_utf8 d : data_text d -> utf8_text d.
Proof.
  intros (w & c & d0 & v & -> & W & C & _ & _ & S0). apply utf8_app; [apply white_utf8, W|].
  apply cons_utf8; [nums|apply (spells_utf8 _ _ _ S0)].
Qed.
Lemma elements_utf8 :
  (forall t x, element_text t x -> utf8_text t) /\ (forall t k, content_text t k -> utf8_text t).
Proof.
  apply element_content_ind; intros.
  - apply utf8_app; [ascii_lit|]. apply utf8_app; [apply xml_name_utf8; assumption|].
    apply utf8_app; [eapply attrs_utf8; eassumption|]. apply utf8_app; [apply white_utf8; assumption|ascii_lit].
  - apply utf8_app; [ascii_lit|]. apply utf8_app; [apply xml_name_utf8; assumption|].
    apply utf8_app; [eapply attrs_utf8; eassumption|]. apply utf8_app; [apply white_utf8; assumption|].
    apply utf8_app; [ascii_lit|]. apply utf8_app; [assumption|]. apply utf8_app; [ascii_lit|].
    apply utf8_app; [apply xml_name_utf8; assumption|]. apply utf8_app; [apply white_utf8; assumption|ascii_lit].
  - constructor.
  - apply utf8_app; [apply white_utf8|]; assumption.
  - apply utf8_app; assumption.
  - apply utf8_app; [apply comment_utf8|]; assumption.
  - apply utf8_app; [apply data_utf8|]; assumption.
Qed.
Lemma misc_utf8 t k : misc_text t k -> utf8_text t.
Proof.
  induction 1; [constructor| | |]; (apply utf8_app; [|assumption]);
    [apply white_utf8|apply comment_utf8|apply doctype_utf8]; assumption.
Qed.
Lemma declaration_utf8 t : declaration_text t -> utf8_text t.
Proof.
  intros (ats & l & w & -> & AT & W & _). apply utf8_app; [ascii_lit|].
  apply utf8_app; [apply (attrs_utf8 _ _ AT)|]. apply utf8_app; [apply white_utf8, W|ascii_lit].
Qed.
Lemma bom_utf8 b : b = "" \/ b = bom_text -> utf8_text b.
Proof.
  intros [->| ->]; [constructor|]. unfold bom_text.
  change (utf8_text (String "239" (String "187" (String "191" "")) ++ "")). constructor; [|constructor].
  constructor; split; vm_compute; discriminate.
Qed.
Lemma prolog_utf8 t k : prolog_text t k -> utf8_text t.
Proof.
  destruct 1 as [b m k B M|b d m k B D M].
  - apply utf8_app; [apply bom_utf8, B|apply (misc_utf8 _ _ M)].
  - apply utf8_app; [apply bom_utf8, B|]. apply utf8_app; [apply declaration_utf8, D|apply (misc_utf8 _ _ M)].
Qed.

(** ** declarations *)
Lemma runs_decl_attrs e ats l : attrs_text ats l ->
  Forall (fun n => n = "version" \/ n = "encoding" \/ n = "standalone") (map fst l) ->
  forall r rest n m enc, rest <> "" ->
  (forall enc m', m <= m' -> exists enc', runs (decl_loop m' e enc (Some rest)) (Some r, enc')) ->
  slen ats + m <= n ->
  exists enc', runs (decl_loop n e enc (Some (ats ++ rest))) (Some r, enc').
Proof.
  induction 1 as [|w nm w1 w2 q txt v rst l W WN N W1 W2 Q S0 AT IH]; intros F r rest n m enc R K Hn.
  - exact (K enc n Hn).
  - cbn [map fst] in F. apply Forall_cons_iff in F. destruct F as [F1 F].
    assert (R2 : rst ++ rest <> "") by (destruct rst; [exact R|discriminate]).
    pose proof (runs_attr false e nm w1 w2 q txt v (rst ++ rest) N W1 W2 Q S0 R2) as RA.
    assert (EQ : (w ++ nm ++ w1 ++ "=" ++ w2 ++ String q (txt ++ String q rst)) ++ rest =
                 w ++ (nm ++ w1 ++ "=" ++ w2 ++ String q (txt ++ String q (rst ++ rest)))).
    { rewrite <- !app_assoc_s. cbn [append]. rewrite <- !app_assoc_s. reflexivity. }
    rewrite EQ. rewrite !app_length_s in Hn. cbn [String.length] in Hn. rewrite !app_length_s in Hn. cbn [String.length] in Hn.
    destruct n as [|n]; [destruct nm; [destruct N|cbn in Hn; lia]|].
    assert (IHn : forall enc, exists enc', runs (decl_loop n e enc (Some (rst ++ rest))) (Some r, enc')).
    { intros enc1. apply (IH F r rest n m enc1 R K). lia. }
    set (tl := w1 ++ "=" ++ w2 ++ String q (txt ++ String q (rst ++ rest))) in *.
    pose proof (skip_white e w (nm ++ tl) W (xml_name_solid nm tl N)) as SK.
    destruct w as [|c w]; [contradiction|]. destruct W as [Wc W]. cbn [append] in SK. cbn [append decl_loop].
    assert (C : is ">" c = false) by (destruct Wc as [->|[->|[->| ->]]]; reflexivity).
    rewrite C, SK.
    destruct F1 as [->|[->| ->]].
    + change (StringEqual_ci "version" (Some ("version" ++ tl))) with true. cbv iota.
      destruct (IHn enc) as (enc' & X). exists enc'. eapply runs_bind; [exact RA|exact X].
    + change (StringEqual_ci "version" (Some ("encoding" ++ tl))) with false.
      change (StringEqual_ci "encoding" (Some ("encoding" ++ tl))) with true. cbv iota.
      destruct (IHn (c_str v)) as (enc' & X). exists enc'. eapply runs_bind; [exact RA|exact X].
    + change (StringEqual_ci "version" (Some ("standalone" ++ tl))) with false.
      change (StringEqual_ci "encoding" (Some ("standalone" ++ tl))) with false.
      change (StringEqual_ci "standalone" (Some ("standalone" ++ tl))) with true. cbv iota.
      destruct (IHn enc) as (enc' & X). exists enc'. eapply runs_bind; [exact RA|exact X].
Qed.

Lemma identify_declaration e t rest : declaration_text t -> Identify e (Some (t ++ rest)) = Some KDeclaration.
Proof.
  intros (ats & l & w & -> & _). cbn [append]. unfold Identify. rewrite skip_solid_p by (split; reflexivity). reflexivity.
Qed.
Lemma runs_declaration e t rest : declaration_text t ->
  exists enc, runs (decl_parse e (Some (t ++ rest))) (Some rest, enc).
Proof.
  intros (ats & l & w & -> & AT & W & F). rewrite <- !app_assoc_s. unfold decl_parse.
  rewrite skip_solid_p by (split; reflexivity). cbn [append].
  change (prefix_ci "<?xml" (String "<" (String "?" (String "x" (String "m" (String "l" (ats ++ w ++ String "?" (String ">" rest)))))))) with true.
  cbv iota. cbn [sdrop ptr_len].
  destruct (runs_decl_attrs e ats l AT F rest (w ++ "?>" ++ rest) (slen (ats ++ w ++ "?>" ++ rest)) (slen (w ++ "?>" ++ rest)) "") as (enc & X).
  - destruct w; discriminate.
  - clear -W. intros enc m Hm. exists enc. rewrite app_length_s in Hm. cbn [append String.length] in Hm.
    destruct m as [|[|m]]; [lia|lia|].
    assert (LAST : runs (decl_loop (S m) e enc (Some (String ">" rest))) (Some rest, enc)) by apply runs_ret.
    assert (MID : forall s, s <> "" -> SkipWhiteSpace e (Some s) = Some (String "?" (String ">" rest)) ->
              (match s with "" => True | String c _ => is ">" c = false end) ->
              runs (decl_loop (S (S m)) e enc (Some s)) (Some rest, enc)).
    { intros s NE SK C. destruct s as [|c s]; [contradiction|]. cbn [decl_loop]. rewrite C, SK.
      change (StringEqual_ci "version" (Some (String "?" (String ">" rest)))) with false.
      change (StringEqual_ci "encoding" (Some (String "?" (String ">" rest)))) with false.
      change (StringEqual_ci "standalone" (Some (String "?" (String ">" rest)))) with false. cbv iota.
      exact LAST. }
    apply MID.
    + destruct w; discriminate.
    + apply skip_white; [exact W|split; reflexivity].
    + destruct w as [|c w]; [reflexivity|]. destruct W as [[->|[->|[->| ->]]] _]; reflexivity.
  - rewrite !app_length_s. lia.
  - exists enc. apply (runs_bind _ _ tt); [apply runs_stamp|]. exact X.
Qed.

(** ** documents *)
Definition nodes_from (n : nat) (e : encoding) (nodes : list xml) (s : string) : M pst (list xml) :=
  doc_loop n e nodes (SkipWhiteSpace e (Some s)).

Lemma nodes_end n e nodes : nodes_from n e nodes "" = ret nodes.
Proof. unfold nodes_from. destruct n; reflexivity. Qed.

Lemma runs_misc e m k : misc_text m k ->
  forall (r : list xml) rest n nodes,
  (forall n', slen rest <= n' -> runs (nodes_from n' e (nodes ++ k)%list rest) r) ->
  slen m + slen rest <= n ->
  runs (nodes_from n e nodes (m ++ rest)) r.
Proof.
  induction 1 as [|w t k W M IH|c t k C M IH|c t k C M IH]; intros r rest n nodes K Hn.
  - cbn [append]. specialize (K n ltac:(cbn in Hn; lia)). rewrite app_nil_r in K. exact K.
  - rewrite app_length_s in Hn. specialize (IH r rest n nodes K ltac:(lia)). rewrite <- app_assoc_s.
    destruct (t ++ rest) as [|x y] eqn:E.
    + rewrite nodes_end in IH. unfold nodes_from. rewrite app_nil_s.
      destruct w as [|c w]; [destruct n; exact IH|]. cbn [SkipWhiteSpace]. rewrite (skip_white_only e (String c w) W).
      destruct n; exact IH.
    + unfold nodes_from in *. rewrite skip_white_p; [exact IH|exact W|discriminate].
  - rewrite <- app_assoc_s. rewrite app_length_s in Hn.
    pose proof (identify_comment e c (t ++ rest) C) as ID. pose proof (runs_comment e c (t ++ rest) C) as RC.
    destruct C as (b & -> & _). rewrite !app_length_s in Hn. cbn [String.length] in Hn.
    unfold nodes_from. rewrite <- !app_assoc_s in *. rewrite skip_solid_p by (split; reflexivity).
    destruct n as [|n]; [lia|]. cbn [append] in *. cbn [doc_loop]. rewrite ID.
    eapply runs_bind; [exact RC|]. apply (IH r rest n (nodes ++ [XOther])%list); [|lia].
    intros n' Hn'. rewrite <- app_assoc. exact (K n' Hn').
  - rewrite <- app_assoc_s. rewrite app_length_s in Hn.
    pose proof (identify_doctype e c (t ++ rest) C) as ID. pose proof (runs_doctype e c (t ++ rest) C) as RC.
    destruct C as (b & -> & _). rewrite !app_length_s in Hn. cbn [String.length] in Hn.
    unfold nodes_from. rewrite <- !app_assoc_s in *. rewrite skip_solid_p by (split; reflexivity).
    destruct n as [|n]; [lia|]. cbn [append] in *. cbn [doc_loop]. rewrite ID.
    eapply runs_bind; [exact RC|]. apply (IH r rest n (nodes ++ [XOther])%list); [|lia].
    intros n' Hn'. rewrite <- app_assoc. exact (K n' Hn').
Qed.

Lemma runs_root e el x rest r n nodes : element_text el x ->
  (forall n', slen rest <= n' -> runs (nodes_from n' e (nodes ++ [x])%list rest) r) ->
  slen el + slen rest <= n ->
  runs (nodes_from n e nodes (el ++ rest)) r.
Proof.
  intros ET K Hn. destruct (element_starts el x ET) as (c & t & Et & NF & L).
  assert (D : 4 * slen el <= depth_for (el ++ rest)) by (unfold depth_for; rewrite app_length_s; lia).
  pose proof (proj1 parse_elements el x ET e rest _ D) as RE. rewrite Et in *. cbn [append] in *.
  unfold nodes_from. rewrite skip_solid_p by (split; reflexivity).
  destruct n as [|n]; [lia|]. cbn [doc_loop]. rewrite (identify_element e c _ NF).
  eapply runs_bind; [exact RE|]. cbn [fst snd]. apply K. lia.
Qed.

Lemma runs_epilog e post kq nodes n : misc_text post kq -> slen post <= n ->
  runs (nodes_from n e nodes post) (nodes ++ kq)%list.
Proof.
  intros M Hn. rewrite <- (app_nil_s post). apply (runs_misc e post kq M); [|cbn; lia].
  intros n' _. rewrite nodes_end. apply runs_ret.
Qed.

(** all nodes before the root element, for any continuation *)
Lemma runs_prolog pre kp : prolog_text pre kp ->
  forall rest r n, rest <> "" ->
  (forall e n', slen rest <= n' -> runs (nodes_from n' e kp rest) r) ->
  slen pre + slen rest <= n ->
  runs (nodes_from n (bom (pre ++ rest)) [] (pre ++ rest)) r.
Proof.
  intros P rest r n R K Hn.
  assert (SKB : forall b s, b = "" \/ b = bom_text -> s <> "" ->
            SkipWhiteSpace (bom (b ++ s)) (Some (b ++ s)) = SkipWhiteSpace (bom (b ++ s)) (Some s)).
  { intros b s [->| ->] NE; [reflexivity|]. destruct s; [contradiction|]. reflexivity. }
  destruct P as [b m k B M|b d m k B D M].
  - assert (NE : m ++ rest <> "") by (destruct m; [exact R|discriminate]).
    rewrite <- app_assoc_s. unfold nodes_from. rewrite (SKB b (m ++ rest) B NE).
    rewrite app_length_s in Hn.
    apply (runs_misc (bom (b ++ m ++ rest)) m k M r rest n []); [|lia]. intros n' Hn'. apply K. exact Hn'.
  - assert (NE : d ++ m ++ rest <> "").
    { destruct D as (ats & l & w & -> & _). discriminate. }
    rewrite <- !app_assoc_s. unfold nodes_from. rewrite (SKB b (d ++ m ++ rest) B NE).
    generalize (bom (b ++ d ++ m ++ rest)). intros e. rewrite !app_length_s in Hn.
    pose proof (identify_declaration e d (m ++ rest) D) as ID.
    destruct (runs_declaration e d (m ++ rest) D) as (enc & RD).
    destruct D as (ats & l & w & -> & _). rewrite !app_length_s in Hn. cbn [String.length] in Hn.
    rewrite <- !app_assoc_s in *. rewrite skip_solid_p by (split; reflexivity). cbn [append] in *.
    destruct n as [|n]; [lia|]. cbn [doc_loop]. rewrite ID.
    eapply runs_bind; [exact RD|]. cbn [fst snd].
    apply (runs_misc _ m k M r rest n [XOther]); [|lia]. intros n' Hn'. apply K. exact Hn'.
Qed.

Lemma parse_runs text nodes : utf8_text text -> nodes <> [] ->
  runs (nodes_from (slen text) (bom text) [] text) nodes -> text <> "" ->
  tinyxml_parse text = Ok (Some nodes).
Proof.
  intros U NE R T. unfold tinyxml_parse. rewrite (c_str_id text (utf8_nonzero text U)).
  unfold nodes_from in R. destruct (SkipWhiteSpace (bom text) (Some text)) as [q|] eqn:E.
  2:{ destruct text; [contradiction|discriminate E]. }
  destruct (R (mkP false text)) as (s' & [G _] & X); [split; [reflexivity|apply utf8_uncut, U]|].
  rewrite X, G. destruct nodes; [contradiction|reflexivity].
Qed.

Theorem parse_document text nodes : document_text text nodes -> tinyxml_parse text = Ok (Some nodes).
Proof.
  intros (pre & kp & el & x & post & kq & -> & P & ET & M & ->).
  assert (NE : el ++ post <> "").
  { destruct (element_starts el x ET) as (c & r & -> & _). discriminate. }
  apply parse_runs.
  - apply utf8_app; [apply (prolog_utf8 _ _ P)|]. apply utf8_app; [apply (proj1 elements_utf8 _ _ ET)|apply (misc_utf8 _ _ M)].
  - destruct kp; discriminate.
  - apply (runs_prolog pre kp P (el ++ post)); [exact NE| |rewrite !app_length_s; lia].
    intros e n Hn. rewrite app_length_s in Hn.
    apply (runs_root e el x post _ n kp ET); [|exact Hn].
    intros n' Hn'. replace (kp ++ x :: kq)%list with ((kp ++ [x]) ++ kq)%list by (rewrite <- app_assoc; reflexivity).
    exact (runs_epilog e post kq (kp ++ [x])%list n' M Hn').
  - destruct pre; [exact NE|discriminate].
Qed.

(** what follows the root element is not looked at from the first character on that
    starts no node *)
Theorem parse_trailing pre kp el x post kq c junk :
  prolog_text pre kp -> element_text el x -> misc_text post kq ->
  byte_in 33 127 c -> c <> "<"%char -> utf8_text junk ->
  tinyxml_parse (pre ++ el ++ post ++ String c junk) = Ok (Some (kp ++ x :: kq)%list).
Proof.
  intros P ET M C NC J.
  assert (NE : el ++ post ++ String c junk <> "").
  { destruct (element_starts el x ET) as (c0 & r & -> & _). discriminate. }
  apply parse_runs.
  - apply utf8_app; [apply (prolog_utf8 _ _ P)|]. apply utf8_app; [apply (proj1 elements_utf8 _ _ ET)|].
    apply utf8_app; [apply (misc_utf8 _ _ M)|]. apply cons_utf8; [nums|exact J].
  - destruct kp; discriminate.
  - apply (runs_prolog pre kp P (el ++ post ++ String c junk)); [exact NE| |rewrite !app_length_s; lia].
    intros e n Hn. rewrite app_length_s in Hn.
    apply (runs_root e el x _ _ n kp ET); [|exact Hn].
    intros n' Hn'. replace (kp ++ x :: kq)%list with ((kp ++ [x]) ++ kq)%list by (rewrite <- app_assoc; reflexivity).
    rewrite app_length_s in Hn'. apply (runs_misc e post kq M); [|exact Hn'].
    intros n2 Hn2. unfold nodes_from. rewrite skip_solid_p by (apply solid_ascii; nums).
    destruct n2 as [|n2]; [cbn in Hn2; lia|]. cbn [doc_loop].
    assert (ID : Identify e (Some (String c junk)) = None).
    { unfold Identify. rewrite skip_solid_p by (apply solid_ascii; nums). rewrite (is_not "<" c NC). reflexivity. }
    rewrite ID. apply runs_ret.
  - destruct pre; [exact NE|discriminate].
Qed.
