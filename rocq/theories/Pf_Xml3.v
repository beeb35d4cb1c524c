(** Parsing the texts of Spec_Xml: attributes, comments, elements, documents. *)
From Coq Require Import String List Arith NArith Ascii Bool Lia.
From Verif Require Import Base Urdf TinyXml Spec_Xml Pf_Xml1 Pf_Xml2.
Import ListNotations.
Local Open Scope string_scope.
Local Open Scope m_scope.

Lemma name_first_codes c : name_first c ->
  is "/" c = false /\ is ">" c = false /\ is "<" c = false /\ is "!" c = false /\ is "?" (to_lower c) = false.
Proof.
  intros H. destruct (name_first_start c H) as (_ & _ & B).
  assert (R : (65 <= N_of_ascii c <= 122)%N).
  { destruct H as [[H|H]| ->]; [nums|nums|]. split; vm_compute; discriminate. }
  repeat split; try (apply is_code; cbn; lia).
  unfold to_lower. destruct (between 65 90 c) eqn:E; [|apply is_code; cbn; lia].
  apply between_iff in E. apply is_code. unfold chr, code. rewrite N_ascii_embedding by lia. cbn. lia.
Qed.

Lemma quote_code q : quote q -> (N_of_ascii q < 128)%N /\ q <> "&"%char.
Proof. intros [->| ->]; split; try discriminate; vm_compute; reflexivity. Qed.

Lemma runs_attr document e n w1 w2 q txt v rest :
  xml_name n -> white w1 -> white w2 -> quote q -> spells (eq q) txt v -> rest <> "" ->
  runs (attr_parse document e (Some (n ++ w1 ++ "=" ++ w2 ++ String q (txt ++ String q rest))))
       (Some rest, mkAttr n v).
Proof.
  intros N W1 W2 Q S0 R. destruct (quote_code q Q) as [Q1 Q2].
  unfold attr_parse. rewrite skip_solid_p by (apply xml_name_solid, N).
  rewrite read_name_app; [|exact N|apply ends_name_white; [exact W1|reflexivity]].
  assert (SK1 : SkipWhiteSpace e (Some (w1 ++ "=" ++ w2 ++ String q (txt ++ String q rest))) =
                Some (String "=" (w2 ++ String q (txt ++ String q rest)))).
  { apply (skip_white e w1); [exact W1|]. split; reflexivity. }
  assert (SK2 : SkipWhiteSpace e (Some (w2 ++ String q (txt ++ String q rest))) = Some (String q (txt ++ String q rest))).
  { apply (skip_white e w2); [exact W2|]. destruct Q as [->| ->]; split; reflexivity. }
  assert (NE : exists c t, n ++ w1 ++ "=" ++ w2 ++ String q (txt ++ String q rest) = String c t).
  { destruct n as [|c n]; [destruct N|]. eexists _, _. reflexivity. }
  destruct NE as (c0 & t0 & NE). rewrite NE.
  apply (runs_bind _ _ tt); [apply runs_stamp|].
  assert (NE2 : exists c t, w1 ++ "=" ++ w2 ++ String q (txt ++ String q rest) = String c t).
  { destruct w1; eexists _, _; reflexivity. }
  destruct NE2 as (c1 & t1 & NE2). rewrite NE2 in *. rewrite SK1. change (is "=" "=") with true. cbv iota.
  rewrite SK2. pose proof (read_text_value e q txt v rest Q1 Q2 S0 R) as RT.
  destruct Q as [->| ->].
  - change (is "'" """") with false. change (is """" """") with true. cbv iota.
    apply (runs_bind _ _ (Some rest, v)); [apply runs_lift, RT|apply runs_ret].
  - change (is "'" "'") with true. cbv iota.
    apply (runs_bind _ _ (Some rest, v)); [apply runs_lift, RT|apply runs_ret].
Qed.

Definition mk_attrs (l : list (string * string)) : list attr := map (fun a => mkAttr (fst a) (snd a)) l.

Lemma known_false n l : ~ In n (map a_name l) -> known n l = false.
Proof.
  intros H. unfold known. apply not_true_iff_false. intros E. apply existsb_exists in E.
  destruct E as (a & I & E). apply String.eqb_eq in E. apply H. apply in_map_iff. exists a. split; assumption.
Qed.

Lemma runs_attrs e name ats l : attrs_text ats l ->
  forall (r : ptr * xml) rest n m attrs0, rest <> "" ->
  NoDup (map a_name attrs0 ++ map fst l) ->
  (forall m', m <= m' -> runs (attrs_loop m' e name (attrs0 ++ mk_attrs l) rest) r) ->
  List.length l + m <= n ->
  runs (attrs_loop n e name attrs0 (ats ++ rest)) r.
Proof.
  induction 1 as [|w nm w1 w2 q txt v rst l W WN N W1 W2 Q S0 AT IH]; intros r rest n m attrs0 R ND K Hn.
  - cbn [append]. specialize (K n ltac:(cbn in Hn; lia)). cbn in K. rewrite app_nil_r in K. exact K.
  - cbn [List.length] in Hn. destruct n as [|n]; [lia|].
    assert (R2 : rst ++ rest <> "") by (destruct rst; [exact R|discriminate]).
    pose proof (runs_attr true e nm w1 w2 q txt v (rst ++ rest) N W1 W2 Q S0 R2) as RA.
    assert (EQ : (w ++ nm ++ w1 ++ "=" ++ w2 ++ String q (txt ++ String q rst)) ++ rest =
                 w ++ (nm ++ w1 ++ "=" ++ w2 ++ String q (txt ++ String q (rst ++ rest)))).
    { rewrite <- !app_assoc_s. cbn [append]. rewrite <- !app_assoc_s. reflexivity. }
    rewrite EQ. cbn [attrs_loop]. rewrite skip_white; [|exact W|apply xml_name_solid, N].
    destruct nm as [|c nm]; [destruct N|]. pose proof N as [NF _]. cbn [append] in *.
    destruct (name_first_codes c NF) as (C1 & C2 & _). rewrite C1, C2.
    apply (runs_bind _ _ (Some (rst ++ rest), mkAttr (String c nm) v)); [exact RA|]. cbn [fst snd].
    destruct (rst ++ rest) as [|x y] eqn:EX; [contradiction|].
    cbn [a_name]. cbn [map fst] in ND.
    rewrite known_false.
    2:{ intros I. apply NoDup_remove in ND. apply (proj2 ND), in_or_app. left. exact I. }
    rewrite <- EX. apply (IH r rest n m (attrs0 ++ [mkAttr (String c nm) v])%list); [exact R| | |lia].
    + rewrite map_app, <- app_assoc. exact ND.
    + intros m' Hm'. rewrite <- app_assoc. exact (K m' Hm').
Qed.

Lemma spells_nonzero P txt v : spells P txt v -> each (fun c => N_of_ascii c <> 0%N) v.
Proof.
  induction 1 as [|u t v U N S0 IH|w c t v W S0 IH|ds c t v NE D H E S0 IH|ds c t v NE D H E S0 IH].
  - exact I.
  - apply each_app. split; [apply one_char_nonzero, U|exact IH].
  - split; [|exact IH]. cbn in W. destruct W as [W|[W|[W|[W|[W|[]]]]]]; injection W as <- <-; discriminate.
  - split; [nums|exact IH].
  - split; [nums|exact IH].
Qed.
Lemma attrs_dom ats l : attrs_text ats l -> map dom_attr (mk_attrs l) = l.
Proof.
  induction 1 as [|w nm w1 w2 q txt v rst l W WN N W1 W2 Q S0 AT IH]; [reflexivity|].
  cbn [mk_attrs map]. unfold dom_attr at 1. cbn [a_name a_value fst snd].
  rewrite (c_str_id v (spells_nonzero _ _ _ S0)). f_equal. exact IH.
Qed.
Lemma attrs_length ats l : attrs_text ats l -> List.length l <= slen ats.
Proof.
  induction 1 as [|w nm w1 w2 q txt v rst l W WN N W1 W2 Q S0 AT IH]; [cbn; lia|].
  cbn [List.length]. rewrite !app_length_s. cbn [String.length]. rewrite !app_length_s. cbn [String.length]. lia.
Qed.
Lemma attrs_ends ats l s : attrs_text ats l -> ends_name s -> ends_name (ats ++ s).
Proof.
  destruct 1 as [|w nm w1 w2 q txt v rst l W WN N W1 W2 Q S0 AT]; [tauto|]. intros _.
  destruct w as [|c w]; [contradiction|]. destruct W as [W _]. cbn [append ends_name].
  destruct W as [->|[->|[->| ->]]]; reflexivity.
Qed.

(** ** comments and document types *)
Lemma find_comment body rest : (forall a b, body ++ "-" <> a ++ "--" ++ b) ->
  find_tag "-->" (body ++ "-->" ++ rest) = "-->" ++ rest.
Proof.
  induction body as [|c body IH]; intros H.
  - cbn [append]. cbn [find_tag]. destruct rest; reflexivity.
  - cbn [append find_tag].
    assert (P : prefix "-->" (String c (body ++ "-->" ++ rest)) = false).
    { apply not_true_iff_false. intros P. cbn [prefix] in P. destruct (ascii_dec "-" c) as [<-|_]; [|discriminate P].
      destruct body as [|d body]; [exact (H "" "" eq_refl)|]. cbn [append prefix] in P.
      destruct (ascii_dec "-" d) as [<-|_]; [|discriminate P]. exact (H "" (body ++ "-") eq_refl). }
    cbn [append] in P. rewrite P. apply IH. intros a b E. apply (H (String c a) b). cbn. rewrite E. reflexivity.
Qed.

Lemma identify_comment e t rest : comment_text t -> Identify e (Some (t ++ rest)) = Some KComment.
Proof.
  intros (body & -> & _). cbn [append]. unfold Identify. rewrite skip_solid_p by (split; reflexivity).
  cbn. destruct (body ++ "-->") eqn:E; [destruct body; discriminate E|]. reflexivity.
Qed.
Lemma runs_comment e t rest : comment_text t -> runs (comment_parse e (Some (t ++ rest))) (Some rest).
Proof.
  intros (body & -> & U & H). rewrite <- !app_assoc_s. pose proof (find_comment body rest H) as F.
  set (X := body ++ "-->" ++ rest) in *. unfold comment_parse.
  rewrite skip_solid_p by (split; reflexivity). cbn [append].
  apply (runs_bind _ _ tt); [apply runs_stamp|].
  assert (P : StringEqual "<!--" (String "<" (String "!" (String "-" (String "-" X)))) = true) by exact (prefix_app "<!--" X).
  rewrite P. cbn [sdrop]. rewrite F. cbn [append]. apply runs_ret.
Qed.

Lemma find_gt body rest : each (fun c => c <> ">"%char) body -> to_gt (body ++ String ">" rest) = String ">" rest.
Proof.
  induction body as [|c body IH]; [reflexivity|]. intros [H1 H2]. cbn [append to_gt].
  rewrite (is_not ">" c H1). exact (IH H2).
Qed.
Lemma identify_doctype e t rest : doctype_text t -> Identify e (Some (t ++ rest)) = Some KUnknown.
Proof.
  intros (body & -> & _). cbn [append]. unfold Identify. rewrite skip_solid_p by (split; reflexivity). reflexivity.
Qed.
Lemma runs_doctype e t rest : doctype_text t -> runs (unknown_parse e (Some (t ++ rest))) (Some rest).
Proof.
  intros (body & -> & U & H). rewrite <- !app_assoc_s. unfold unknown_parse.
  rewrite skip_solid_p by (split; reflexivity). cbn [append].
  apply (runs_bind _ _ tt); [apply runs_stamp|]. change (is "<" "<") with true. cbv iota.
  assert (E : to_gt (String "!" (String "D" (String "O" (String "C" (String "T" (String "Y" (String "P"
               (String "E" (body ++ String ">" rest))))))))) = String ">" rest).
  { apply (find_gt ("!DOCTYPE" ++ body) rest). apply each_app. split; [|exact H].
    cbn. repeat split; discriminate. }
  rewrite E. apply runs_ret.
Qed.

(** ** elements *)
Scheme element_text_ind2 := Minimality for element_text Sort Prop
  with content_text_ind2 := Minimality for content_text Sort Prop.
Combined Scheme element_content_ind from element_text_ind2, content_text_ind2.

Lemma identify_element e c t : name_first c -> Identify e (Some (String "<" (String c t))) = Some KElement.
Proof.
  intros H. unfold Identify. rewrite skip_solid_p by (split; reflexivity).
  destruct (name_first_codes c H) as (C1 & C2 & C3 & C4 & C5).
  change (is "<" "<") with true. cbn [negb].
  assert (X1 : prefix_ci "<?xml" (String "<" (String c t)) = false).
  { cbn [prefix_ci]. change (is (to_lower "<") (to_lower "<")) with true. change (to_lower "?") with "?"%char.
    rewrite C5. reflexivity. }
  assert (X2 : forall w, StringEqual (String "<" (String "!" w)) (String "<" (String c t)) = false).
  { intros w. unfold StringEqual. cbn [prefix]. destruct (ascii_dec "<" "<") as [_|_]; [|reflexivity].
    destruct (ascii_dec "!" c) as [<-|_]; [discriminate C4|reflexivity]. }
  rewrite X1, !X2. rewrite (proj1 (name_first_start c H)). reflexivity.
Qed.

Lemma element_starts t x : element_text t x -> exists c r, t = String "<" (String c r) /\ name_first c /\ 4 <= slen t.
Proof.
  destruct 1 as [n ats l w N AT ND W|n ats l w body kids w' N AT ND W CT W'];
    (destruct n as [|c n]; [destruct N|]); destruct N as [N _]; cbn [append]; eexists _, _; (split; [reflexivity|]);
    (split; [exact N|]); cbn [String.length]; rewrite ?app_length_s; cbn [String.length]; rewrite ?app_length_s; cbn [String.length]; lia.
Qed.

Lemma runs_open n0 e name ats l rest r :
  xml_name name -> attrs_text ats l -> NoDup (map fst l) -> rest <> "" -> ends_name rest ->
  forall m, (forall m', m <= m' -> runs (attrs_loop m' e name (mk_attrs l) rest) r) ->
  List.length l + m < n0 ->
  runs (elem_parse n0 e (Some ("<" ++ name ++ ats ++ rest))) r.
Proof.
  intros N AT ND R EN m K Hn. destruct n0 as [|n]; [lia|]. cbn [elem_parse append].
  rewrite skip_solid_p by (split; reflexivity).
  apply (runs_bind _ _ tt); [apply runs_stamp|]. change (is "<" "<") with true. cbn [negb].
  rewrite skip_solid_p by (apply xml_name_solid, N).
  rewrite read_name_app; [|exact N|apply (attrs_ends ats l _ AT), EN].
  assert (NE : ats ++ rest <> "") by (destruct ats; [exact R|discriminate]).
  destruct (ats ++ rest) as [|c t] eqn:E; [contradiction|]. rewrite <- E.
  apply (runs_attrs e name ats l AT r rest n m []); [exact R|exact ND| |lia].
  exact K.
Qed.

Lemma runs_close e name rest w' (r : ptr * xml) a k n :
  white w' ->
  r = (Some rest, XElem name (map dom_attr a) k) ->
  forall w body,
  white w ->
  runs (read_value n e [] (Some (body ++ "</" ++ name ++ w' ++ ">" ++ rest))) (Some ("</" ++ name ++ w' ++ ">" ++ rest), k) ->
  runs (attrs_loop (S n) e name a (w ++ ">" ++ body ++ "</" ++ name ++ w' ++ ">" ++ rest)) r.
Proof.
  intros W' -> w body W RV. cbn [attrs_loop].
  rewrite skip_white; [|exact W|split; reflexivity]. cbn [append].
  change (is "/" ">") with false. change (is ">" ">") with true. cbv iota.
  eapply runs_bind; [exact RV|]. cbn [fst snd append].
  assert (P : StringEqual (String "<" (String "/" name)) (String "<" (String "/" (name ++ w' ++ ">" ++ rest))) = true).
  { change (prefix ("</" ++ name) (("</" ++ name) ++ (w' ++ ">" ++ rest)) = true). apply prefix_app. }
  cbn [append] in P. rewrite P.
  assert (D : sdrop (slen (String "<" (String "/" name))) (String "<" (String "/" (name ++ w' ++ String ">" rest))) = Some (w' ++ String ">" rest)).
  { exact (sdrop_app ("</" ++ name) (w' ++ String ">" rest)). }
  rewrite D. rewrite skip_white; [|exact W'|split; reflexivity].
  change (is ">" ">") with true. cbv iota. apply runs_ret.
Qed.

Lemma parse_elements :
  (forall t x, element_text t x -> forall e rest n, 4 * slen t <= n ->
     runs (elem_parse n e (Some (t ++ rest))) (Some rest, x)) /\
  (forall t k, content_text t k -> forall e rest n k0, 4 * slen t + 1 <= n ->
     runs (read_value n e k0 (Some (t ++ "</" ++ rest))) (Some ("</" ++ rest), (k0 ++ k)%list)).
Proof.
  apply element_content_ind.
  - intros nm ats l w N AT ND W e rest n Hn. rewrite <- !app_assoc_s.
    apply (runs_open n e nm ats l (w ++ "/>" ++ rest) _ N AT ND) with (m := 1).
    + destruct w; discriminate.
    + apply ends_name_white; [exact W|reflexivity].
    + intros m' Hm'. destruct m' as [|m']; [lia|]. cbn [attrs_loop].
      rewrite skip_white; [|exact W|split; reflexivity]. cbn [append].
      change (is "/" "/") with true. change (is ">" ">") with true. cbv iota.
      rewrite (attrs_dom ats l AT). apply runs_ret.
    + pose proof (attrs_length ats l AT). rewrite !app_length_s in Hn. cbn [String.length] in Hn. lia.
  - intros nm ats l w body kids w' N AT ND W CT IH W' e rest n Hn. rewrite <- !app_assoc_s.
    apply (runs_open n e nm ats l (w ++ ">" ++ body ++ "</" ++ nm ++ w' ++ ">" ++ rest) _ N AT ND) with (m := 4 * slen body + 2).
    + destruct w; discriminate.
    + apply ends_name_white; [exact W|reflexivity].
    + intros m' Hm'. destruct m' as [|m']; [lia|].
      apply (runs_close e nm rest w' _ (mk_attrs l) kids m' W'); [rewrite (attrs_dom ats l AT); reflexivity|exact W|].
      exact (IH e (nm ++ w' ++ ">" ++ rest) m' [] ltac:(lia)).
    + pose proof (attrs_length ats l AT). rewrite !app_length_s in Hn. cbn [String.length] in Hn.
      rewrite ?app_length_s in Hn. cbn [String.length] in Hn. lia.
  - intros e rest n k0 Hn. destruct n as [|n]; [lia|]. cbn [read_value append].
    rewrite skip_solid_p by (split; reflexivity). change (is "<" "<") with true. cbn [negb].
    assert (P : StringEqual "</" (String "<" (String "/" rest)) = true) by (destruct rest; reflexivity).
    rewrite P, app_nil_r. apply runs_ret.
  - intros w t k W CT IH e rest n k0 Hn. rewrite <- app_assoc_s. destruct n as [|n]; [lia|]. cbn [read_value].
    rewrite skip_white_p; [|exact W|destruct t; discriminate].
    apply (IH e rest (S n) k0). rewrite app_length_s in Hn. lia.
  - intros el x t k ET IHe CT IHc e rest n k0 Hn. rewrite <- app_assoc_s. destruct n as [|n]; [lia|].
    rewrite app_length_s in Hn. destruct (element_starts el x ET) as (c & r & Et & NF & L).
    specialize (IHe e (t ++ "</" ++ rest) n ltac:(lia)).
    specialize (IHc e rest n (k0 ++ [x])%list ltac:(lia)).
    rewrite Et in *. cbn [append] in *. cbn [read_value].
    rewrite skip_solid_p by (split; reflexivity). change (is "<" "<") with true. cbn [negb].
    assert (P : StringEqual "</" (String "<" (String c (r ++ t ++ String "<" (String "/" rest)))) = false).
    { unfold StringEqual. cbn [prefix]. destruct (ascii_dec "<" "<") as [_|_]; [|reflexivity].
      destruct (ascii_dec "/" c) as [<-|_]; [destruct (name_first_codes _ NF) as (X & _); discriminate X|reflexivity]. }
    rewrite P, (identify_element e c _ NF).
    eapply runs_bind; [exact IHe|]. cbn [fst snd]. rewrite <- app_assoc in IHc. exact IHc.
  - intros cm t k CM CT IHc e rest n k0 Hn. rewrite <- app_assoc_s. destruct n as [|n]; [lia|].
    rewrite app_length_s in Hn.
    assert (L : 7 <= slen cm).
    { destruct CM as (b & -> & _). rewrite !app_length_s. cbn. lia. }
    specialize (IHc e rest n (k0 ++ [XOther])%list ltac:(lia)).
    pose proof (identify_comment e cm (t ++ "</" ++ rest) CM) as IDC.
    pose proof (runs_comment e cm (t ++ "</" ++ rest) CM) as RC.
    destruct CM as (b & Ecm & _). subst cm. rewrite <- !app_assoc_s in *. cbn [append] in *. cbn [read_value].
    rewrite skip_solid_p by (split; reflexivity). change (is "<" "<") with true. cbn [negb].
    assert (P : forall z, StringEqual "</" (String "<" (String "!" z)) = false) by (intros z; reflexivity).
    rewrite P, IDC.
    eapply runs_bind; [exact RC|]. rewrite <- app_assoc in IHc. exact IHc.
  - intros d t k D T CT IHc e rest n k0 Hn. rewrite <- app_assoc_s. destruct n as [|n]; [lia|].
    rewrite app_length_s in Hn.
    assert (RST : exists r, t ++ "</" ++ rest = String "<" r /\ r <> "").
    { destruct T as [->|(t' & ->)].
      - exists ("/" ++ rest). split; [reflexivity|discriminate].
      - exists (t' ++ "</" ++ rest). split; [reflexivity|destruct t'; discriminate]. }
    destruct RST as (r & Er & Rr). rewrite Er in *.
    pose proof D as (w & c & d0 & v0 & Ed & W & C & N1 & N2 & S0).
    destruct (runs_data e d r D Rr w (String c d0) Ed W) as (v & RD & B); [apply solid_ascii; nums|].
    specialize (IHc e rest n (k0 ++ [XOther])%list). rewrite Er in IHc.
    rewrite Ed in *. rewrite <- app_assoc_s. cbn [append] in *. cbn [read_value].
    rewrite skip_white; [|exact W|apply solid_ascii; nums].
    rewrite (is_not "<" c N1). cbn [negb].
    eapply runs_bind; [exact RD|]. cbn [fst snd]. rewrite B. rewrite <- app_assoc in IHc. apply IHc.
    rewrite app_length_s in Hn. cbn [String.length] in Hn. lia.
Qed.
