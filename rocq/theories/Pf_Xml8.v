(** Texts that stop before the end of the root element, and what every accepted document
    looks like. *)
From Coq Require Import String List Arith NArith Ascii Bool Lia.
From Verif Require Import Base Num Urdf Kin TinyXml Spec_Xml Pf_Xml1 Pf_Xml2 Pf_Xml3 Pf_Xml4 Pf_Xml5 Pf_Xml6 Pf_Xml7.
Import ListNotations.
Local Open Scope string_scope.
Local Open Scope m_scope.

(** ** an element that could not be read leaves an error *)
Lemma set_error e p st st1 u : SetError e p st = (st1, Ok u) -> p_err st1 = true.
Proof.
  unfold SetError. destruct (p_err st) eqn:E; [intros H; injection H as <- _; exact E|].
  destruct p as [q|]; [|intros H; injection H as <- _; reflexivity].
  unfold Stamp. destruct (stamp_walk _ _ _ _); [intros H; injection H as <- _; reflexivity|discriminate].
Qed.
Lemma set_error_then {A} e p (a : A) st st1 b : (SetError e p ;;; ret a) st = (st1, Ok b) -> p_err st1 = true.
Proof.
  intros H. apply bind_then in H as (st2 & u & H1 & H2). injection H2 as <- _. exact (set_error _ _ _ _ _ H1).
Qed.
Lemma element_null e : forall n,
  (forall p st st1 x, elem_parse n e p st = (st1, Ok (None, x)) -> p_err st1 = true) /\
  (forall name attrs s st st1 x, attrs_loop n e name attrs s st = (st1, Ok (None, x)) -> p_err st1 = true).
Proof.
  induction n as [|n [IHe IHa]]; split; intros until x; intros H; [discriminate H|discriminate H| |].
  - cbn [elem_parse] in H. destruct (SkipWhiteSpace e p) as [[|c t]|]; try exact (set_error_then _ _ _ _ _ _ H).
    apply stamp_then in H as (st2 & H). destruct (negb (is "<" c)); [exact (set_error_then _ _ _ _ _ _ H)|].
    cbv zeta in H. destruct (ReadName (SkipWhiteSpace e (Some t))) as [nm [[|y q]|]]; try exact (set_error_then _ _ _ _ _ _ H).
    exact (IHa _ _ _ _ _ _ H).
  - cbn [attrs_loop] in H. destruct (SkipWhiteSpace e (Some s)) as [[|c t]|]; try exact (set_error_then _ _ _ _ _ _ H).
    destruct (is "/" c).
    { destruct t as [|d t]; [exact (set_error_then _ _ _ _ _ _ H)|].
      destruct (is ">" d); [discriminate H|exact (set_error_then _ _ _ _ _ _ H)]. }
    destruct (is ">" c).
    + apply bind_then in H as (st2 & [p kids] & _ & H). cbn [fst snd] in H. cbv zeta in H.
      destruct p as [[|y u]|]; try exact (set_error_then _ _ _ _ _ _ H).
      destruct (StringEqual ("</" ++ name) (String y u)); [|exact (set_error_then _ _ _ _ _ _ H)].
      destruct (SkipWhiteSpace e _) as [[|d t']|]; try exact (set_error_then _ _ _ _ _ _ H).
      destruct (is ">" d); [discriminate H|exact (set_error_then _ _ _ _ _ _ H)].
    + apply bind_then in H as (st2 & [p a] & _ & H). cbn [fst snd] in H.
      destruct p as [[|y s']|]; try exact (set_error_then _ _ _ _ _ _ H).
      destruct (known (a_name a) attrs); [exact (set_error_then _ _ _ _ _ _ H)|exact (IHa _ _ _ _ _ _ H)].
Qed.

(** ** the first element of a document: where it ends *)
Fixpoint first_element (n : nat) (e : encoding) (p : ptr) : M pst (option (ptr * xml)) :=
  match p with
  | None | Some "" => ret None
  | Some (String c t as q) =>
      match n with
      | O => lift Diverge
      | S n' =>
          match Identify e p with
          | None => ret None
          | Some KElement => r <- elem_parse (depth_for q) e p ;; ret (Some r)
          | Some KDeclaration =>
              r <- decl_parse e p ;;
              let e' := announced e (snd r) in first_element n' e' (SkipWhiteSpace e' (fst r))
          | Some KComment => p' <- comment_parse e p ;; first_element n' e (SkipWhiteSpace e p')
          | Some KCData => p' <- cdata_parse e p ;; first_element n' e (SkipWhiteSpace e p')
          | Some KUnknown => p' <- unknown_parse e p ;; first_element n' e (SkipWhiteSpace e p')
          end
      end
  end.
Definition first_from n e s := first_element n e (SkipWhiteSpace e (Some s)).

Definition only_other (l : list xml) : Prop := Forall (fun x => x = XOther) l.

Lemma doc_first : forall n e nodes p st st1 nodes', doc_loop n e nodes p st = (st1, Ok nodes') ->
  exists st0 o, first_element n e p st = (st0, Ok o) /\
    match o with
    | None => only_other nodes -> only_other nodes'
    | Some (None, _) => p_err st1 = true
    | Some (Some _, _) => True
    end.
Proof.
  induction n as [|n IH]; intros e nodes p st st1 nodes' H; destruct p as [[|c t]|]; cbn [doc_loop first_element] in *;
    try (injection H as <- <-; eexists _, None; split; [reflexivity|tauto]); [discriminate H|].
  assert (SNOC : only_other nodes -> only_other (nodes ++ [XOther])%list).
  { intros O. apply Forall_app. split; [exact O|]. constructor; [reflexivity|constructor]. }
  assert (NEXT : forall e' p' st2, doc_loop n e' (nodes ++ [XOther])%list p' st2 = (st1, Ok nodes') ->
            exists st0 o, first_element n e' p' st2 = (st0, Ok o) /\
              match o with None => only_other nodes -> only_other nodes' | Some (None, _) => p_err st1 = true | Some (Some _, _) => True end).
  { intros e' p' st2 Hn. destruct (IH _ _ _ _ _ _ Hn) as (st0 & o & E & K). exists st0, o. split; [exact E|].
    destruct o as [[[r|] x]|]; [exact I|exact K|]. intros O. exact (K (SNOC O)). }
  destruct (Identify e (Some (String c t))) as [[]|].
  - apply bind_then in H as (st2 & r & Hm & H). destruct (NEXT _ _ _ H) as (st0 & o & E & K). exists st0, o.
    split; [|exact K]. unfold bind. rewrite Hm. exact E.
  - apply bind_then in H as (st2 & r & Hm & H). destruct (NEXT _ _ _ H) as (st0 & o & E & K). exists st0, o.
    split; [|exact K]. unfold bind. rewrite Hm. exact E.
  - apply bind_then in H as (st2 & r & Hm & H). destruct (NEXT _ _ _ H) as (st0 & o & E & K). exists st0, o.
    split; [|exact K]. unfold bind. rewrite Hm. exact E.
  - apply bind_then in H as (st2 & r & Hm & H). destruct (NEXT _ _ _ H) as (st0 & o & E & K). exists st0, o.
    split; [|exact K]. unfold bind. rewrite Hm. exact E.
  - apply bind_then in H as (st2 & [p x] & Hm & H). cbn [fst snd] in H. exists st2, (Some (p, x)).
    split; [unfold bind; rewrite Hm; reflexivity|]. destruct p as [r|]; [exact I|].
    cbn [SkipWhiteSpace] in H. assert (st1 = st2) as -> by (destruct n; injection H as <- _; reflexivity).
    exact (proj1 (element_null e _) _ _ _ _ Hm).
  - injection H as <- <-. eexists _, None. split; [reflexivity|tauto].
Qed.

Lemma skip_twice e s : skip_spaces e (skip_spaces e s) = skip_spaces e s.
Proof.
  assert (X : forall n s, slen s <= n -> skip_spaces e (skip_spaces e s) = skip_spaces e s).
  { clear s. induction n as [|n IH]; intros s L; (destruct s as [|a s]; [reflexivity|]); cbn in L; [lia|].
    rewrite (skip_cons e a s). destruct (is_utf8 e && is LEAD_0 a && _) eqn:E.
    - destruct s as [|b [|c s]]; [rewrite andb_false_r in E; discriminate E ..|]. apply IH. cbn in L. lia.
    - destruct (is_space a) eqn:SP; [apply IH; lia|]. rewrite skip_cons, E, SP. reflexivity. }
  exact (X (slen s) s (le_n _)).
Qed.

Lemma first_carries t : forall n n' e s st st1 r x, n <= n' ->
  first_from n e s st = (st1, Ok (Some (Some r, x))) -> runs (first_from n' e (s ++ t)) (Some (Some (r ++ t), x)).
Proof.
  induction n as [|n IH]; intros n' e s st st1 r x Hn H; unfold first_from in *;
    (destruct (SkipWhiteSpace e (Some s)) as [[|c q]|] eqn:S1; [discriminate H| |discriminate H]); [discriminate H|].
  destruct n' as [|n']; [lia|]. cbn [first_element] in H.
  assert (LT : c = "<"%char).
  { destruct (Ascii.eqb_spec c "<") as [E|NE]; [exact E|]. exfalso.
    assert (ID : Identify e (Some (String c q)) = None).
    { destruct s as [|a s]; [discriminate S1|]. 
      assert (X : skip_spaces e (String c q) = String c q).
      { pose proof (skip_twice e (String a s)) as X.
        assert (S2 : skip_spaces e (String a s) = String c q) by (injection S1 as S1; exact S1). rewrite S2 in X. exact X. }
      unfold Identify. cbn [SkipWhiteSpace]. rewrite X. rewrite (is_not "<" c NE). reflexivity. }
    rewrite ID in H. discriminate H. }
  subst c. destruct (skip_ext_p e t _ _ S1 ltac:(discriminate)) as [S1'|HF].
  2: { destruct (half_head e _ HF) as (z & Z). discriminate Z. }
  rewrite S1'. cbn [append first_element].
  assert (NEXT1 : forall (m m' : M pst ptr) e', carries1 t m m' ->
            (p <- m ;; first_element n e' (SkipWhiteSpace e' p)) st = (st1, Ok (Some (Some r, x))) ->
            runs (p <- m' ;; first_element n' e' (SkipWhiteSpace e' p)) (Some (Some (r ++ t), x))).
  { intros m m' e' C Hb. apply bind_then in Hb as (st2 & p & Hm & Hb).
    destruct p as [[|y p]|]; [destruct n; discriminate Hb| |destruct n; discriminate Hb].
    eapply runs_bind; [apply (C _ _ _ Hm); discriminate|]. exact (IH n' e' (String y p) _ _ _ _ ltac:(lia) Hb). }
  destruct (same_opener e t q) as [(O1 & O2 & O3)|[_ E2]].
  { exfalso. rewrite O2 in H. apply bind_then in H as (st2 & p & Hm & H). unfold unknown_parse in Hm.
    rewrite skip_solid_p in Hm by apply lt_solid. apply stamp_then in Hm as (st3 & Hm).
    change (is "<" "<") with true in Hm. cbn iota in Hm. rewrite O1 in Hm. injection Hm as _ <-.
    destruct n; discriminate H. }
  rewrite E2. destruct (Identify e (Some (String "<" q))) as [[]|]; [| | | | |discriminate H].
  - apply bind_then in H as (st2 & [p b] & Hm & H). cbn [fst snd] in H. cbv zeta in H.
    destruct p as [[|y p]|]; [destruct n; discriminate H| |destruct n; discriminate H].
    eapply runs_bind; [apply (decl_carries t e q _ _ _ _ Hm); discriminate|]. cbn [fst snd]. cbv zeta.
    exact (IH n' _ (String y p) _ _ _ _ ltac:(lia) H).
  - exact (NEXT1 _ _ e (comment_carries t e q) H).
  - exact (NEXT1 _ _ e (cdata_carries t e q) H).
  - exact (NEXT1 _ _ e (unknown_carries t e q) H).
  - apply bind_then in H as (st2 & [p b] & Hm & H). injection H as _ -> ->.
    assert (DF : depth_for (String "<" q) <= depth_for (String "<" (q ++ t))).
    { unfold depth_for. cbn [String.length]. rewrite app_length_s. lia. }
    eapply runs_bind; [exact (proj1 (elements_carry t e (depth_for (String "<" q))) _ (String "<" q) DF _ _ _ _ Hm)|].
    apply runs_ret.
Qed.

(** ** the first element of a well-formed document *)
Lemma first_misc e m k : misc_text m k ->
  forall (r : option (ptr * xml)) rest n,
  (forall n', slen rest <= n' -> runs (first_from n' e rest) r) ->
  slen m + slen rest <= n -> rest <> "" ->
  runs (first_from n e (m ++ rest)) r.
Proof.
  induction 1 as [|w t k W M IH|c t k C M IH|c t k C M IH]; intros r rest n K Hn NE.
  - exact (K n ltac:(cbn in Hn; lia)).
  - rewrite app_length_s in Hn. specialize (IH r rest n K ltac:(lia) NE). rewrite <- app_assoc_s.
    unfold first_from in *. rewrite skip_white_p; [exact IH|exact W|]. destruct t; [exact NE|discriminate].
  - rewrite <- app_assoc_s. rewrite app_length_s in Hn.
    pose proof (identify_comment e c (t ++ rest) C) as ID. pose proof (runs_comment e c (t ++ rest) C) as RC.
    destruct C as (b & -> & _). rewrite !app_length_s in Hn. cbn [String.length] in Hn.
    unfold first_from. rewrite <- !app_assoc_s in *. rewrite skip_solid_p by (split; reflexivity).
    destruct n as [|n]; [lia|]. cbn [append] in *. cbn [first_element]. rewrite ID.
    eapply runs_bind; [exact RC|]. apply (IH r rest n K); [lia|exact NE].
  - rewrite <- app_assoc_s. rewrite app_length_s in Hn.
    pose proof (identify_doctype e c (t ++ rest) C) as ID. pose proof (runs_doctype e c (t ++ rest) C) as RC.
    destruct C as (b & -> & _). rewrite !app_length_s in Hn. cbn [String.length] in Hn.
    unfold first_from. rewrite <- !app_assoc_s in *. rewrite skip_solid_p by (split; reflexivity).
    destruct n as [|n]; [lia|]. cbn [append] in *. cbn [first_element]. rewrite ID.
    eapply runs_bind; [exact RC|]. apply (IH r rest n K); [lia|exact NE].
Qed.
Lemma first_root e el x n : element_text el x -> slen el <= n ->
  runs (first_from n e el) (Some (Some "", x)).
Proof.
  intros ET Hn. destruct (element_starts el x ET) as (c & t & Et & NF & L).
  assert (D : 4 * slen el <= depth_for (el ++ "")) by (unfold depth_for; rewrite app_length_s; lia).
  pose proof (proj1 parse_elements el x ET e "" _ D) as RE. rewrite app_nil_s in *. rewrite Et in *. cbn [append] in *.
  unfold first_from. rewrite skip_solid_p by (split; reflexivity).
  destruct n as [|n]; [lia|]. cbn [first_element]. rewrite (identify_element e c _ NF).
  eapply runs_bind; [exact RE|]. apply runs_ret.
Qed.
Lemma first_document pre kp el x n : prolog_text pre kp -> element_text el x -> slen pre + slen el <= n ->
  runs (first_from n (bom (pre ++ el)) (pre ++ el)) (Some (Some "", x)).
Proof.
  intros P ET Hn.
  assert (R : el <> "") by (destruct (element_starts el x ET) as (c & t & -> & _); discriminate).
  assert (SKB : forall b s, b = "" \/ b = bom_text -> s <> "" ->
            SkipWhiteSpace (bom (b ++ s)) (Some (b ++ s)) = SkipWhiteSpace (bom (b ++ s)) (Some s)).
  { intros b s [->| ->] NE; [reflexivity|]. destruct s; [contradiction|]. reflexivity. }
  destruct P as [b m k B M|b d m k B D M].
  - assert (NE : m ++ el <> "") by (destruct m; [exact R|discriminate]).
    rewrite <- app_assoc_s. unfold first_from. rewrite (SKB b (m ++ el) B NE).
    rewrite app_length_s in Hn.
    apply (first_misc (bom (b ++ m ++ el)) m k M _ el n); [|lia|exact R]. intros n' Hn'. apply (first_root _ el x n' ET Hn').
  - assert (NE : d ++ m ++ el <> "").
    { destruct D as (ats & l & w & -> & _). discriminate. }
    rewrite <- !app_assoc_s. unfold first_from. rewrite (SKB b (d ++ m ++ el) B NE).
    generalize (bom (b ++ d ++ m ++ el)). intros e. rewrite !app_length_s in Hn.
    pose proof (identify_declaration e d (m ++ el) D) as ID.
    destruct (runs_declaration e d (m ++ el) D) as (enc & RD).
    destruct D as (ats & l & w & -> & _). rewrite !app_length_s in Hn. cbn [String.length] in Hn.
    rewrite <- !app_assoc_s in *. rewrite skip_solid_p by (split; reflexivity). cbn [append] in *.
    destruct n as [|n]; [lia|]. cbn [first_element]. rewrite ID.
    eapply runs_bind; [exact RD|]. cbn [fst snd].
    apply (first_misc _ m k M _ el n); [|lia|exact R]. intros n' Hn'. apply (first_root _ el x n' ET Hn').
Qed.

(** ** texts that stop too early *)
Lemma bom_ext s t : bom (s ++ t) = bom s \/ (bom s = ENC_UNKNOWN /\ exists b, b <> "" /\ bom_text = s ++ b).
Proof.
  destruct s as [|a [|b [|c s]]]; [| | |left; reflexivity].
  - right. split; [reflexivity|]. exists bom_text. split; [discriminate|reflexivity].
  - destruct t as [|b [|c t]]; [left; reflexivity ..|]. cbn [append bom].
    destruct (is LEAD_0 a) eqn:A; [|left; reflexivity]. apply is_iff in A. subst a.
    right. split; [reflexivity|]. exists (String "187" (String "191" "")). split; [discriminate|reflexivity].
  - destruct t as [|c t]; [left; reflexivity|]. cbn [append bom].
    destruct (is LEAD_0 a) eqn:A; [|left; reflexivity]. destruct (is LEAD_1 b) eqn:B; [|left; reflexivity].
    apply is_iff in A, B. subst a b. right. split; [reflexivity|]. exists (String "191" ""). split; [discriminate|reflexivity].
Qed.

Theorem early_end pre kp el x early rest nodes :
  prolog_text pre kp -> element_text el x -> pre ++ el = early ++ rest -> rest <> "" ->
  tinyxml_parse early = Ok (Some nodes) -> only_other nodes.
Proof.
  intros P ET Cut NE H. unfold tinyxml_parse in H.
  assert (NZ : c_str early = early).
  { apply c_str_id. pose proof (utf8_nonzero _ (utf8_app _ _ (prolog_utf8 _ _ P) (proj1 elements_utf8 _ _ ET))) as X.
    rewrite Cut in X. apply each_app in X. exact (proj1 X). }
  rewrite NZ in H.
  destruct (SkipWhiteSpace (bom early) (Some early)) as [q|] eqn:SK; [|discriminate H].
  destruct (doc_loop (slen early) (bom early) [] (Some q) (mkP false early)) as [st [l| | |]] eqn:D; try discriminate H.
  destruct (p_err st) eqn:PE; [discriminate H|].
  assert (l = nodes) as -> by (destruct l; [discriminate H|injection H as <-; reflexivity]). clear H.
  destruct (doc_first _ _ _ _ _ _ _ D) as (st0 & o & F & K).
  destruct o as [[[r|] y]|]; [exfalso|congruence|apply K; constructor].
  rewrite <- SK in F. change (first_from (slen early) (bom early) early (mkP false early) = (st0, Ok (Some (Some r, y)))) in F.
  destruct (bom_ext early rest) as [EB|(EB & b & Nb & Bt)].
  - assert (L : slen early <= slen pre + slen el).
    { rewrite <- app_length_s, Cut, app_length_s. lia. }
    pose proof (first_carries rest _ _ _ _ _ _ _ _ L F) as R1.
    pose proof (first_document pre kp el x _ P ET (le_n _)) as R2. rewrite Cut, EB in R2.
    destruct (R1 (mkP false "") (conj eq_refl I)) as (s1 & _ & X1).
    destruct (R2 (mkP false "") (conj eq_refl I)) as (s2 & _ & X2). rewrite X1 in X2. injection X2 as _ X2 _.
    destruct r; [exact (NE X2)|discriminate X2].
  - rewrite EB in F. unfold bom_text in Bt. destruct early as [|c0 early]; [discriminate SK|]. cbn [append] in Bt. injection Bt as <- Bt.
    destruct early as [|c1 early]; [discriminate F|]. cbn [append] in Bt. injection Bt as <- Bt.
    destruct early as [|c2 early]; [discriminate F|]. cbn [append] in Bt. injection Bt as <- Bt.
    destruct early; [exact (Nb (eq_sym Bt))|discriminate Bt].
Qed.

Lemma no_children tag l : only_other l -> children tag l = [].
Proof. induction 1 as [|x l -> _ IH]; [reflexivity|exact IH]. Qed.

Section Load.
Context {A : Arith}.
Theorem early_end_ctor pre kp el x early rest m :
  prolog_text pre kp -> element_text el x -> pre ++ el = early ++ rest -> rest <> "" ->
  ctor_text early <> Ok m.
Proof.
  intros P ET Cut NE H. unfold ctor_text in H. destruct early as [|c early]; [discriminate H|].
  destruct (tinyxml_parse (String c early)) as [[nodes|]| | |] eqn:T; try discriminate H.
  pose proof (early_end _ _ _ _ _ _ _ P ET Cut NE T) as O. cbn [rbind parseURDF_dom] in H.
  rewrite (no_children "robot" nodes O) in H. discriminate H.
Qed.
End Load.

(** ** what the parser hands out *)
Notation clean := distinct_attributes.
Definition all_clean (l : list xml) : Prop := Forall clean l.
Lemma clean_kids n l k : NoDup (map fst l) -> all_clean k -> clean (XElem n l k).
Proof.
  intros H K. split; [exact H|]. induction K as [|y k Y _ IH]; [exact I|]. split; [exact Y|exact IH].
Qed.
Lemma dom_names attrs : map fst (map dom_attr attrs) = map a_name attrs.
Proof. rewrite map_map. reflexivity. Qed.
Lemma known_not a l : known a l = false -> ~ In a (map a_name l).
Proof.
  unfold known. induction l as [|b l IH]; cbn; [tauto|]. intros H. apply orb_false_iff in H as [H1 H2].
  apply String.eqb_neq in H1. intros [E|E]; [exact (H1 E)|exact (IH H2 E)].
Qed.
Lemma NoDup_snoc {T} (l : list T) a : NoDup l -> ~ In a l -> NoDup (l ++ [a]).
Proof.
  intros H N. induction H as [|b l Nb _ IH]; cbn; [constructor; [intros []|constructor]|].
  constructor; [|apply IH; intros E; apply N; right; exact E]. rewrite in_app_iff. intros [E|[E|[]]]; [exact (Nb E)|].
  apply N. left. symmetry. exact E.
Qed.
Lemma all_clean_snoc l x : all_clean l -> clean x -> all_clean (l ++ [x])%list.
Proof. intros L X. apply Forall_app. split; [exact L|]. constructor; [exact X|constructor]. Qed.
Lemma set_error_val {A} e p (a : A) st st1 b : (SetError e p ;;; ret a) st = (st1, Ok b) -> b = a.
Proof. intros H. apply bind_then in H as (st2 & u & _ & H). injection H as _ <-. reflexivity. Qed.

Lemma elements_clean e : forall n,
  (forall p st st1 r x, elem_parse n e p st = (st1, Ok (r, x)) -> clean x) /\
  (forall name attrs s st st1 r x, NoDup (map a_name attrs) -> attrs_loop n e name attrs s st = (st1, Ok (r, x)) -> clean x) /\
  (forall kids p st st1 r k, all_clean kids -> read_value n e kids p st = (st1, Ok (r, k)) -> all_clean k).
Proof.
  assert (FAIL : forall (p : ptr) n l st st1 (r : ptr) x, NoDup (map fst l) ->
            (SetError e p ;;; ret ((None : ptr), XElem n l [])) st = (st1, Ok (r, x)) -> clean x).
  { intros p n l st st1 r x N H. apply set_error_val in H. injection H as _ ->. apply clean_kids; [exact N|constructor]. }
  induction n as [|n (IHe & IHa & IHv)]; split; [|split| |split].
  - intros until x; intros H; discriminate H.
  - intros until x; intros _ H; discriminate H.
  - intros until k; intros _ H; discriminate H.
  - intros p st st1 r x H. cbn [elem_parse] in H.
    destruct (SkipWhiteSpace e p) as [[|c t]|]; try (eapply FAIL; [|exact H]; constructor).
    apply stamp_then in H as (st2 & H). destruct (negb (is "<" c)); [eapply FAIL; [|exact H]; constructor|].
    cbv zeta in H. destruct (ReadName (SkipWhiteSpace e (Some t))) as [nm [[|y q]|]]; try (eapply FAIL; [|exact H]; constructor).
    eapply IHa; [|exact H]. constructor.
  - intros name attrs s st st1 r x N H. cbn [attrs_loop] in H.
    assert (N' : NoDup (map fst (map dom_attr attrs))) by (rewrite dom_names; exact N).
    destruct (SkipWhiteSpace e (Some s)) as [[|c t]|]; try (eapply FAIL; [|exact H]; exact N').
    destruct (is "/" c).
    { destruct t as [|d t]; [eapply FAIL; [|exact H]; exact N'|].
      destruct (is ">" d); [|eapply FAIL; [|exact H]; exact N']. injection H as _ _ <-. apply clean_kids; [exact N'|constructor]. }
    destruct (is ">" c).
    + apply bind_then in H as (st2 & [p kids] & Hv & H). cbn [fst snd] in H. cbv zeta in H.
      pose proof (IHv _ _ _ _ _ _ ltac:(constructor) Hv) as CK.
      assert (FAIL' : forall (p : ptr), (SetError e p ;;; ret ((None : ptr), XElem name (map dom_attr attrs) kids)) st2 = (st1, Ok (r, x)) -> clean x).
      { intros p' H'. apply set_error_val in H'. injection H' as _ ->. apply clean_kids; [exact N'|exact CK]. }
      destruct p as [[|y u]|]; try exact (FAIL' _ H).
      destruct (StringEqual ("</" ++ name) (String y u)); [|exact (FAIL' _ H)].
      destruct (SkipWhiteSpace e _) as [[|d t']|]; try exact (FAIL' _ H).
      destruct (is ">" d); [|exact (FAIL' _ H)]. injection H as _ _ <-. apply clean_kids; [exact N'|exact CK].
    + apply bind_then in H as (st2 & [p a] & _ & H). cbn [fst snd] in H.
      destruct p as [[|y s']|]; try (eapply FAIL; [|exact H]; exact N').
      destruct (known (a_name a) attrs) eqn:KN; [eapply FAIL; [|exact H]; exact N'|].
      eapply IHa; [|exact H]. rewrite map_app. apply NoDup_snoc; [exact N|]. apply known_not, KN.
  - intros kids p st st1 r k CK H. cbn [read_value] in H.
    destruct (SkipWhiteSpace e p) as [[|c t]|].
    { injection H as _ _ <-. exact CK. }
    2: { apply set_error_val in H. injection H as _ ->. exact CK. }
    destruct (negb (is "<" c)).
    { apply bind_then in H as (st2 & r0 & _ & H). eapply IHv; [|exact H].
      destruct (blank (snd r0)); [exact CK|]. apply all_clean_snoc; [exact CK|exact I]. }
    destruct (StringEqual "</" (String c t)); [injection H as _ _ <-; exact CK|].
    destruct (Identify e (Some (String c t))) as [[]|]; [| | | | |injection H as _ _ <-; exact CK];
      apply bind_then in H as (st2 & r0 & Hm & H); (eapply IHv; [|exact H]); apply all_clean_snoc; try exact CK; try exact I.
    destruct r0 as [p0 x0]. exact (IHe _ _ _ _ _ Hm).
Qed.
Lemma doc_clean : forall n e nodes p st st1 l, all_clean nodes -> doc_loop n e nodes p st = (st1, Ok l) -> all_clean l.
Proof.
  induction n as [|n IH]; intros e nodes p st st1 l C H; destruct p as [[|c t]|]; cbn [doc_loop] in H;
    try (injection H as _ <-; exact C); [discriminate H|].
  destruct (Identify e (Some (String c t))) as [[]|]; [| | | | |injection H as _ <-; exact C];
    apply bind_then in H as (st2 & r0 & Hm & H); (eapply IH; [|exact H]); apply all_clean_snoc; try exact C; try exact I.
  destruct r0 as [p0 x0]. exact (proj1 (elements_clean e _) _ _ _ _ _ Hm).
Qed.
Theorem parse_clean text nodes : tinyxml_parse text = Ok (Some nodes) -> all_clean nodes.
Proof.
  unfold tinyxml_parse. destruct (SkipWhiteSpace _ _) as [q|]; [|discriminate].
  destruct (doc_loop _ _ _ _ _) as [st [l| | |]] eqn:E; try discriminate. destruct (p_err st); [discriminate|].
  destruct l as [|y l]; [discriminate|]. intros H. injection H as <-. eapply doc_clean; [|exact E]. constructor.
Qed.
