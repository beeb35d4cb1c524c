(** C90, C91: the files of the bundled robots that importing the Python package fetches. *)
From Coq Require Import String Ascii List Arith Lia.
From Verif Require Import Base Num Pose DataStructure Urdf Kin Wrapper Py TinyXml Import
  Spec_Xml Pf_Xml6 Pf_Xml8 Pf_Import Ex_Robot Ex_Xml Thm_Xml.
Import ListNotations.
Local Open Scope string_scope.

(** what [T] sends is on disk, for both robots *)
Definition both_there (T : Server) (d : Disk) : Prop := forall r, file d r = Some (T r).
(** the import of process [i] has returned to the caller *)
Definition returned (ps : list ipc) (i : nat) : Prop := exists b, nth_error ps i = Some (I_done b).
(** nothing fails in the history *)
Definition no_failure (es : list ievent) : Prop := forall i t, In (E_turn i t) es -> t <> Fail.
Definition nobody : list ipc := [].

(** C90 fails: an import that returned does not imply that the robots are there.
    1. The connection fails during the first import: the second one returns without files.
    2. The first import is killed while it copies: the second one returns with a cut file.
    3. Nothing fails and nobody is killed, but two imports overlap: one returns without files.
    4. Nothing fails and nobody is killed, but two imports overlap: one raises. *)
Theorem C90_import_fetches_robots_refuted :
  forall T, 1 < String.length (T Pr2) ->
  (exists es d ps, history T es (no_disk, nobody) = (d, ps) /\ returned ps 1 /\ file d Pr2 = None /\ file d Fetch = None) /\
  (exists es d ps c rest, history T es (no_disk, nobody) = (d, ps) /\ no_failure es /\ returned ps 1 /\
     file d Pr2 = Some c /\ c <> "" /\ T Pr2 = c ++ rest /\ rest <> "") /\
  (exists es es' d ps d' ps', no_failure (es ++ es') /\
     history T es (no_disk, nobody) = (d, ps) /\ returned ps 1 /\ file d Pr2 = None /\
     history T es' (d, ps) = (d', ps') /\ returned ps' 0 /\ both_there T d') /\
  (exists es d ps, no_failure es /\ history T es (no_disk, nobody) = (d, ps) /\ nth_error ps 1 = Some I_raised).
Proof.
  intros T L. split; [|split; [|split]].
  - exists [E_import; E_turn 0 (Go 0); E_turn 0 (Go 0); E_turn 0 Fail; E_import; E_turn 1 (Go 0)].
    eexists _, _. split; [reflexivity|]. split; [exists false; reflexivity|]. split; reflexivity.
  - exists [E_import; E_turn 0 (Go 0); E_turn 0 (Go 0); E_turn 0 (Go 0); E_turn 0 (Go 0); E_import; E_turn 1 (Go 0)].
    destruct (T Pr2) as [|a [|b t]] eqn:E; cbn in L; try lia.
    eexists _, _, (String a ""), (String b t). split; [cbn; rewrite E; cbn; reflexivity|].
    split; [intros i t' H; cbn in H; repeat (destruct H as [H|H]; [injection H as <- <- || discriminate H; try discriminate|]); destruct H|].
    split; [exists false; reflexivity|]. repeat split; discriminate.
  - remember (String.length (T Pr2) + String.length (T Fetch) + 6) as n eqn:En.
    exists [E_import; E_turn 0 (Go 0); E_turn 0 (Go 0); E_import; E_turn 1 (Go 0)], (map (E_turn 0) (repeat (Go 0) n)).
    exists (mkDisk true None None), [I_request Pr2; I_done false]. eexists _, _. split.
    { intros i t H. apply in_app_or in H. destruct H as [H|H].
      - cbn in H. repeat (destruct H as [H|H]; [injection H as <- <- || discriminate H; try discriminate|]). destruct H.
      - apply in_map_iff in H. destruct H as (u & E & H). injection E as <- <-. apply repeat_spec in H. subst u. discriminate. }
    split; [reflexivity|]. split; [exists false; reflexivity|]. split; [reflexivity|].
    split; [apply surjective_pairing|].
    assert (D : forall d p q, history T (map (E_turn 0) (repeat (Go 0) n)) (d, [p; q]) =
                let s := fold_left (fun s t => istep T (fst s) (snd s) t) (repeat (Go 0) n) (d, p) in (fst s, [snd s; q])).
    { generalize (repeat (Go 0) n) as ts. clear. induction ts as [|t ts IH]; intros d p q; [reflexivity|].
      cbn [map history ievent_step fst snd nth_error fold_left]. destruct (istep T d p t) as [d' p']. cbn [list_set]. apply IH. }
    cbn [fst snd app d_dir no_disk d_pr2 d_fetch]. rewrite D. cbv zeta. cbn [fst snd].
    assert (F : Forall (fun t => t <> Fail) (Go 0 :: Go 0 :: repeat (Go 0) n))
      by (repeat (constructor; [discriminate|]); apply Forall_forall; intros t H; apply repeat_spec in H; subst t; discriminate).
    assert (Ln : n <= List.length (Go 0 :: Go 0 :: repeat (Go 0) n)) by (cbn; rewrite repeat_length; lia).
    rewrite En in Ln at 1. pose proof (alone_done T _ F Ln) as K. unfold alone in K. cbn [fold_left fst snd istep no_disk d_dir d_pr2 d_fetch] in K. rewrite K.
    split; [exists true; reflexivity|]. intros []; reflexivity.
  - exists [E_import; E_import; E_turn 0 (Go 0); E_turn 1 (Go 0); E_turn 0 (Go 0); E_turn 1 (Go 0)].
    eexists _, _. split; [|split; reflexivity].
    intros i t H; cbn in H. repeat (destruct H as [H|H]; [injection H as <- <- || discriminate H; try discriminate|]). destruct H.
Qed.
Print Assumptions C90_import_fetches_robots_refuted.

(** C90, what holds.  At every point of every history each file is the beginning of what
    the server sends; as soon as an import that downloads has returned, both are complete. *)
Theorem C90_files_are_beginnings_partial :
  forall T es d ps, history T es (no_disk, nobody) = (d, ps) ->
    (forall r c, file d r = Some c -> exists rest, T r = c ++ rest) /\
    (forall i, nth_error ps i = Some (I_done true) -> both_there T d) /\
    (forall i, returned ps i -> d_dir d = true).
Proof.
  intros T es d ps E. pose proof (inv_history T es _ (inv_start T)) as I. unfold nobody in E. rewrite E in I.
  destruct I as [[D H]|(D & PP & U & F)]; cbn [fst snd] in *.
  - subst d. split; [intros [] c; discriminate|]. split.
    + intros i Hi. destruct (H i _ Hi) as [W _]. exfalso. apply W. exact I.
    + intros i [[] Hi]; destruct (H i _ Hi) as [W W']; [exfalso; apply W; exact I|congruence].
  - split; [|split; [|auto]].
    + intros r c Hc. destruct (PP r c Hc) as [n ->]. exists (substring n (String.length (T r)) (T r)).
      rewrite <- take_split. symmetry. apply take_all. lia.
    + intros i Hi. destruct (F i _ Hi I) as [E1 E2]. intros []; assumption.
Qed.
Print Assumptions C90_files_are_beginnings_partial.

(** C90, what holds.  The first import on its own, when nothing fails, fetches both. *)
Theorem C90_first_import_partial :
  forall T ts, (forall t, In t ts -> t <> Fail) ->
    String.length (T Pr2) + String.length (T Fetch) + 6 <= List.length ts ->
    exists d, history T (E_import :: map (E_turn 0) ts) (no_disk, nobody) = (d, [I_done true]) /\ both_there T d.
Proof.
  intros T ts F L. exists (mkDisk true (Some (T Pr2)) (Some (T Fetch))). split; [|intros []; reflexivity].
  cbn [history ievent_step fst snd nobody app]. rewrite history_alone. cbv zeta.
  pose proof (alone_done T ts) as K. unfold alone in K. rewrite K; [reflexivity| |exact L].
  apply Forall_forall. exact F.
Qed.
Print Assumptions C90_first_import_partial.

(** C90, for ever.  Once the directory is there and no import is downloading any more
    (finished, failed or killed), whatever is on disk stays: later imports all return, the
    missing parts never arrive and nothing that is there is lost. *)
Theorem C90_later_imports_partial :
  forall T es d ps es', history T es (no_disk, nobody) = (d, ps) -> d_dir d = true ->
    no_failure es' ->
    (forall i t p, In (E_turn i t) es' -> nth_error ps i = Some p -> ~ busy p) ->
    exists ps', history T es' (d, ps) = (d, ps') /\
      forall i p, nth_error ps' i = Some p -> List.length ps <= i -> p = I_exists \/ returned ps' i.
Proof.
  intros T es d ps es' _ D NF NB.
  destruct (settled T es' d ps D) as (ps' & E & _ & H); [intros i t Hi; split; [exact (NF i t Hi)|intros p Hp; exact (NB i t p Hi Hp)]|].
  exists ps'. split; [exact E|]. intros i p Hp Li. destruct (H i p Hp Li) as [->| ->]; [auto|right; exists false; exact Hp].
Qed.
Print Assumptions C90_later_imports_partial.

Example C90_example : exists (T : Server) es d ps, 1 < String.length (T Pr2) /\
  history T es (no_disk, nobody) = (d, ps) /\ d_dir d = true /\ nth_error ps 0 = Some (I_copy Fetch 3) /\
  nth_error ps 1 = Some (I_done false) /\ file d Pr2 = Some "<robot/>".
Proof.
  exists (fun r => match r with Pr2 => "<robot/>" | Fetch => "<robot name='f'/>" end),
    [E_import; E_turn 0 (Go 0); E_turn 0 (Go 0); E_turn 0 (Go 0); E_import; E_turn 0 (Go 5); E_turn 1 (Go 0); E_turn 0 (Go 5);
     E_turn 0 (Go 0); E_turn 0 (Go 0); E_turn 0 (Go 2)].
  eexists _, _. split; [vm_compute; lia|]. split; [vm_compute; reflexivity|]. repeat split.
Qed.

Lemma each_app P a b : each P (a ++ b) -> each P a.
Proof. induction a as [|c a IH]; [cbn; auto|]. intros H. cbn [append] in H. destruct H as [Hc Ha]. split; auto. Qed.

Lemma cut_cases (a b c e : string) : a ++ b = c ++ e ->
  (exists k, a = c ++ k /\ k <> "") \/ (exists k, c = a ++ k /\ b = k ++ e).
Proof.
  revert c. induction a as [|x a IH]; intros [|y c] E; cbn in *.
  - right. exists "". auto.
  - right. exists (String y c). auto.
  - left. exists (String x a). split; [reflexivity|discriminate].
  - injection E as -> E. destruct (IH c E) as [(k & -> & N)|(k & -> & E')]; [left|right]; exists k; auto.
Qed.

(** C91.  No history of imports, failures, kills and overlaps makes a bundled robot load as
    a different robot: what loads from the file is what loads from the text on the server. *)
Theorem C91_whole_robot_or_none :
  forall (A : Arith) T es d ps r before kp root x tail c m,
    history T es (no_disk, nobody) = (d, ps) ->
    T r = before ++ root ++ tail -> prolog_text before kp -> element_text root x -> white tail ->
    file d r = Some c -> ctor_text c = Ok m ->
    ctor_text (T r) = Ok m.
Proof.
  intros A T es d ps r before kp root x tail c m E Tr P El Wt Fc C.
  destruct (C90_files_are_beginnings_partial T es d ps E) as (B & _). destruct (B r c Fc) as [rest Cut].
  rewrite Tr in Cut. rewrite <- app_assoc_s in Cut. destruct (cut_cases _ _ _ _ Cut) as [(k & Ek & Nk)|(k & Ek & Et)].
  - exfalso. exact (C72_truncated_documents_never_load A before kp root x c k m P El Ek Nk C).
  - assert (Doc : forall w, white w -> document_text (before ++ root ++ w) (kp ++ x :: [])).
    { intros w Ww. exists before, kp, root, x, w, []. repeat split; auto.
      replace w with (w ++ "") by apply app_nil_s. apply mt_white; [exact Ww|apply mt_nil]. }
    assert (Wk : white k) by (apply (each_app _ k rest); rewrite <- Et; exact Wt).
    rewrite Tr. rewrite (ctor_text_ctor _ _ (C69_documents_are_read_as_written _ _ (Doc tail Wt))).
    rewrite Ek, app_assoc_s, (ctor_text_ctor _ _ (C69_documents_are_read_as_written _ _ (Doc k Wk))) in C.
    unfold ctor in C |- *. destruct (before ++ root ++ k) eqn:E1; [discriminate C|].
    destruct (before ++ root ++ tail) eqn:E2; [|exact C]. exfalso.
    destruct before; [|discriminate E2]. destruct root; [|discriminate E2]. inversion El.
Qed.
Print Assumptions C91_whole_robot_or_none.

Example C91_example : exists (T : Server) es d ps c,
  history T es (no_disk, nobody) = (d, ps) /\ returned ps 1 /\ file d Pr2 = Some c /\ c <> T Pr2 /\
  T Pr2 = ex_declaration ++ write ex_robot ++ String "010" "" /\
  prolog_text ex_declaration [XOther] /\ element_text (write ex_robot) ex_robot /\ white (String "010" "").
Proof.
  set (t := ex_declaration ++ write ex_robot ++ String "010" "").
  exists (fun _ => t), [E_import; E_turn 0 (Go 0); E_turn 0 (Go 0); E_turn 0 (Go 0); E_turn 0 (Go 6); E_import; E_turn 1 (Go 0)].
  eexists _, _, (substring 0 7 t). split; [vm_compute; reflexivity|]. split; [exists false; reflexivity|].
  split; [vm_compute; reflexivity|]. split; [intros K; apply (f_equal String.length) in K; vm_compute in K; discriminate K|].
  split; [reflexivity|]. split; [exact ex_prolog|]. split; [exact ex_element|]. split; [right; right; right; reflexivity|exact I].
Qed.

(** C51, Python.  A model from a file is the model of its text; exactly one of the two
    arguments has to be given, and nothing changes when the file is missing or the
    arguments are wrong. *)
Theorem C51_python_files :
  forall (A : Arith) tinyxml read path t w,
    (read path = Some t -> t <> "" -> py_new tinyxml read (Some path) None w = py_new tinyxml read None (Some t) w) /\
    (read path = None -> py_new tinyxml read (Some path) None w = (w, Throw OSError)) /\
    (read path = Some "" -> py_new tinyxml read (Some path) None w = (w, Throw RuntimeError)) /\
    py_new tinyxml read None None w = (w, Throw AssertionError) /\
    py_new tinyxml read (Some path) (Some t) w = (w, Throw AssertionError).
Proof.
  intros. unfold py_new, throw. repeat split.
  - intros -> N. destruct (String.eqb_spec t ""); [contradiction|reflexivity].
  - intros ->. reflexivity.
  - intros ->. reflexivity.
Qed.
Print Assumptions C51_python_files.
