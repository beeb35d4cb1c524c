(** Checkers for the hypotheses of the examples, and a robot description as text. *)
From Coq Require Import String List Arith NArith Ascii Bool.
From Verif Require Import Base Urdf TinyXml Spec_Xml Pf_Xml1 Pf_Xml6 Ex_Robot.
Import ListNotations.
Local Open Scope string_scope.

Fixpoint eachb (f : ascii -> bool) (s : string) : bool := match s with "" => true | String c t => f c && eachb f t end.
Lemma eachb_each f (P : ascii -> Prop) s : (forall c, f c = true -> P c) -> eachb f s = true -> each P s.
Proof.
  intros H. induction s as [|c s IH]; cbn; [intros _; exact I|]. intros E. apply andb_true_iff in E as [E1 E2].
  split; [exact (H c E1)|exact (IH E2)].
Qed.
Definition ascii_okb (s : string) : bool := eachb (between 1 127) s.
Lemma ascii_okb_ok s : ascii_okb s = true -> utf8_text s.
Proof. intros H. apply ascii_utf8. revert H. apply eachb_each. intros c. apply between_iff. Qed.
Definition letterb (c : ascii) : bool := between 65 90 c || between 97 122 c.
Definition laterb (c : ascii) : bool := letterb c || between 48 57 c || is "_" c || is "-" c || is "." c || is ":" c.
Lemma letterb_ok c : letterb c = true -> letter c.
Proof. unfold letterb. rewrite orb_true_iff, !between_iff. exact (fun H => H). Qed.
Lemma laterb_ok c : laterb c = true -> name_later c.
Proof.
  unfold laterb. rewrite !orb_true_iff, !is_iff, between_iff.
  intros [[[[[H|H]|H]|H]|H]|H]; [left; apply letterb_ok, H|right; left; exact H|do 2 right; left; exact H
    |do 3 right; left; exact H|do 4 right; left; exact H|do 5 right; exact H].
Qed.
Definition nameb (s : string) : bool :=
  match s with "" => false | String c t => (letterb c || is "_" c) && eachb laterb t end.
Lemma nameb_ok s : nameb s = true -> xml_name s.
Proof.
  destruct s as [|c s]; [discriminate|]. cbn. rewrite andb_true_iff, orb_true_iff, is_iff. intros [[H|H] T].
  - split; [left; apply letterb_ok, H|]. exact (eachb_each _ _ _ laterb_ok T).
  - split; [right; exact H|]. exact (eachb_each _ _ _ laterb_ok T).
Qed.
Fixpoint nodupb (l : list string) : bool :=
  match l with [] => true | a :: l' => negb (existsb (String.eqb a) l') && nodupb l' end.
Lemma nodupb_ok l : nodupb l = true -> NoDup l.
Proof.
  induction l as [|a l IH]; cbn; [constructor|]. rewrite andb_true_iff, negb_true_iff. intros [H1 H2].
  constructor; [|exact (IH H2)]. intros I. assert (X : existsb (String.eqb a) l = true); [|congruence].
  apply existsb_exists. exists a. split; [exact I|apply String.eqb_refl].
Qed.
Fixpoint writableb (x : xml) : bool :=
  match x with
  | XOther => true
  | XElem n l k =>
      nameb n && forallb (fun a => nameb (fst a) && ascii_okb (snd a)) l && nodupb (map fst l) &&
      (fix all (k : list xml) : bool := match k with [] => true | y :: k' => writableb y && all k' end) k
  end.
Lemma writableb_ok : forall x, writableb x = true -> writable x.
Proof.
  fix IH 1. intros [n l k|]; [|intros _; exact I]. cbn [writableb writable]. rewrite !andb_true_iff.
  intros [[[H1 H2] H3] H4]. split; [apply nameb_ok, H1|]. split.
  - apply Forall_forall. intros a Ia. rewrite forallb_forall in H2. specialize (H2 a Ia). apply andb_true_iff in H2 as [A B].
    split; [apply nameb_ok, A|apply ascii_okb_ok, B].
  - split; [apply nodupb_ok, H3|]. clear H1 H2 H3. induction k as [|y k IHk]; [exact I|].
    apply andb_true_iff in H4 as [Y K]. split; [exact (IH y Y)|exact (IHk K)].
Qed.

(** the robot of Ex_Robot.v as a text, with an XML declaration *)
Definition ex_declaration : string := "<?xml version=""1.0"" encoding='utf-8'?>".
Definition ex_robot : xml := el "robot" [("name", "ex"); ("version", "1.0")] ex_kids.
Definition ex_document : string := ex_declaration ++ write ex_robot.

Lemma ex_declaration_text : declaration_text ex_declaration.
Proof.
  exists (" version=""1.0"" encoding='utf-8'"), [("version", "1.0"); ("encoding", "utf-8")], "".
  split; [reflexivity|]. split.
  - assert (SP : forall q s, (q = """"%char \/ q = "'"%char) -> eachb (fun c => between 1 127 c && negb (is """" c) && negb (is "'" c) && negb (is "&" c)) s = true -> spells (eq q) s s).
    { intros q s Q. induction s as [|c s IH]; [constructor|]. cbn [eachb]. rewrite !andb_true_iff, !negb_true_iff.
      intros [[[[B N1] N2] N3] H]. apply (sp_char _ (String c "") s s); [constructor; apply between_iff, B| |exact (IH H)].
      intros c' E. injection E as <-. apply Ascii.eqb_neq in N1, N2, N3. destruct Q as [->| ->]; split; congruence. }
    apply (at_cons " " "version" "" "" """" "1.0" "1.0" " encoding='utf-8'");
      [split; [left; reflexivity|exact I]|discriminate|apply nameb_ok; reflexivity|exact I|exact I|left; reflexivity|apply SP; [left; reflexivity|reflexivity]|].
    apply (at_cons " " "encoding" "" "" "'" "utf-8" "utf-8" "");
      [split; [left; reflexivity|exact I]|discriminate|apply nameb_ok; reflexivity|exact I|exact I|right; reflexivity|apply SP; [right; reflexivity|reflexivity]|].
    constructor.
  - split; [exact I|]. constructor; [left; reflexivity|]. constructor; [right; left; reflexivity|constructor].
Qed.
Lemma ex_prolog : prolog_text ex_declaration [XOther].
Proof.
  pose proof (pt_declared "" ex_declaration "" [] (or_introl eq_refl) ex_declaration_text mt_nil) as P.
  rewrite app_nil_s in P. exact P.
Qed.
Lemma ex_writable : writable ex_robot.
Proof. apply writableb_ok. vm_compute. reflexivity. Qed.
Lemma ex_element : element_text (write ex_robot) ex_robot.
Proof. exact (write_element _ ex_writable). Qed.
Lemma ex_document_text : document_text ex_document ex_top.
Proof.
  exists ex_declaration, [XOther], (write ex_robot), ex_robot, "", [].
  split; [unfold ex_document; rewrite app_nil_s; reflexivity|].
  split; [exact ex_prolog|]. split; [exact ex_element|]. split; [constructor|reflexivity].
Qed.
