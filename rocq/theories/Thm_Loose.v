(** C74, what remains of it: the texts that load have the loose form of Spec_Loose. *)
From Coq Require Import Reals String List Arith NArith Ascii Bool Lia.
From Verif Require Import Base Num Pose DataStructure Urdf Kin Wrapper TinyXml RealArith Spec_Robot Spec_Hist Spec_Load Spec_Graph Spec_Urdf Spec_Xml Spec_Loose Pf_Real Pf_Xml1 Pf_Xml4 Pf_Loose Ex_Robot Ex_Xml Thm_Xml.
Import ListNotations.
Local Open Scope string_scope.

(** C74.  Not only documents load (C74_only_documents_load_refuted), but every text that
    loads has elements that are properly nested and closed by their own names, attributes
    of distinct names and, where no references occur, of the values that are written, and
    the robot that is loaded is the one that these elements describe. Every document has
    the loose form. Missing: quotes around attribute values, white space between
    attributes, well-formed names, references and encodings, a single root, and nothing
    but comments after it. *)
Theorem C74_only_documents_load_partial :
  (forall (A : Arith) text m, ctor_text text = Ok m ->
     exists nodes R root, loose_document text nodes /\ document_reads nodes R /\ graph_ok R root) /\
  (forall text nodes, document_text text nodes -> loose_document text nodes).
Proof.
  split.
  - intros A text m E. destruct (C73_model_to_text A text m E) as (nodes & R & root & P & D & G).
    exists nodes, R, root. split; [exact (parse_loose _ _ P)|auto].
  - intros text nodes D. exact (parse_loose _ _ (parse_document _ _ D)).
Qed.
Print Assumptions C74_only_documents_load_partial.

Lemma elements_close e x : loose_element e x -> exists a b, e = String "<" (a ++ "/" ++ b).
Proof.
  intros [z n ats l g _ _ _ _ _|z n ats l g body kids g' _ _ _ _ _ _ _].
  - exists (z ++ n ++ ats ++ g), ">". rewrite <- !app_assoc_s. reflexivity.
  - exists (z ++ n ++ ats ++ g ++ ">" ++ body ++ "<"), (n ++ g' ++ ">"). cbn [append]. rewrite <- !app_assoc_s. cbn [append]. rewrite <- !app_assoc_s. reflexivity.
Qed.
Lemma no_slash s a b : each (fun c => c <> "/"%char) s -> s = a ++ "/" ++ b -> False.
Proof. intros H ->. apply each_app in H as [_ [H _]]. apply H. reflexivity. Qed.
(** an element that is never closed is excluded *)
Example C74_partial_excludes : forall nodes, ~ loose_document "<robot>" nodes.
Proof.
  intros nodes (s & E & _ & L).
  assert (Es : s = "<robot>").
  { destruct E as [E|(r & E)]; [symmetry; exact E|]. exfalso.
    assert (X : each (fun c => c <> "000"%char) "<robot>") by (cbn; repeat split; discriminate).
    rewrite E in X. apply each_app in X as [_ [X _]]. apply X. reflexivity. }
  clear E. revert Es. induction L as [t H|t H|g t k G L IH|e x t k LE L IH|c t k LO L IH]; intros Es.
  - exact (H _ _ Es eq_refl).
  - injection Es as ->. apply (H "r"%char "obot>" eq_refl). left. right. vm_compute. split; discriminate.
  - destruct G as [|c g S _|b c g B _]; [exact (IH Es)| |discriminate Es]. injection Es as -> _.
    destruct S as [S|S]; [vm_compute in S; destruct S as [_ S]; apply S; reflexivity|discriminate S].
  - destruct (elements_close e x LE) as (a & b & ->). cbn [append] in Es. injection Es as Es. rewrite <- app_assoc_s in Es.
    refine (no_slash "robot>" a (b ++ t) _ (eq_sym Es)). cbn. repeat split; discriminate.
  - destruct LO as [body _|body _|s' items D _ _|body F _ _ _ N]; try discriminate Es.
    + destruct D as (a & b & c & r & -> & _). discriminate Es.
    + destruct body as [|c body]; [discriminate Es|]. injection Es as -> _. apply (F "r"%char body eq_refl). left. right. vm_compute. split; discriminate.
Qed.
Example C74_partial_example :
  (exists m, ctor_text (A := RA) ex_document = Ok m) /\ (exists nodes, loose_document ex_document nodes) /\
  loose_document "<a b=c d='1'e='2'/>junk" [XElem "a" [("b", "c"); ("d", "1"); ("e", "2")] []].
Proof.
  destruct C73_example as (D & _ & X). split; [exact X|]. split.
  - eexists. exact (proj2 C74_only_documents_load_partial _ _ D).
  - apply parse_loose. vm_compute. reflexivity.
Qed.
