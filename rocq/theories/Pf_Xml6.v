(** The written form of a tree is a document that spells this tree. *)
From Coq Require Import String List Arith NArith Ascii Bool Lia.
From Verif Require Import Base Num Urdf Kin TinyXml Spec_Xml Pf_Xml1 Pf_Xml2 Pf_Xml3 Pf_Xml4.
Import ListNotations.
Local Open Scope string_scope.

Lemma concat_cons x l : String.concat "" (x :: l) = x ++ String.concat "" l.
Proof. cbn. destruct l; [rewrite app_nil_s; reflexivity|reflexivity]. Qed.

Lemma escape_high c : byte_in 128 255 c -> escape_char c = String c "".
Proof.
  intros [H _]. unfold escape_char.
  destruct (Ascii.eqb_spec c "&") as [->|_]; [vm_compute in H; contradiction|].
  destruct (Ascii.eqb_spec c "<") as [->|_]; [vm_compute in H; contradiction|].
  destruct (Ascii.eqb_spec c """") as [->|_]; [vm_compute in H; contradiction|]. reflexivity.
Qed.
Lemma high a b c : byte_in a b c -> (128 <= a)%N -> byte_in 128 255 c.
Proof. unfold byte_in. intros H L. pose proof (N_ascii_bounded c). lia. Qed.

Lemma escape_spells v : utf8_text v -> spells (eq """"%char) (escape v) v.
Proof.
  induction 1 as [|u t U _ IH]; [constructor|]. destruct U as [c B|a b A B|a b c A B C|a b c d A B C D].
  - cbn [append escape]. unfold escape_char.
    destruct (Ascii.eqb_spec c "&") as [->|N1]; [apply (sp_entity _ "&amp;" "&" _ _); [cbn; tauto|exact IH]|].
    destruct (Ascii.eqb_spec c "<") as [->|N2]; [apply (sp_entity _ "&lt;" "<" _ _); [cbn; tauto|exact IH]|].
    destruct (Ascii.eqb_spec c """") as [->|N3]; [apply (sp_entity _ "&quot;" """" _ _); [cbn; tauto|exact IH]|].
    apply (sp_char _ (String c "")); [constructor; exact B| |exact IH].
    intros c' E. injection E as <-. split; [congruence|exact N1].
  - cbn [append escape]. rewrite (escape_high a), (escape_high b) by (eapply high; [eassumption|vm_compute; discriminate]).
    apply (sp_char _ (String a (String b ""))); [constructor; assumption| |exact IH]. intros c' E; discriminate E.
  - cbn [append escape]. rewrite (escape_high a), (escape_high b), (escape_high c) by (eapply high; [eassumption|vm_compute; discriminate]).
    apply (sp_char _ (String a (String b (String c "")))); [constructor; assumption| |exact IH]. intros c' E; discriminate E.
  - cbn [append escape]. rewrite (escape_high a), (escape_high b), (escape_high c), (escape_high d) by (eapply high; [eassumption|vm_compute; discriminate]).
    apply (sp_char _ (String a (String b (String c (String d ""))))); [constructor; assumption| |exact IH]. intros c' E; discriminate E.
Qed.

Lemma write_attrs_text l : Forall (fun a => xml_name (fst a) /\ utf8_text (snd a)) l -> attrs_text (write_attrs l) l.
Proof.
  induction 1 as [|[n v] l [N V] _ IH]; [constructor|]. unfold write_attrs. cbn [map]. rewrite concat_cons.
  unfold write_attr at 1. cbn [fst snd].
  replace ((" " ++ n ++ "=""" ++ escape v ++ """") ++ String.concat "" (map write_attr l))
    with (" " ++ n ++ "" ++ "=" ++ "" ++ String """" (escape v ++ String """" (write_attrs l))).
  - apply at_cons; try assumption; try exact I; [split; [left; reflexivity|exact I]|discriminate|left; reflexivity|].
    apply escape_spells, V.
  - unfold write_attrs. rewrite <- !app_assoc_s. reflexivity.
Qed.

Lemma empty_comment : comment_text "<!---->".
Proof.
  exists "". split; [reflexivity|]. split; [constructor|]. intros a b E. apply (f_equal String.length) in E.
  rewrite !app_length_s in E. cbn in E. lia.
Qed.

Definition writes (x : xml) : Prop := match x with XOther => True | _ => element_text (write x) x end.

Lemma write_element : forall x, writable x -> writes x.
Proof.
  fix IH 1. intros [n l k|]; [|intros _; exact I]. intros (N & A & ND & K).
  assert (CT : content_text (String.concat "" (map write k)) k).
  { clear N A ND. induction k as [|y k IHk]; [constructor|]. destruct K as [Y K]. specialize (IHk K).
    cbn [map]. rewrite concat_cons. pose proof (IH y Y) as W. destruct y as [n' l' k'|].
    - apply ct_element; [exact W|exact IHk].
    - apply ct_comment; [exact empty_comment|exact IHk]. }
  unfold writes. destruct k as [|y k].
  - change (write (XElem n l [])) with ("<" ++ n ++ write_attrs l ++ "" ++ "/>").
    apply et_empty; [exact N|apply write_attrs_text, A|exact ND|exact I].
  - change (write (XElem n l (y :: k)))
      with ("<" ++ n ++ write_attrs l ++ "" ++ ">" ++ String.concat "" (map write (y :: k)) ++ "</" ++ n ++ "" ++ ">").
    apply et_full; [exact N|apply write_attrs_text, A|exact ND|exact I|exact CT|exact I].
Qed.

Lemma element_document el x : element_text el x -> document_text el [x].
Proof.
  intros E. exists "", [], el, x, "", []. split; [cbn; rewrite app_nil_s; reflexivity|].
  split; [apply (pt_plain "" "" []); [left; reflexivity|constructor]|]. split; [exact E|]. split; [constructor|reflexivity].
Qed.

Theorem write_document n l k : writable (XElem n l k) -> document_text (write (XElem n l k)) [XElem n l k].
Proof. intros W. apply element_document. exact (write_element _ W). Qed.

Section Load.
Context `{A : Arith}.
Lemma ctor_text_ctor text d : tinyxml_parse text = Ok d -> ctor_text text = ctor (fun _ => d) text.
Proof. intros E. unfold ctor_text, ctor. destruct text as [|c t]; [reflexivity|]. rewrite E. reflexivity. Qed.
End Load.
