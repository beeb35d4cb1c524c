(** Words for the properties of printed documents (C95, C96). *)
From Coq Require Import String List Ascii NArith.
From Verif Require Import Urdf Spec_Xml.
Import ListNotations.
Local Open Scope string_scope.

(** "&#x" does not occur *)
Definition no_reference (v : string) : Prop := forall a b, v <> a ++ "&#x" ++ b.

(** Documents of elements only, with proper names, no attribute twice, and values in UTF-8 that
    do not contain "&#x". *)
Fixpoint printable_tree (x : xml) : Prop :=
  match x with
  | XOther => False
  | XElem n l k =>
      xml_name n /\ Forall (fun a => xml_name (fst a) /\ utf8_text (snd a) /\ no_reference (snd a)) l /\ NoDup (map fst l) /\
      (fix all (k : list xml) : Prop := match k with [] => True | y :: k' => printable_tree y /\ all k' end) k
  end.

(** the values of all attributes in a tree *)
Fixpoint values (x : xml) : list string :=
  match x with XOther => [] | XElem _ l k => (map snd l ++ flat_map values k)%list end.

(** how numbers are printed: ASCII without blanks, control characters, quotes, & , < and > *)
Definition plain_word (s : string) : Prop :=
  each (fun c => byte_in 33 126 c /\ ~ In c ["&"; "<"; ">"; """"; "'"]%char) s.
