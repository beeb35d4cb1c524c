(** What a text has to look like to spell an XML document, written down without the
    parser: the part of the XML grammar that robot descriptions use. A text is a byte
    string; documents are the trees that the reader sees (Urdf.v, [xml]). *)
From Coq Require Import String List Ascii NArith Bool.
From Verif Require Import Urdf.
Import ListNotations.
Local Open Scope string_scope.

Definition byte_in (a b : N) (c : ascii) : Prop := (a <= N_of_ascii c <= b)%N.

(** every character of the string satisfies P *)
Fixpoint each (P : ascii -> Prop) (s : string) : Prop :=
  match s with "" => True | String c t => P c /\ each P t end.

(** One character: an ASCII byte other than NUL, or a complete UTF-8 sequence. *)
Inductive one_char : string -> Prop :=
| oc_ascii c : byte_in 1 127 c -> one_char (String c "")
| oc_two a b : byte_in 194 223 a -> byte_in 128 191 b -> one_char (String a (String b ""))
| oc_three a b c : byte_in 224 239 a -> byte_in 128 191 b -> byte_in 128 191 c ->
    one_char (String a (String b (String c "")))
| oc_four a b c d : byte_in 240 244 a -> byte_in 128 191 b -> byte_in 128 191 c -> byte_in 128 191 d ->
    one_char (String a (String b (String c (String d "")))).

(** UTF-8 text without NUL *)
Inductive utf8_text : string -> Prop :=
| ut_nil : utf8_text ""
| ut_cons u t : one_char u -> utf8_text t -> utf8_text (u ++ t).

(** the length that a first byte announces *)
Definition announces (c : ascii) : nat :=
  let n := N_of_ascii c in
  if ((194 <=? n) && (n <=? 223))%N then 2
  else if ((224 <=? n) && (n <=? 239))%N then 3
  else if ((240 <=? n) && (n <=? 244))%N then 4 else 1.
(** no byte announces a sequence that runs past the end of the text; every UTF-8 text is
    like that *)
Fixpoint uncut (s : string) : Prop :=
  match s with "" => True | String c t => announces c <= S (String.length t) /\ uncut t end.

(** S ::= (#x20 | #x9 | #xD | #xA)*, possibly empty *)
Definition white_char (c : ascii) : Prop :=
  c = " "%char \/ c = "009"%char \/ c = "013"%char \/ c = "010"%char.
Definition white (s : string) : Prop := each white_char s.

Definition letter (c : ascii) : Prop := byte_in 65 90 c \/ byte_in 97 122 c.
Definition digit (c : ascii) : Prop := byte_in 48 57 c.
Definition name_first (c : ascii) : Prop := letter c \/ c = "_"%char.
Definition name_later (c : ascii) : Prop :=
  letter c \/ digit c \/ c = "_"%char \/ c = "-"%char \/ c = "."%char \/ c = ":"%char.
(** names of elements and attributes *)
Definition xml_name (s : string) : Prop :=
  match s with "" => False | String c t => name_first c /\ each name_later t end.

(** the five predefined entities *)
Definition predefined : list (string * ascii) :=
  [("&amp;", "&"%char); ("&lt;", "<"%char); ("&gt;", ">"%char); ("&quot;", """"%char); ("&apos;", "'"%char)].

(** the number that a string of digits denotes *)
Definition dec_value_of (c : ascii) : N := (N_of_ascii c - 48)%N.
Definition hex_char (c : ascii) : Prop := digit c \/ byte_in 97 102 c \/ byte_in 65 70 c.
Definition hex_value_of (c : ascii) : N :=
  let n := N_of_ascii c in
  (if n <=? 57 then n - 48 else if n <=? 70 then n - 65 + 10 else n - 97 + 10)%N.
Fixpoint number (base : N) (value : ascii -> N) (s : string) (acc : N) : N :=
  match s with "" => acc | String c t => number base value t (acc * base + value c)%N end.

(** [spells stop text value]: the characters [text] stand for [value]. Characters that
    are in [stop], and the ampersand, have to be written as references; references
    name one of the five predefined entities or an ASCII character by its number. *)
Inductive spells (stop : ascii -> Prop) : string -> string -> Prop :=
| sp_nil : spells stop "" ""
| sp_char u t v : one_char u -> (forall c, u = String c "" -> ~ stop c /\ c <> "&"%char) ->
    spells stop t v -> spells stop (u ++ t) (u ++ v)
| sp_entity w c t v : In (w, c) predefined -> spells stop t v -> spells stop (w ++ t) (String c v)
| sp_decimal ds c t v : ds <> "" -> each digit ds -> byte_in 1 127 c ->
    number 10 dec_value_of ds 0 = N_of_ascii c ->
    spells stop t v -> spells stop ("&#" ++ ds ++ ";" ++ t) (String c v)
| sp_hex ds c t v : ds <> "" -> each hex_char ds -> byte_in 1 127 c ->
    number 16 hex_value_of ds 0 = N_of_ascii c ->
    spells stop t v -> spells stop ("&#x" ++ ds ++ ";" ++ t) (String c v).

Definition quote (q : ascii) : Prop := q = """"%char \/ q = "'"%char.

(** attributes: each preceded by white space, in single or double quotes *)
Inductive attrs_text : string -> list (string * string) -> Prop :=
| at_nil : attrs_text "" []
| at_cons w n w1 w2 q txt v rest l :
    white w -> w <> "" -> xml_name n -> white w1 -> white w2 -> quote q ->
    spells (eq q) txt v -> attrs_text rest l ->
    attrs_text (w ++ n ++ w1 ++ "=" ++ w2 ++ String q (txt ++ String q rest)) ((n, v) :: l).

(** <!-- ... -->: the body contains no "--" and does not end in "-" *)
Definition comment_text (t : string) : Prop :=
  exists body, t = "<!--" ++ body ++ "-->" /\ utf8_text body /\
               (forall a b, body ++ "-" <> a ++ "--" ++ b).

(** character data: some text that begins, after white space, with an ordinary
    character, without "<" *)
Definition data_text (t : string) : Prop :=
  exists w c d v, t = w ++ String c d /\ white w /\ byte_in 33 126 c /\
    c <> "<"%char /\ c <> "&"%char /\ spells (eq "<"%char) d v.

Inductive element_text : string -> xml -> Prop :=
| et_empty n ats l w :
    xml_name n -> attrs_text ats l -> NoDup (map fst l) -> white w ->
    element_text ("<" ++ n ++ ats ++ w ++ "/>") (XElem n l [])
| et_full n ats l w body kids w' :
    xml_name n -> attrs_text ats l -> NoDup (map fst l) -> white w ->
    content_text body kids -> white w' ->
    element_text ("<" ++ n ++ ats ++ w ++ ">" ++ body ++ "</" ++ n ++ w' ++ ">") (XElem n l kids)
with content_text : string -> list xml -> Prop :=
| ct_nil : content_text "" []
| ct_white w t k : white w -> content_text t k -> content_text (w ++ t) k
| ct_element e x t k : element_text e x -> content_text t k -> content_text (e ++ t) (x :: k)
| ct_comment c t k : comment_text c -> content_text t k -> content_text (c ++ t) (XOther :: k)
| ct_data d t k : data_text d -> (t = "" \/ exists t', t = String "<" t') ->
    content_text t k -> content_text (d ++ t) (XOther :: k).

(** <?xml version="..." encoding="..." standalone="..."?> *)
Definition declaration_text (t : string) : Prop :=
  exists ats l w, t = "<?xml" ++ ats ++ w ++ "?>" /\ attrs_text ats l /\ white w /\
    Forall (fun n => n = "version" \/ n = "encoding" \/ n = "standalone") (map fst l).

(** <!DOCTYPE ...> without an internal subset *)
Definition doctype_text (t : string) : Prop :=
  exists body, t = "<!DOCTYPE" ++ body ++ ">" /\ utf8_text body /\ each (fun c => c <> ">"%char) body.

(** what may stand around the root element: white space, comments, a document type *)
Inductive misc_text : string -> list xml -> Prop :=
| mt_nil : misc_text "" []
| mt_white w t k : white w -> misc_text t k -> misc_text (w ++ t) k
| mt_comment c t k : comment_text c -> misc_text t k -> misc_text (c ++ t) (XOther :: k)
| mt_doctype c t k : doctype_text c -> misc_text t k -> misc_text (c ++ t) (XOther :: k).

(** the byte order mark *)
Definition bom_text : string := String "239" (String "187" (String "191" "")).

(** [before] is all that comes before the root element *)
Inductive prolog_text : string -> list xml -> Prop :=
| pt_plain b m k : b = "" \/ b = bom_text -> misc_text m k -> prolog_text (b ++ m) k
| pt_declared b d m k : b = "" \/ b = bom_text -> declaration_text d -> misc_text m k ->
    prolog_text (b ++ d ++ m) (XOther :: k).

(** a document: prolog, root element, epilog; [nodes] are its top-level nodes *)
Definition document_text (text : string) (nodes : list xml) : Prop :=
  exists pre kp el x post kq,
    text = pre ++ el ++ post /\ prolog_text pre kp /\ element_text el x /\ misc_text post kq /\
    nodes = (kp ++ x :: kq)%list.

(** ** A way to write any tree down *)
Definition escape_char (c : ascii) : string :=
  if Ascii.eqb c "&" then "&amp;" else if Ascii.eqb c "<" then "&lt;"
  else if Ascii.eqb c """" then "&quot;" else String c "".
Fixpoint escape (s : string) : string :=
  match s with "" => "" | String c t => escape_char c ++ escape t end.
Definition write_attr (a : string * string) : string :=
  " " ++ fst a ++ "=""" ++ escape (snd a) ++ """".
Definition write_attrs (l : list (string * string)) : string := String.concat "" (map write_attr l).
(** nodes that are not elements are written as an empty comment *)
Fixpoint write (x : xml) : string :=
  match x with
  | XOther => "<!---->"
  | XElem n l [] => "<" ++ n ++ write_attrs l ++ "/>"
  | XElem n l k => "<" ++ n ++ write_attrs l ++ ">" ++ String.concat "" (map write k) ++ "</" ++ n ++ ">"
  end.

(** trees that can be written: proper names, no attribute twice, values in UTF-8 *)
Fixpoint writable (x : xml) : Prop :=
  match x with
  | XOther => True
  | XElem n l k =>
      xml_name n /\ Forall (fun a => xml_name (fst a) /\ utf8_text (snd a)) l /\ NoDup (map fst l) /\
      (fix all (k : list xml) : Prop := match k with [] => True | y :: k' => writable y /\ all k' end) k
  end.

(** no element of the tree has two attributes of the same name *)
Fixpoint distinct_attributes (x : xml) : Prop :=
  match x with
  | XOther => True
  | XElem _ l k =>
      NoDup (map fst l) /\
      (fix all (k : list xml) : Prop := match k with [] => True | y :: k' => distinct_attributes y /\ all k' end) k
  end.
