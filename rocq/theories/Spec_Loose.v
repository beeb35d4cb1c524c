(** A loose form of the XML grammar, written down without the parser: elements are nested
    and closed by their own names, attributes are distinct and have the form name = value;
    but values may lack quotes, white space between attributes may be missing, names may
    contain any byte from 127 on, references and encodings are unchecked, and anything may
    follow the top-level nodes. *)
From Coq Require Import String List Ascii NArith Bool.
From Verif Require Import Urdf Spec_Xml.
Import ListNotations.
Local Open Scope string_scope.

Definition loose_space (c : ascii) : Prop := byte_in 9 13 c \/ c = " "%char.
(** white space, and three zero-width sequences of UTF-8: U+FEFF, U+FFFE, U+FFFF *)
Inductive gap : string -> Prop :=
| gap_nil : gap ""
| gap_space c t : loose_space c -> gap t -> gap (String c t)
| gap_zero b c t : In (b, c) [("187", "191"); ("191", "190"); ("191", "191")]%char ->
    gap t -> gap (String "239" (String b (String c t))).

Definition loose_first (c : ascii) : Prop := letter c \/ c = "_"%char \/ byte_in 127 255 c.
Definition loose_later (c : ascii) : Prop :=
  letter c \/ digit c \/ c = "_"%char \/ c = "-"%char \/ c = "."%char \/ c = ":"%char \/ byte_in 127 255 c.
Definition loose_name (s : string) : Prop :=
  match s with "" => False | String c t => loose_first c /\ each loose_later t end.

(** [free q t]: outside of numbered references and of the later bytes of multi-byte
    characters, the character [q] does not occur in [t] *)
Inductive free (q : ascii) : string -> Prop :=
| fr_nil : free q ""
| fr_char c t : c <> q -> free q t -> free q (String c t)
| fr_ref seg t : each (fun c => c <> ";"%char) seg -> free q t -> free q ("&#" ++ seg ++ ";" ++ t)
| fr_wide c s t : c <> q -> String.length s = announces c - 1 -> free q t -> free q (String c (s ++ t)).

(** [loose_value t v]: a quoted value, or a word without quotes, which may be empty. Unless
    references occur, the value is what is written. *)
Definition literal (t v : string) : Prop := each (fun c => c <> "&"%char /\ c <> "000"%char) t -> v = t.
Inductive loose_value : string -> string -> Prop :=
| lv_quoted q t v : quote q -> free q t -> literal t v -> loose_value (String q (t ++ String q "")) v
| lv_bare t v : each (fun c => ~ loose_space c /\ c <> "/"%char /\ c <> ">"%char /\ ~ quote c) t ->
    (each (fun c => c <> "000"%char) t -> v = t) -> loose_value t v.
(** [t] spells the attribute called [n] with the value [v] *)
Definition loose_attr (n v t : string) : Prop :=
  exists g1 g2 w, t = n ++ g1 ++ "=" ++ g2 ++ w /\ loose_name n /\ gap g1 /\ gap g2 /\ loose_value w v.
Inductive loose_attrs : string -> list (string * string) -> Prop :=
| la_nil : loose_attrs "" []
| la_cons g n v t rest l : gap g -> loose_attr n v t -> loose_attrs rest l -> loose_attrs (g ++ t ++ rest) ((n, v) :: l).

(** [body] is followed by the first occurrence of [tag] *)
Definition up_to (tag body : string) : Prop := forall a b, body ++ tag = a ++ tag ++ b -> a = body.
Definition starts (w t : string) : Prop := exists r, t = w ++ r.
(** "<?xml" in any case *)
Definition decl_start (t : string) : Prop :=
  exists a b c r, t = "<?" ++ String a (String b (String c r)) /\
    (a = "x" \/ a = "X")%char /\ (b = "m" \/ b = "M")%char /\ (c = "l" \/ c = "L")%char.
Inductive decl_items : string -> Prop :=
| di_nil : decl_items ""
| di_char c t : c <> ">"%char -> decl_items t -> decl_items (String c t)
| di_attr n v a t : loose_attr n v a -> decl_items t -> decl_items (a ++ t).

(** mark-up that is not an element: comment, CDATA section, declaration, and anything else
    in angle brackets *)
Inductive loose_other : string -> Prop :=
| lo_comment body : up_to "-->" body -> loose_other ("<!--" ++ body ++ "-->")
| lo_cdata body : up_to "]]>" body -> loose_other ("<![CDATA[" ++ body ++ "]]>")
| lo_declaration s items : decl_start s -> String.length s = 5 -> decl_items items -> loose_other (s ++ items ++ ">")
| lo_unknown body : (forall c r, body = String c r -> ~ loose_first c) ->
    ~ decl_start ("<" ++ body ++ ">") -> ~ starts "!--" (body ++ ">") -> ~ starts "![CDATA[" (body ++ ">") ->
    each (fun c => c <> ">"%char) body -> loose_other ("<" ++ body ++ ">").

Inductive loose_element : string -> xml -> Prop :=
| le_empty z n ats l g :
    gap z -> loose_name n -> loose_attrs ats l -> NoDup (map fst l) -> gap g ->
    loose_element ("<" ++ z ++ n ++ ats ++ g ++ "/>") (XElem n l [])
| le_full z n ats l g body kids g' :
    gap z -> loose_name n -> loose_attrs ats l -> NoDup (map fst l) -> gap g ->
    loose_content body kids -> gap g' ->
    loose_element ("<" ++ z ++ n ++ ats ++ g ++ ">" ++ body ++ "</" ++ n ++ g' ++ ">") (XElem n l kids)
with loose_content : string -> list xml -> Prop :=
| lc_nil : loose_content "" []
| lc_gap g t k : gap g -> loose_content t k -> loose_content (g ++ t) k
| lc_element e x t k : loose_element e x -> loose_content t k -> loose_content (e ++ t) (x :: k)
| lc_other c t k : loose_other c -> ~ starts "</" c -> loose_content t k -> loose_content (c ++ t) (XOther :: k)
| lc_text d t k k' : d <> "" -> free "<" d -> (t = "" \/ starts "<" t) -> loose_content t k ->
    k' = k \/ k' = XOther :: k -> loose_content (d ++ t) k'.

(** the top-level nodes, up to the end of the text, or some character that is not "<", or
    mark-up that never ends *)
Inductive loose_nodes : string -> list xml -> Prop :=
| ln_end t : (forall c r, t = String c r -> c <> "<"%char) -> loose_nodes t []
| ln_open t : (forall c r, t = String c r -> ~ loose_first c) -> loose_nodes (String "<" t) [XOther]
| ln_gap g t k : gap g -> loose_nodes t k -> loose_nodes (g ++ t) k
| ln_element e x t k : loose_element e x -> loose_nodes t k -> loose_nodes (e ++ t) (x :: k)
| ln_other c t k : loose_other c -> loose_nodes t k -> loose_nodes (c ++ t) (XOther :: k).

(** texts end at the first NUL *)
Definition loose_document (text : string) (nodes : list xml) : Prop :=
  exists s, (text = s \/ exists r, text = s ++ String "000" r) /\ each (fun c => c <> "000"%char) s /\ loose_nodes s nodes.
