(** The XML parser that tinyfk ships (urdf_parser/tinyxml), character by character.

    A [const char*] into the document is a [ptr]: [None] is the null pointer and
    [Some s] points at the text [s] that is left before the terminating NUL, so
    [Some ""] points at the terminator. Asserts are compiled out (CMakeLists.txt:3-5
    selects Release, which defines NDEBUG). Only the part of the document object
    that the URDF reader can observe is kept: elements with their tags, attributes
    and children; every other node is [XOther]. Row and column numbers are dropped,
    but the walk that computes them is kept, because it may not terminate. *)
From Coq Require Import String List Arith NArith Ascii Bool.
From Verif Require Import Base Num Urdf Kin.
Import ListNotations.
Local Open Scope string_scope.
Local Open Scope m_scope.

Notation slen := String.length.

(** const char*, e.g. tinyxmlparser.cpp:314 *)
Definition ptr := option string.

(** tinyxml.h:165-170, TiXmlEncoding *)
Inductive encoding := ENC_UNKNOWN | ENC_UTF8 | ENC_LEGACY.
(** encoding == TIXML_ENCODING_UTF8, e.g. tinyxmlparser.cpp:320 *)
Definition is_utf8 (e : encoding) : bool := match e with ENC_UTF8 => true | _ => false end.

(** bytes as numbers: the casts to unsigned char, e.g. tinyxmlparser.cpp:324 *)
Definition code (c : ascii) : N := N_of_ascii c.
Definition chr (n : N) : ascii := ascii_of_N n.
Definition between (a b : N) (c : ascii) : bool := N.leb a (code c) && N.leb (code c) b.
Definition is (a c : ascii) : bool := Ascii.eqb c a.

(** tinyxml.h:292-295, IsWhiteSpace: isspace in the C locale *)
Definition is_space (c : ascii) : bool := between 9 13 c || between 32 32 c.
(** isdigit and isalpha of the C locale (tinyxmlparser.cpp:129-168) *)
Definition is_digit (c : ascii) : bool := between 48 57 c.
Definition is_letter (c : ascii) : bool := between 65 90 c || between 97 122 c.
(** tinyxmlparser.cpp:129-147, IsAlpha: every byte from 127 counts as a letter *)
Definition is_alpha (c : ascii) : bool := is_letter c || N.leb 127 (code c).
(** tinyxmlparser.cpp:150-168, IsAlphaNum *)
Definition is_alnum (c : ascii) : bool := is_letter c || is_digit c || N.leb 127 (code c).

(** tinyxml.h:384-395, ToLower: tolower in the C locale *)
Definition to_lower (c : ascii) : ascii := if between 65 90 c then chr (code c + 32) else c.

(** tinyxmlparser.cpp:66-85, utf8ByteTable *)
Definition utf8_len (c : ascii) : nat :=
  if between 194 223 c then 2 else if between 224 239 c then 3 else if between 240 244 c then 4 else 1.

(** tinyxmlparser.cpp:62-64 *)
Definition LEAD_0 : ascii := chr 239.
Definition LEAD_1 : ascii := chr 187.
Definition LEAD_2 : ascii := chr 191.

(** the three sequences that SkipWhiteSpace skips after 0xEF
    (tinyxmlparser.cpp:327-347) *)
Definition zero_width (b c : ascii) : bool :=
  (is LEAD_1 b && is LEAD_2 c) || (is (chr 191) b && is (chr 190) c) || (is (chr 191) b && is (chr 191) c).

(** p + n; [None] when that is past the terminator *)
Fixpoint sdrop (n : nat) (s : string) : option string :=
  match n, s with
  | O, _ => Some s
  | S n', String _ t => sdrop n' t
  | S _, EmptyString => None
  end.
(** the bytes copied into the buffer (tinyxml.h:348-356) *)
Fixpoint stake (n : nat) (s : string) : string :=
  match n, s with S n', String c t => String c (stake n' t) | _, _ => "" end.

(** the characters that a C string keeps: those before the first NUL *)
Fixpoint c_str (s : string) : string :=
  match s with
  | "" => ""
  | String c t => if N.eqb (code c) 0 then "" else String c (c_str t)
  end.

(** tinyxmlparser.cpp:322-359, the loops of SkipWhiteSpace *)
Fixpoint skip_spaces (e : encoding) (s : string) : string :=
  match s with
  | "" => ""
  | String a t =>
      if is_utf8 e && is LEAD_0 a
         && match t with String b (String c _) => zero_width b c | _ => false end
      then match t with String b (String c t') => skip_spaces e t' | _ => s end
      else if is_space a then skip_spaces e t else s
  end.

(** tinyxmlparser.cpp:314-362, SkipWhiteSpace: null at the end of the text *)
Definition SkipWhiteSpace (e : encoding) (p : ptr) : ptr :=
  match p with
  | None | Some "" => None
  | Some s => Some (skip_spaces e s)
  end.

(** tinyxmlparser.cpp:417, 421-426: the characters of names *)
Definition name_start (c : ascii) : bool := is_alpha c || is "_" c.
Definition name_char (c : ascii) : bool :=
  is_alnum c || is "_" c || is "-" c || is "." c || is ":" c.

(** tinyxmlparser.cpp:420-429 *)
Fixpoint name_span (s : string) : string * string :=
  match s with
  | "" => ("", "")
  | String c t => if name_char c then let r := name_span t in (String c (fst r), snd r) else ("", s)
  end.

(** tinyxmlparser.cpp:401-436, ReadName: the name read and the new position *)
Definition ReadName (p : ptr) : string * ptr :=
  match p with
  | Some (String c t) =>
      if name_start c then let r := name_span (String c t) in (fst r, Some (snd r)) else ("", None)
  | _ => ("", None)
  end.

(** tinyxmlparser.cpp:88-126, ConvertUTF32ToUTF8 *)
Definition utf8_tail (u : N) : ascii := chr (N.land (N.lor u 128) 191).
Definition utf8_first (u mark : N) : ascii := chr (N.lor u mark mod 256).
Definition ConvertUTF32ToUTF8 (u : N) : string :=
  let u1 := N.shiftr u 6 in let u2 := N.shiftr u1 6 in let u3 := N.shiftr u2 6 in
  (if N.ltb u 128 then String (utf8_first u 0) ""
   else if N.ltb u 2048 then String (utf8_first u1 192) (String (utf8_tail u) "")
   else if N.ltb u 65536 then
     String (utf8_first u2 224) (String (utf8_tail u1) (String (utf8_tail u) ""))
   else if N.ltb u 2097152 then
     String (utf8_first u3 240) (String (utf8_tail u2) (String (utf8_tail u1) (String (utf8_tail u) "")))
   else "").

(** strchr(q, ';'): the characters before the semicolon and those after it *)
Fixpoint until_semi (s : string) : option (string * string) :=
  match s with
  | "" => None
  | String c t => if is ";" c then Some ("", t)
                  else match until_semi t with Some (a, b) => Some (String c a, b) | None => None end
  end.

(** tinyxmlparser.cpp:466-473, the value of a hexadecimal digit *)
Definition hex_digit (c : ascii) : option N :=
  if is_digit c then Some (code c - 48)%N
  else if between 97 102 c then Some (code c - 97 + 10)%N
  else if between 65 70 c then Some (code c - 65 + 10)%N
  else None.
(** tinyxmlparser.cpp:493-496 *)
Definition dec_digit (c : ascii) : option N := if is_digit c then Some (code c - 48)%N else None.

(** tinyxmlparser.cpp:464-476 and 491-499: digits are read backwards from the
    semicolon to the stop character ('x' or '#'); [mult] is a 32-bit unsigned and
    [ucs] a 64-bit one. The end of the list is the stop character in front of the
    digits. *)
Fixpoint digits_back (stop : ascii) (base : N) (digit : ascii -> option N) (l : list ascii) (mult ucs : N) : option N :=
  match l with
  | [] => Some ucs
  | c :: l' =>
      if is stop c then Some ucs else
      match digit c with
      | None => None
      | Some d => digits_back stop base digit l' (mult * base mod 4294967296)%N
                    ((ucs + (mult * d mod 4294967296)) mod 18446744073709551616)%N
      end
  end.

(** tinyxmlparser.cpp:503-512: the character with that number *)
Definition value_of (e : encoding) (ucs : N) : string :=
  if is_utf8 e then ConvertUTF32ToUTF8 ucs else String (chr (ucs mod 256)) "".

(** tinyxmlparser.cpp:446-513: a reference by number; 0 when it is malformed *)
Definition numeric (e : encoding) (stop : ascii) (base : N) (digit : ascii -> option N) (s : string) : ptr * string :=
  match until_semi s with
  | None => (None, "")
  | Some (seg, rest) =>
      match digits_back stop base digit (rev (list_ascii_of_string seg)) 1 0 with
      | None => (None, "")
      | Some ucs => (Some rest, value_of e ucs)
      end
  end.

(** tinyxmlparser.cpp:43-50, the entity table *)
Definition entities : list (string * ascii) :=
  [("amp;", "&"%char); ("lt;", "<"%char); ("gt;", ">"%char);
   ("quot;", """"%char); ("apos;", "'"%char)].

(** tinyxmlparser.cpp:515-524: strncmp of the table entries against the text that
    follows the ampersand *)
Fixpoint named (l : list (string * ascii)) (t : string) : option (ascii * string) :=
  match l with
  | [] => None
  | (w, c) :: l' =>
      if prefix w t then match sdrop (slen w) t with Some r => Some (c, r) | None => None end
      else named l' t
  end.

(** tinyxmlparser.cpp:438-531, GetEntity at "&" followed by [t]: the new position
    and the characters produced *)
Definition GetEntity (e : encoding) (t : string) : ptr * string :=
  let plain := match named entities t with
               | Some (c, r) => (Some r, String c "")
               | None => (Some t, "")     (* length 0: the ampersand is dropped *)
               end in
  match t with
  | String h (String x t3) =>
      if is "#" h then
        if is "x" x then match t3 with "" => (None, "") | _ => numeric e "x" 16 hex_digit t3 end
        else numeric e "#" 10 dec_digit (String x t3)
      else plain
  | _ => plain
  end.

(** tinyxml.h:329-363, GetChar. A multi-byte character that is cut off by the end of
    the text moves the pointer past the terminator, which the caller then reads. *)
Definition GetChar (e : encoding) (p : string) : res (ptr * string) :=
  match p with
  | "" => Ok (None, "")
  | String c t =>
      let k := if is_utf8 e then utf8_len c else 1 in
      if Nat.eqb k 1 then
        if is "&" c then Ok (GetEntity e t) else Ok (Some t, String c "")
      else match sdrop k p with
           | Some q => Ok (Some q, stake k p)
           | None => UB OutOfBounds
           end
  end.

(** tinyxmlparser.cpp:534-571, StringEqual without ignoreCase *)
Definition StringEqual (tag s : string) : bool :=
  match s with "" => false | _ => prefix tag s end.

(** tinyxmlparser.cpp:548-559: the comparison that ignores case *)
Fixpoint prefix_ci (tag s : string) : bool :=
  match tag, s with
  | "", _ => true
  | String a tag', String c s' => is (to_lower a) (to_lower c) && prefix_ci tag' s'
  | _, _ => false
  end.
(** tinyxmlparser.cpp:534-571, StringEqual with ignoreCase *)
Definition StringEqual_ci (tag : string) (p : ptr) : bool :=
  match p with None | Some "" => false | Some s => prefix_ci tag s end.

(** tinyxmlparser.cpp:586-594: the loop of ReadText that keeps white space. [n] bounds
    the iterations; the length of the text is enough. *)
Fixpoint read_chars (n : nat) (e : encoding) (endTag : string) (p : ptr) (acc : string) : res (ptr * string) :=
  match p with
  | None | Some "" => Ok (p, acc)
  | Some q =>
      if StringEqual endTag q then Ok (p, acc) else
      match n with
      | O => Diverge
      | S n' => let? r := GetChar e q in read_chars n' e endTag (fst r) (acc ++ snd r)
      end
  end.

(** tinyxmlparser.cpp:602-632: the loop of ReadText that condenses white space *)
Fixpoint read_words (n : nat) (e : encoding) (endTag : string) (ws : bool) (p : ptr) (acc : string) : res (ptr * string) :=
  match p with
  | None | Some "" => Ok (p, acc)
  | Some (String c t as q) =>
      if StringEqual endTag q then Ok (p, acc) else
      match n with
      | O => Diverge
      | S n' =>
          if is_space c then read_words n' e endTag true (Some t) acc else
          let? r := GetChar e q in
          read_words n' e endTag false (fst r) ((if ws then acc ++ " " else acc) ++ snd r)
      end
  end.

(** tinyxmlparser.cpp:634-636 *)
Definition past (endTag : string) (p : ptr) : ptr :=
  match p with
  | None | Some "" => None
  | Some q => match sdrop (slen endTag) q with
              | None | Some "" => None
              | Some r => Some r
              end
  end.

(** a bound for the loops: the characters left (tinyxmlparser.cpp:586, 603) *)
Definition ptr_len (p : ptr) : nat := match p with None => O | Some s => slen s end.

(** tinyxmlparser.cpp:574-637, ReadText (condenseWhiteSpace is true, tinyxml.cpp:36) *)
Definition ReadText (e : encoding) (trim : bool) (endTag : string) (p : ptr) : res (ptr * string) :=
  let? r := (if trim
             then let p' := SkipWhiteSpace e p in read_words (ptr_len p') e endTag false p' ""
             else read_chars (ptr_len p) e endTag p "") in
  Ok (past endTag (fst r), snd r).

(** The document's error flag and the position up to which rows and columns were
    counted (TiXmlDocument::error, TiXmlParsingData::stamp) *)
Record pst := mkP { p_err : bool; p_stamp : string }.

(** tinyxmlparser.cpp:196-311, Stamp's walk from [p] to [now]. [k] characters are
    still to be stepped over. [None] = the loop never ends: 0xEF within the last two
    bytes of a UTF-8 text is never stepped over (lines 261-277). *)
Fixpoint stamp_walk (e : encoding) (k : nat) (p : string) (now : nat) : option string :=
  match p with
  | "" => Some ""
  | String c t =>
      match k with
      | S k' => stamp_walk e k' t now
      | O =>
          if Nat.ltb now (slen p) then
            if is (chr 13) c then
              stamp_walk e (match t with String d _ => if is (chr 10) d then 1 else 0 | _ => 0 end) t now
            else if is (chr 10) c then
              stamp_walk e (match t with String d _ => if is (chr 13) d then 1 else 0 | _ => 0 end) t now
            else if is_utf8 e then
              if is LEAD_0 c then
                match t with String _ (String _ _) => stamp_walk e 2 t now | _ => None end
              else stamp_walk e (utf8_len c - 1) t now
            else stamp_walk e 0 t now
          else Some p
      end
  end.

(** tinyxmlparser.cpp:196-311, TiXmlParsingData::Stamp *)
Definition Stamp (e : encoding) (now : string) : M pst unit :=
  fun s => match stamp_walk e 0 (p_stamp s) (slen now) with
           | Some p => (mkP (p_err s) p, Ok tt)
           | None => (s, Diverge)
           end.

(** tinyxmlparser.cpp:798-815, TiXmlDocument::SetError: only the first error counts *)
Definition SetError (e : encoding) (p : ptr) : M pst unit :=
  fun s => if p_err s then (s, Ok tt)
           else match p with
                | None => (mkP true (p_stamp s), Ok tt)
                | Some q => Stamp e q (mkP true (p_stamp s))
                end.

(** if ( document ) document->SetError(...) *)
Definition error_if (document : bool) (e : encoding) (p : ptr) : M pst unit :=
  if document then SetError e p else ret tt.

(** tinyxml.h, TiXmlAttribute: name and value (tinyxmlparser.cpp:1392-1463) *)
Record attr := mkAttr { a_name : string; a_value : string }.

(** tinyxmlparser.cpp:1447-1460, an unquoted attribute value: [inr] = a quote inside *)
Fixpoint bare_value (s : string) (acc : string) : (string * string) + string :=
  match s with
  | "" => inl (acc, "")
  | String c t =>
      if is_space c || is "/" c || is ">" c then inl (acc, s)
      else if is "'" c || is """" c then inr s
      else bare_value t (acc ++ String c "")
  end.

(** tinyxmlparser.cpp:1392-1463, TiXmlAttribute::Parse *)
Definition attr_parse (document : bool) (e : encoding) (p : ptr) : M pst (ptr * attr) :=
  match SkipWhiteSpace e p with
  | None | Some "" => ret (None, mkAttr "" "")
  | Some q =>
      Stamp e q ;;;
      match ReadName (Some q) with
      | (name, None) | (name, Some "") => error_if document e (Some q) ;;; ret (None, mkAttr name "")
      | (name, Some q1) =>
          match SkipWhiteSpace e (Some q1) with
          | Some (String eq q2) =>
              if is "=" eq then
                match SkipWhiteSpace e (Some q2) with
                | Some (String c t as q3) =>
                    if is "'" c then
                      r <- lift (ReadText e false "'" (Some t)) ;;
                      ret (fst r, mkAttr name (snd r))
                    else if is """" c then
                      r <- lift (ReadText e false """" (Some t)) ;;
                      ret (fst r, mkAttr name (snd r))
                    else match bare_value q3 "" with
                         | inl (v, rest) => ret (Some rest, mkAttr name v)
                         | inr bad => error_if document e (Some bad) ;;; ret (None, mkAttr name "")
                         end
                | p3 => error_if document e p3 ;;; ret (None, mkAttr name "")
                end
              else error_if document e (Some (String eq q2)) ;;; ret (None, mkAttr name "")
          | p2 => error_if document e p2 ;;; ret (None, mkAttr name "")
          end
      end
  end.

(** the node classes that Identify creates (tinyxmlparser.cpp:838-887) *)
Inductive node_kind := KDeclaration | KComment | KCData | KUnknown | KElement.

(** tinyxmlparser.cpp:818-899, TiXmlNode::Identify *)
Definition Identify (e : encoding) (p : ptr) : option node_kind :=
  match SkipWhiteSpace e p with
  | Some (String c t as q) =>
      if negb (is "<" c) then None
      else if prefix_ci "<?xml" q then Some KDeclaration
      else if StringEqual "<!--" q then Some KComment
      else if StringEqual "<![CDATA[" q then Some KCData
      else if StringEqual "<!" q then Some KUnknown
      else match t with
           | String d _ => if name_start d then Some KElement else Some KUnknown
           | "" => Some KUnknown
           end
  | _ => None
  end.

(** tinyxmlparser.cpp:1293-1297 *)
Fixpoint to_gt (s : string) : string :=
  match s with "" => "" | String c t => if is ">" c then s else to_gt t end.

(** tinyxmlparser.cpp:1275-1307, TiXmlUnknown::Parse, called where Identify found '<' *)
Definition unknown_parse (e : encoding) (p : ptr) : M pst ptr :=
  match SkipWhiteSpace e p with
  | Some (String c t as q) =>
      Stamp e q ;;;
      if is "<" c then
        match to_gt t with
        | "" => ret (Some "")
        | String _ r => ret (Some r)
        end
      else SetError e (Some q) ;;; ret None
  | p' => SetError e p' ;;; ret None
  end.

(** the position of the first occurrence of [tag], or the end of the text
    (tinyxmlparser.cpp:1380-1384 and 1524-1530) *)
Fixpoint find_tag (tag s : string) : string :=
  match s with
  | "" => ""
  | String _ t => if prefix tag s then s else find_tag tag t
  end.

(** tinyxmlparser.cpp:1337-1389, TiXmlComment::Parse: no error if the comment never ends *)
Definition comment_parse (e : encoding) (p : ptr) : M pst ptr :=
  match SkipWhiteSpace e p with
  | Some (String c t as q) =>
      Stamp e q ;;;
      match (if StringEqual "<!--" q then sdrop 4 q else None) with
      | Some r =>
          match find_tag "-->" r with
          | "" => ret (Some "")
          | f => ret (sdrop 3 f)
          end
      | None => SetError e (Some q) ;;; ret None
      end
  | p' => SetError e p' ;;; ret None
  end.

(** tinyxmlparser.cpp:1497-1535, TiXmlText::Parse of a CDATA section *)
Definition cdata_parse (e : encoding) (p : ptr) : M pst ptr :=
  match p with
  | Some (String c t as q) =>
      Stamp e q ;;;
      match (if StringEqual "<![CDATA[" q then sdrop 9 q else None) with
      | Some r => x <- lift (ReadText e false "]]>" (Some (find_tag "]]>" r))) ;; ret (fst x)
      | None => SetError e (Some q) ;;; ret None
      end
  | p' => SetError e p' ;;; ret None
  end.

(** tinyxmlparser.cpp:1502-1545, TiXmlText::Parse of character data: the text up to
    the next '<'; the position goes back to that '<' *)
Definition text_parse (e : encoding) (q : string) : M pst (ptr * string) :=
  Stamp e q ;;;
  r <- lift (ReadText e true "<" (Some q)) ;;
  ret (match fst r with Some s => Some (String "<" s) | None => None end, snd r).

(** tinyxmlparser.cpp:1631-1637, TiXmlText::Blank *)
Fixpoint blank (s : string) : bool :=
  match s with "" => true | String c t => is_space c && blank t end.

(** tinyxmlparser.cpp:1624-1625 *)
Fixpoint skip_word (s : string) : string :=
  match s with "" => "" | String c t => if is ">" c || is_space c then s else skip_word t end.

(** tinyxmlparser.cpp:1594-1628, the loop of TiXmlDeclaration::Parse: the new position
    and the encoding attribute. [n] bounds the iterations. The attributes have no
    document, so their errors are not reported. *)
Fixpoint decl_loop (n : nat) (e : encoding) (enc : string) (p : ptr) : M pst (ptr * string) :=
  match p with
  | None | Some "" => ret (None, enc)
  | Some (String c t) =>
      if is ">" c then ret (Some t, enc) else
      match n with
      | O => lift Diverge
      | S n' =>
          let p1 := SkipWhiteSpace e p in
          if StringEqual_ci "version" p1 then
            r <- attr_parse false e p1 ;; decl_loop n' e enc (fst r)
          else if StringEqual_ci "encoding" p1 then
            r <- attr_parse false e p1 ;; decl_loop n' e (c_str (a_value (snd r))) (fst r)
          else if StringEqual_ci "standalone" p1 then
            r <- attr_parse false e p1 ;; decl_loop n' e enc (fst r)
          else decl_loop n' e enc (option_map skip_word p1)
      end
  end.

(** tinyxmlparser.cpp:1572-1629, TiXmlDeclaration::Parse *)
Definition decl_parse (e : encoding) (p : ptr) : M pst (ptr * string) :=
  match SkipWhiteSpace e p with
  | Some (String c t as q) =>
      if prefix_ci "<?xml" q then
        Stamp e q ;;;
        let p1 := sdrop 5 q in decl_loop (ptr_len p1) e "" p1
      else SetError e None ;;; ret (None, "")
  | _ => SetError e None ;;; ret (None, "")
  end.

(** attributeSet.Find (tinyxmlparser.cpp:1158-1169) *)
Definition known (name : string) (l : list attr) : bool :=
  existsb (fun a => String.eqb (a_name a) name) l.

(** Attribute(name) hands out the value as a C string (tinyxml.cpp:577-583), so that is
    what the document object keeps here *)
Definition dom_attr (a : attr) : string * string := (a_name a, c_str (a_value a)).

(** tinyxmlparser.cpp:1043-1176, TiXmlElement::Parse; 1083-1174, its loop over the
    attributes; 1179-1247, TiXmlElement::ReadValue. [n] bounds the depth of the calls
    plus the iterations. A node whose parsing failed is linked as well; the error flag
    is then set and the document is not used. *)
Fixpoint elem_parse (n : nat) (e : encoding) (p : ptr) : M pst (ptr * xml) :=
  match n with
  | O => lift Diverge
  | S n' =>
      match SkipWhiteSpace e p with
      | Some (String c t as q) =>
          Stamp e q ;;;
          if negb (is "<" c) then SetError e (Some q) ;;; ret (None, XElem "" [] []) else
          let p1 := SkipWhiteSpace e (Some t) in
          match ReadName p1 with
          | (name, None) | (name, Some "") => SetError e p1 ;;; ret (None, XElem name [] [])
          | (name, Some q1) => attrs_loop n' e name [] q1
          end
      | _ => SetError e None ;;; ret (None, XElem "" [] [])
      end
  end
with attrs_loop (n : nat) (e : encoding) (name : string) (attrs : list attr) (s : string) : M pst (ptr * xml) :=
  match n with
  | O => lift Diverge
  | S n' =>
      match SkipWhiteSpace e (Some s) with
      | Some (String c t as q) =>
          if is "/" c then
            match t with
            | String d t' =>
                if is ">" d then ret (Some t', XElem name (map dom_attr attrs) [])
                else SetError e (Some t) ;;; ret (None, XElem name (map dom_attr attrs) [])
            | "" => SetError e (Some t) ;;; ret (None, XElem name (map dom_attr attrs) [])
            end
          else if is ">" c then
            r <- read_value n' e [] (Some t) ;;
            let fail p' := SetError e p' ;;; ret (None, XElem name (map dom_attr attrs) (snd r)) in
            match fst r with
            | Some (String _ _ as u) =>
                if StringEqual ("</" ++ name) u then
                  match SkipWhiteSpace e (sdrop (slen ("</" ++ name)) u) with
                  | Some (String d t') =>
                      if is ">" d then ret (Some t', XElem name (map dom_attr attrs) (snd r))
                      else fail (Some (String d t'))
                  | p' => fail p'
                  end
                else fail (Some u)
            | p' => fail p'
            end
          else
            r <- attr_parse true e (Some q) ;;
            match fst r with
            | Some (String _ _ as s') =>
                if known (a_name (snd r)) attrs
                then SetError e (Some q) ;;; ret (None, XElem name (map dom_attr attrs) [])
                else attrs_loop n' e name (attrs ++ [snd r]) s'
            | _ => SetError e (Some q) ;;; ret (None, XElem name (map dom_attr attrs) [])
            end
      | _ => SetError e (Some s) ;;; ret (None, XElem name (map dom_attr attrs) [])
      end
  end
with read_value (n : nat) (e : encoding) (kids : list xml) (p : ptr) : M pst (ptr * list xml) :=
  match n with
  | O => lift Diverge
  | S n' =>
      match SkipWhiteSpace e p with
      | None => SetError e None ;;; ret (None, kids)
      | Some "" => ret (Some "", kids)
      | Some (String c t as q) =>
          if negb (is "<" c) then
            r <- text_parse e q ;;
            read_value n' e (if blank (snd r) then kids else (kids ++ [XOther])%list) (fst r)
          else if StringEqual "</" q then ret (Some q, kids)
          else
            match Identify e (Some q) with
            | None => ret (None, kids)
            | Some KElement => r <- elem_parse n' e (Some q) ;; read_value n' e (kids ++ [snd r])%list (fst r)
            | Some KDeclaration => r <- decl_parse e (Some q) ;; read_value n' e (kids ++ [XOther])%list (fst r)
            | Some KComment => p' <- comment_parse e (Some q) ;; read_value n' e (kids ++ [XOther])%list p'
            | Some KCData => p' <- cdata_parse e (Some q) ;; read_value n' e (kids ++ [XOther])%list p'
            | Some KUnknown => p' <- unknown_parse e (Some q) ;; read_value n' e (kids ++ [XOther])%list p'
            end
      end
  end.

(** enough for any text of that length *)
Definition depth_for (s : string) : nat := 4 * slen s + 8.

(** tinyxmlparser.cpp:768-783: the encoding that a declaration announces *)
Definition announced (e : encoding) (enc : string) : encoding :=
  match e with
  | ENC_UNKNOWN =>
      match enc with
      | "" => ENC_UTF8
      | _ => if prefix_ci "UTF-8" enc then ENC_UTF8 else if prefix_ci "UTF8" enc then ENC_UTF8 else ENC_LEGACY
      end
  | _ => e
  end.

(** tinyxmlparser.cpp:754-786, the loop of TiXmlDocument::Parse over the top-level nodes.
    It stops without an error where no node starts. *)
Fixpoint doc_loop (n : nat) (e : encoding) (nodes : list xml) (p : ptr) : M pst (list xml) :=
  match p with
  | None | Some "" => ret nodes
  | Some (String c t as q) =>
      match n with
      | O => lift Diverge
      | S n' =>
          match Identify e p with
          | None => ret nodes
          | Some KElement =>
              r <- elem_parse (depth_for q) e p ;;
              doc_loop n' e (nodes ++ [snd r])%list (SkipWhiteSpace e (fst r))
          | Some KDeclaration =>
              r <- decl_parse e p ;;
              let e' := announced e (snd r) in
              doc_loop n' e' (nodes ++ [XOther])%list (SkipWhiteSpace e' (fst r))
          | Some KComment => p' <- comment_parse e p ;; doc_loop n' e (nodes ++ [XOther])%list (SkipWhiteSpace e p')
          | Some KCData => p' <- cdata_parse e p ;; doc_loop n' e (nodes ++ [XOther])%list (SkipWhiteSpace e p')
          | Some KUnknown => p' <- unknown_parse e p ;; doc_loop n' e (nodes ++ [XOther])%list (SkipWhiteSpace e p')
          end
      end
  end.

(** tinyxmlparser.cpp:734-745: the byte order mark selects UTF-8 *)
Definition bom (s : string) : encoding :=
  match s with
  | String a (String b (String c _)) =>
      if is LEAD_0 a && is LEAD_1 b && is LEAD_2 c then ENC_UTF8 else ENC_UNKNOWN
  | _ => ENC_UNKNOWN
  end.

(** tinyxmlparser.cpp:704-796, TiXmlDocument::Parse, as parseURDF calls it (model.cpp:97-104):
    [Ok None] = the document reports an error, [Ok (Some l)] = its top-level nodes *)
Definition tinyxml_parse (text : string) : res (option (list xml)) :=
  let s := c_str text in
  let e := bom s in
  match SkipWhiteSpace e (Some s) with
  | None => Ok None
  | Some q =>
      match doc_loop (slen s) e [] (Some q) (mkP false s) with
      | (st, Ok nodes) =>
          Ok (if p_err st then None else match nodes with [] => None | _ => Some nodes end)
      | (_, Throw x) => Throw x
      | (_, UB u) => UB u
      | (_, Diverge) => Diverge
      end
  end.

Section Ctor.
Context `{A : Arith}.
(** tinyfk.cpp:16-114, the constructor on a text, with the shipped parser *)
Definition ctor_text (text : string) : res KM :=
  match text with
  | "" => Throw RuntimeError
  | _ => let? d := tinyxml_parse text in ctor_mi (parseURDF_dom d)
  end.
End Ctor.
