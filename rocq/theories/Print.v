(** Model of TinyXML's printing of documents (urdf_parser/tinyxml/tinyxml.cpp, tinyxml.h): to
    a file with SaveFile, and to a string or stream with operator<<.  The writer (Export.v)
    builds documents of elements only, so that only elements are printed here; comments, texts,
    declarations and the like, [XOther] in Urdf.v, are not modelled and print as nothing.
    Errors of the file system are not modelled either. *)
From Coq Require Import String Ascii NArith List Bool.
From Verif Require Import Base Urdf TinyXml.
Import ListNotations.
Local Open Scope string_scope.

(** printf's %02X of a number below 256 *)
Definition hex_char_of (n : N) : ascii := if N.ltb n 10 then chr (48 + n) else chr (55 + n).
Definition hex2 (n : N) : string := String (hex_char_of (N.div n 16)) (String (hex_char_of (N.modulo n 16)) "").

(** tinyxml.cpp:82-125: one character *)
Definition encode_char (c : ascii) : string :=
  if is "&" c then "&amp;" else if is "<" c then "&lt;" else if is ">" c then "&gt;"
  else if is """" c then "&quot;" else if is "'" c then "&apos;"
  else if N.ltb (code c) 32 then "&#x" ++ hex2 (code c) ++ ";"
  else String c "".

(** tinyxml.cpp:52-127, TiXmlBase::EncodeString.  [inside] = within the loop of lines 73-79,
    which copies what looks like a hexadecimal reference up to the semicolon, or all but the
    last character. *)
Fixpoint EncodeString (inside : bool) (s : string) : string :=
  match s with
  | "" => ""
  | String c t =>
      if (if inside then match t with "" => false | _ => true end else prefix "&#x" s)
      then String c (EncodeString (negb (prefix ";" t)) t)
      else encode_char c ++ EncodeString false t
  end.

(** tinyxml.cpp:1217: the value contains a double quote *)
Fixpoint has_quote (s : string) : bool :=
  match s with "" => false | String c t => is """" c || has_quote t end.

(** tinyxml.cpp:1210-1233, TiXmlAttribute::Print.  For files the encoded strings are printed as
    C strings, for streams as they are; EncodeString leaves a NUL only inside of a reference, and
    the attributes of a parsed document contain none (TinyXml.v, [dom_attr]), so that this
    difference is dropped. *)
Definition print_attr (a : string * string) : string :=
  let q := if has_quote (snd a) then "'" else """" in
  EncodeString false (fst a) ++ "=" ++ q ++ EncodeString false (snd a) ++ q.
(** tinyxml.cpp:810-815 and 1772-1776: each attribute after a space *)
Definition print_attrs (l : list (string * string)) : string :=
  String.concat "" (map (fun a => " " ++ print_attr a) l).

Definition newline : string := String (chr 10) "".
(** tinyxml.cpp:804-806 *)
Fixpoint indentation (depth : nat) : string :=
  match depth with O => "" | S d => "    " ++ indentation d end.

(** tinyxml.cpp:800-851, TiXmlElement::Print *)
Fixpoint print_element (depth : nat) (x : xml) : string :=
  match x with
  | XOther => ""
  | XElem n l [] => indentation depth ++ "<" ++ n ++ print_attrs l ++ " />"
  | XElem n l kids =>
      indentation depth ++ "<" ++ n ++ print_attrs l ++ ">" ++
      String.concat "" (map (fun k => newline ++ print_element (S depth) k) kids) ++
      newline ++ indentation depth ++ "</" ++ n ++ ">"
  end.

(** tinyxml.cpp:1098-1112 and 1145-1153, TiXmlDocument::SaveFile: what is in the file.
    A document built by exportURDF has no byte order mark (tinyxml.cpp:913-918). *)
Definition SaveFile (nodes : list xml) : string :=
  String.concat "" (map (fun x => print_element 0 x ++ newline) nodes).

(** tinyxml.cpp:1766-1826 with SetStreamPrinting (tinyxml.h:1773-1775): no indentation and no
    line breaks *)
Fixpoint stream_element (x : xml) : string :=
  match x with
  | XOther => ""
  | XElem n l [] => "<" ++ n ++ print_attrs l ++ " />"
  | XElem n l kids => "<" ++ n ++ print_attrs l ++ ">" ++ String.concat "" (map stream_element kids) ++ "</" ++ n ++ ">"
  end.
(** tinyxml.cpp:1609-1628, operator<< of a document *)
Definition stream_out (nodes : list xml) : string := String.concat "" (map stream_element nodes).
