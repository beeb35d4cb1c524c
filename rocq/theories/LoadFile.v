(** Model of src/tinyfk.cpp:285-295, load_urdf: reading a file line by line. *)
From Coq Require Import String Ascii List.
From Verif Require Import Base Num Pose Urdf Kin.
Import ListNotations.
Local Open Scope string_scope.

Definition newline : ascii := "010"%char.

(** std::getline(stream, line) on the unread rest of the file: the line, the rest, and
    whether the stream is still good() (the end of the file sets eofbit, and also failbit
    when there was nothing left). *)
Fixpoint getline (cur rest : string) : string * string * bool :=
  match rest with
  | EmptyString => (cur, EmptyString, false)
  | String c t => if Ascii.eqb c newline then (cur, t, true) else getline (cur ++ String c EmptyString) t
  end.

(** tinyfk.cpp:288-292: while (xml_file.good()) { getline; xml_string += line + "\n" } *)
Definition load_step (s : string * string * bool) : (string * string * bool) + res string :=
  let '(acc, rest, good) := s in
  if good then let '(line, rest', good') := getline EmptyString rest in inl (acc ++ (line ++ String newline EmptyString), rest', good')
  else inr (Ok acc).

Fixpoint load_turns (n : nat) (s : string * string * bool) : res string :=
  match n with
  | O => Diverge
  | S n' => match load_step s with inl s' => load_turns n' s' | inr r => r end
  end.

(** tinyfk.cpp:285-295; [None] = the file cannot be opened, so the stream is not good.
    Every turn but the last reads at least one character, so length + 2 turns suffice. *)
Definition load_urdf (file : option string) : res string :=
  match file with
  | None => load_turns 1 (EmptyString, EmptyString, false)
  | Some content => load_turns (String.length content + 2) (EmptyString, content, true)
  end.
