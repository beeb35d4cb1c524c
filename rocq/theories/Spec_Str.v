(** Words and decimal numbers in attribute strings. *)
From Coq Require Import QArith ZArith String Ascii List.
Import ListNotations.
Local Open Scope string_scope.

Fixpoint no_space (s : string) : Prop := match s with EmptyString => True | String c t => c <> " "%char /\ no_space t end.

(** [words s ws]: [ws] are the words of [s], separated by spaces. *)
Inductive words : string -> list string -> Prop :=
| words_nil : words "" []
| words_space s ws : words s ws -> words (String " " s) ws
| words_word w s ws : w <> "" -> no_space w -> (s = "" \/ exists s', s = String " " s') -> words s ws -> words (w ++ s) (w :: ws).

(** White space of the C locale. *)
Definition white (c : ascii) : Prop := In (nat_of_ascii c) [9; 10; 11; 12; 13; 32]%nat.
Fixpoint all_white (s : string) : Prop := match s with EmptyString => True | String c t => white c /\ all_white t end.

(** Digit strings and their value. *)
Definition digit (c : ascii) : Prop := In c ["0"; "1"; "2"; "3"; "4"; "5"; "6"; "7"; "8"; "9"]%char.
Definition value_of (c : ascii) : Z := Z.of_nat (nat_of_ascii c) - Z.of_nat (nat_of_ascii "0").
Fixpoint all_digits (s : string) : Prop := match s with EmptyString => True | String c t => digit c /\ all_digits t end.
(** value of the digits of [s], continuing a number whose value so far is [acc] *)
Fixpoint number (acc : Z) (s : string) : Z := match s with EmptyString => acc | String c t => number (10 * acc + value_of c) t end.

Inductive sign : string -> Z -> Prop := sign_none : sign "" 1 | sign_plus : sign "+" 1 | sign_minus : sign "-" (-1).

(** [e][sign][digits] or nothing *)
Inductive exponent : string -> Z -> Prop :=
| exp_none : exponent "" 0
| exp_some c sg z ds : c = "e"%char \/ c = "E"%char -> sign sg z -> ds <> "" -> all_digits ds -> exponent (String c (sg ++ ds)) (z * number 0 ds)%Z.

(** [.digits] (also a lone point) or nothing *)
Inductive fraction : string -> string -> Prop :=
| frac_none : fraction "" ""
| frac_some ds : all_digits ds -> fraction (String "." ds) ds.

(** [decimal s v]: white space, sign, digits, fraction and exponent, with at least one digit
    before the exponent, and the value [v] small enough for a double. *)
Definition decimal (s : string) (v : Q) : Prop :=
  exists ws sg z ip fr fd ex e,
    s = (ws ++ sg ++ ip ++ fr ++ ex) /\ all_white ws /\ sign sg z /\ all_digits ip /\ fraction fr fd /\ exponent ex e /\
    (ip <> "" \/ fd <> "") /\
    let m := (inject_Z (number 0 (ip ++ fd)) * Qpower (10 # 1) (e - Z.of_nat (String.length fd)))%Q in
    (m < inject_Z (2 ^ 1024 - 2 ^ 970))%Q /\ v = (if (z =? 1)%Z then m else Qopp m).
