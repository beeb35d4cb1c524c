(** Model of urdf_parser/include/urdf_model/utils.h:73-88, strToDouble, down to the
    characters: reading a double from a std::stringstream in the classic locale and then
    testing fail() and eof().

    libstdc++ skips white space, collects the longest prefix of the form
    [sign] digits [. digits] [e [sign] digits] and hands it to strtod; the stream fails
    when strtod does not consume all of it or overflows.  Since eof() must hold, the
    whole string after the white space has to be that prefix.  The value is the exact
    decimal value, not rounded to a double; underflow is not an error. *)
From Coq Require Import QArith ZArith String Ascii List Bool.
From Verif Require Import Base Num Pose Urdf.
Local Open Scope Z_scope.

(** decimal digits: value, how many, rest *)
Fixpoint dec_digits (acc : Z) (k : nat) (s : string) : Z * nat * string :=
  match s with
  | String c t => if is_digit c then dec_digits (10 * acc + digit_val c) (S k) t else (acc, k, s)
  | EmptyString => (acc, k, s)
  end.

Definition dec_sign (s : string) : bool * string :=
  match s with
  | String c t => if Ascii.eqb c "-" then (true, t) else if Ascii.eqb c "+" then (false, t) else (false, s)
  | EmptyString => (false, s)
  end.

(** [e [sign] digits] or nothing; must end the string *)
Definition dec_exponent (s : string) : option Z :=
  match s with
  | EmptyString => Some 0
  | String c t =>
      if Ascii.eqb c "e" || Ascii.eqb c "E" then
        let (neg, t) := dec_sign t in
        match dec_digits 0 0 t with
        | (v, S _, EmptyString) => Some (if neg then - v else v)
        | _ => None
        end
      else None
  end.

(** the largest magnitude that still rounds to a finite double lies below this *)
Definition dbl_limit : Q := inject_Z (2 ^ 1024 - 2 ^ 970).

Definition dec_value (neg : bool) (mantissa exp10 : Z) : Q :=
  let v := (inject_Z mantissa * Qpower (10 # 1) exp10)%Q in if neg then Qopp v else v.

Definition strToDouble (s : string) : option Q :=
  let (neg, s) := dec_sign (skip_space s) in
  let '(i, ni, s) := dec_digits 0 0 s in
  let '(m, nf, s) := match s with
                     | String c t => if Ascii.eqb c "." then dec_digits i 0 t else (i, 0%nat, s)
                     | EmptyString => (i, 0%nat, s)
                     end in
  if Nat.eqb (ni + nf) 0 then None else
  match dec_exponent s with
  | None => None
  | Some e => let v := dec_value neg m (e - Z.of_nat nf) in
              if Qle_bool dbl_limit (dec_value false m (e - Z.of_nat nf)) then None else Some v
  end.
