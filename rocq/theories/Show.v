(** Model of how a C++ stream prints a double (pose.cpp:54, [ss << value], with the default
    precision of six): C99 7.21.6.1, conversion %g.  The number is rounded to six significant
    digits; it is written with an exponent if the decimal exponent is below -4 or at least 6;
    trailing zeros of the fraction are left out.

    Simplifications: a double is a real number (no infinities, no NaN, no negative zero), and
    exponents have at most three digits. *)
From Coq Require Import ZArith Reals String Ascii.
From Flocq Require Import Core.
Local Open Scope string_scope.

Definition radix10 : radix := Build_radix 10 eq_refl.

Definition digit_char (d : Z) : ascii := ascii_of_nat (Z.to_nat (48 + d)).
(** the last [k] digits of [z] *)
Fixpoint zdigits (k : nat) (z : Z) : string :=
  match k with O => "" | S k => zdigits k (z / 10) ++ String (digit_char (z mod 10)) "" end.
Fixpoint strip0 (s : string) : string :=
  match s with
  | EmptyString => EmptyString
  | String c t => match strip0 t with EmptyString => if Ascii.eqb c "0" then EmptyString else String c EmptyString | t' => String c t' end
  end.
(** integer part and fraction *)
Definition pointed (ip fd : string) : string := match strip0 fd with EmptyString => ip | f => ip ++ String "." f end.
Definition exp_part (e : Z) : string :=
  String "e" (String (if (e <? 0)%Z then "-" else "+")%char (zdigits (if (Z.abs e <? 100)%Z then 2 else 3) (Z.abs e))).
Fixpoint zeros (k : nat) : string := match k with O => "" | S k => String "0" (zeros k) end.
Fixpoint stake (n : nat) (s : string) : string := match n, s with S n, String c t => String c (stake n t) | _, _ => EmptyString end.
Fixpoint sdrop (n : nat) (s : string) : string := match n, s with S n, String c t => sdrop n t | O, _ => s | _, EmptyString => EmptyString end.

(** the number m * 10^(e-5), where m has six digits *)
Definition print_g (m e : Z) : string :=
  let D := zdigits 6 m in
  if ((-4 <=? e) && (e <? 0))%Z%bool then pointed "0" (zeros (Z.to_nat (- e - 1)) ++ D)
  else if ((0 <=? e) && (e <? 6))%Z%bool then pointed (stake (Z.to_nat (e + 1)) D) (sdrop (Z.to_nat (e + 1)) D)
  else pointed (stake 1 D) (sdrop 1 D) ++ exp_part e.

(** the nearest number with six significant digits *)
Definition round6 (x : R) : R := round radix10 (FLX_exp 6) ZnearestE x.
Definition show6 (x : R) : string :=
  if Req_EM_T x 0 then "0" else
  let F := Rabs (round6 x) in
  let e := (mag radix10 F - 1)%Z in
  (if Rlt_dec x 0 then "-" else "") ++ print_g (Ztrunc (F * bpow radix10 (5 - e))) e.

(** as printf prints them *)
Example print_g_examples :
  print_g 100000 0 = "1" /\ print_g 100000 (-1) = "0.1" /\ print_g 314159 0 = "3.14159" /\ print_g 123400 (-4) = "0.0001234" /\
  print_g 123000 5 = "123000" /\ print_g 123456 6 = "1.23456e+06" /\ print_g 100000 (-5) = "1e-05" /\ print_g 179769 308 = "1.79769e+308" /\
  print_g 494066 (-324) = "4.94066e-324".
Proof. repeat split. Qed.
