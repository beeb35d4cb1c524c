(** The exact-arithmetic instance: Coq's real numbers.  Rounding of doubles is not
    modelled by this instance. *)
From Coq Require Import QArith Qreals Reals String.
From Verif Require Import Base Num Pose Urdf Decimal.
Local Open Scope R_scope.

(** std::atan2 on the reals (C standard 7.12.4.4; on exact zeros the sign of zero does
    not exist, and atan2(0, x<0) is pi as for +0.0) *)
Definition ratan2 (y x : R) : R :=
  if Rlt_dec 0 x then atan (y / x)
  else if Rlt_dec x 0 then (if Rle_dec 0 y then atan (y / x) + PI else atan (y / x) - PI)
  else if Rlt_dec 0 y then PI / 2
  else if Rlt_dec y 0 then - (PI / 2)
  else 0.

Definition Rleb (a b : R) : bool := if Rle_dec a b then true else false.
Definition Rltb (a b : R) : bool := if Rlt_dec a b then true else false.
Definition Reqb (a b : R) : bool := if Req_EM_T a b then true else false.

#[global] Instance RA : Arith := {|
  num := R; lit := Q2R;
  add := Rplus; sub := Rminus; mul := Rmult; div := Rdiv; opp := Ropp;
  nsqrt := sqrt; nsin := sin; ncos := cos; nasin := asin; natan2 := ratan2;
  nle := Rleb; nlt := Rltb; neq := Reqb;
  str_to_double := fun s => option_map Q2R (strToDouble s) |}.
