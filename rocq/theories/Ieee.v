(** IEEE 754 doubles: the operations of [Arith] on Flocq's binary64, with its infinities, NaN
    and signed zeros.  FloatArith.v idealises doubles as real numbers without a largest one;
    here an operation can overflow. *)
From Coq Require Import ZArith QArith Qreals Reals String.
From Flocq Require Import Core BinarySingleNaN.
From Verif Require Import Base Num.

Definition double_prec : Z := 53.
Definition double_emax : Z := 1024.
Lemma double_prec_pos : Prec_gt_0 double_prec. Proof. reflexivity. Qed.
Lemma double_prec_lt : Prec_lt_emax double_prec double_emax. Proof. reflexivity. Qed.
#[global] Existing Instance double_prec_pos.
#[global] Existing Instance double_prec_lt.

(** the C++ type double *)
Definition double : Type := binary_float double_prec double_emax.
(** the real number a finite double stands for *)
Definition value (x : double) : R := B2R x.
Definition finite (x : double) : Prop := is_finite x = true.

(** What depends on the compiler and the library: the doubles of literals in the source, the
    functions of <cmath> (pose.h:130-216, joint.h:217-252) and reading a decimal numeral
    (utils.h:73-88, strToDouble; [None]: it throws). *)
Record Platform := mkPlatform {
  p_lit : Q -> double;
  p_sin : double -> double; p_cos : double -> double; p_asin : double -> double;
  p_atan2 : double -> double -> double;
  p_parse : string -> option double }.

(** the operators of C++ on doubles, rounding to nearest even *)
Definition DA (pf : Platform) : Arith := {|
  num := double; lit := p_lit pf;
  add := Bplus mode_NE; sub := Bminus mode_NE; mul := Bmult mode_NE; div := Bdiv mode_NE; opp := Bopp;
  nsqrt := Bsqrt mode_NE; nsin := p_sin pf; ncos := p_cos pf; nasin := p_asin pf; natan2 := p_atan2 pf;
  nle := Bleb; nlt := Bltb; neq := Beqb;
  str_to_double := p_parse pf |}.

(** the nearest number with 53 significant bits (fewer below 2^-1022), ties to even; the
    largest relative error of rounding *)
Definition double_round : R -> R := round radix2 (FLT_exp (-1074) 53) ZnearestE.
Definition double_unit : R := (/ 9007199254740992)%R.
