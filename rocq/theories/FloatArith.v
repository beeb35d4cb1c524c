(** Rounded arithmetic: the operations of [Arith] on real numbers, each followed by some
    rounding.  The code computes with IEEE doubles; a double that is neither infinite nor
    NaN is a real number, and an operation that does not overflow returns the rounded
    exact result.  Overflow is not modelled: exponents are unbounded above. *)
From Coq Require Import QArith Qreals Reals String.
From Verif Require Import Base Num Decimal RealArith.
Local Open Scope R_scope.

(** one choice of operations on the reals: what the hardware and libm make of the operators
    and functions the code applies to its doubles (pose.h:54-345, joint.h:217-252,
    kinematics.cpp:1-319) and of strToDouble (utils.h:73-88) *)
Record Ops := mkOps {
  o_lit : Q -> R;
  o_add : R -> R -> R; o_sub : R -> R -> R; o_mul : R -> R -> R; o_div : R -> R -> R;
  o_sqrt : R -> R; o_sin : R -> R; o_cos : R -> R; o_asin : R -> R; o_atan2 : R -> R -> R;
  o_parse : string -> option R }.

(** the arithmetic they make up; negation and comparisons are exact, as for doubles *)
Definition FA (o : Ops) : Arith := {|
  num := R; lit := o_lit o;
  add := o_add o; sub := o_sub o; mul := o_mul o; div := o_div o; opp := Ropp;
  nsqrt := o_sqrt o; nsin := o_sin o; ncos := o_cos o; nasin := o_asin o; natan2 := o_atan2 o;
  nle := Rleb; nlt := Rltb; neq := Reqb;
  str_to_double := o_parse o |}.

(** [y] is [x] up to the relative and absolute error [u] *)
Definition rounds (u x y : R) : Prop := Rabs (y - x) <= u * (1 + Rabs x).

(** every operation is accurate up to [u], and the literal 0 is exact *)
Record accurate (o : Ops) (u : R) : Prop := {
  acc_zero : o_lit o 0%Q = 0;
  acc_lit : forall q, rounds u (Q2R q) (o_lit o q);
  acc_add : forall a b, rounds u (a + b) (o_add o a b);
  acc_sub : forall a b, rounds u (a - b) (o_sub o a b);
  acc_mul : forall a b, rounds u (a * b) (o_mul o a b);
  acc_div : forall a b, b <> 0 -> rounds u (a / b) (o_div o a b);
  acc_sqrt : forall a, 0 <= a -> rounds u (sqrt a) (o_sqrt o a);
  acc_sin : forall a, rounds u (sin a) (o_sin o a);
  acc_cos : forall a, rounds u (cos a) (o_cos o a);
  acc_parse : forall s, match strToDouble s, o_parse o s with
                        | Some q, Some x => rounds u (Q2R q) x
                        | None, None => True
                        | _, _ => False
                        end }.

(** operations that round every exact result with [rnd] *)
Definition rounding (rnd : R -> R) : Ops := {|
  o_lit := fun q => rnd (Q2R q);
  o_add := fun a b => rnd (a + b); o_sub := fun a b => rnd (a - b);
  o_mul := fun a b => rnd (a * b); o_div := fun a b => rnd (a / b);
  o_sqrt := fun a => rnd (sqrt a); o_sin := fun a => rnd (sin a); o_cos := fun a => rnd (cos a);
  o_asin := fun a => rnd (asin a); o_atan2 := fun a b => rnd (ratan2 a b);
  o_parse := fun s => option_map (fun q => rnd (Q2R q)) (strToDouble s) |}.

Lemma rounding_accurate rnd u : rnd 0 = 0 -> (forall x, rounds u x (rnd x)) -> accurate (rounding rnd) u.
Proof.
  intros Z H. split; cbn; intros; try apply H; [unfold Q2R; simpl; rewrite Rmult_0_l; exact Z|]. destruct (strToDouble s); cbn; [apply H|exact I].
Qed.
