(** The numeric operations the code uses, without any law.  Every theorem stated
    for an arbitrary [Arith] holds for IEEE doubles as well. *)
From Coq Require Import QArith String.

Class Arith := {
  num : Type;
  lit : Q -> num;                 (* a literal in the source *)
  add : num -> num -> num;
  sub : num -> num -> num;
  mul : num -> num -> num;
  div : num -> num -> num;
  opp : num -> num;
  nsqrt : num -> num;
  nsin : num -> num;
  ncos : num -> num;
  nasin : num -> num;
  natan2 : num -> num -> num;
  nle : num -> num -> bool;       (* a <= b *)
  nlt : num -> num -> bool;       (* a < b *)
  neq : num -> num -> bool;       (* a == b *)
  (* urdf_parser/include/urdf_model/utils.h:73-88, strToDouble: [None] when it
     throws std::runtime_error *)
  str_to_double : string -> option num
}.

Declare Scope num_scope.
Delimit Scope num_scope with num.
Bind Scope num_scope with num.
Infix "+" := add : num_scope.
Infix "-" := sub : num_scope.
Infix "*" := mul : num_scope.
Infix "/" := div : num_scope.
Notation "- x" := (opp x) : num_scope.

Definition n0 `{Arith} : num := lit 0.
Definition n1 `{Arith} : num := lit 1.
Definition n2 `{Arith} : num := lit 2.
Definition nhalf `{Arith} : num := lit (1#2).
