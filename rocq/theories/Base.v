(** Basic vocabulary of the model: outcomes of C++/Python calls, vectors with
    checked accesses, the state monad, loops. *)
From Coq Require Import List String Arith.
Import ListNotations.

(** Kinds of undefined behaviour that the model distinguishes. *)
Inductive ub := OutOfBounds | NullDeref | StackUnderflow | Uninitialised.

(** Exceptions: std::invalid_argument, std::runtime_error, Python's
    AssertionError, ValueError, TypeError; std::out_of_range; OSError. *)
Inductive exn := InvalidArgument | RuntimeError | AssertionError | ValueError | TypeError | OutOfRange | OSError.

(** Outcome of a call: normal return, exception, undefined behaviour, or a loop
    that does not terminate. *)
Inductive res (A : Type) : Type :=
| Ok (a : A)
| Throw (e : exn)
| UB (u : ub)
| Diverge.
Arguments Ok {A}. Arguments Throw {A}. Arguments UB {A}. Arguments Diverge {A}.

Definition rbind {A B} (x : res A) (f : A -> res B) : res B :=
  match x with Ok a => f a | Throw e => Throw e | UB u => UB u | Diverge => Diverge end.

(** Stateful calls return the state also when they raise, so what a rejected
    call does to the object is part of the model. *)
Definition M (S A : Type) := S -> S * res A.

Definition ret {S A} (a : A) : M S A := fun s => (s, Ok a).
Definition throw {S A} (e : exn) : M S A := fun s => (s, Throw e).
Definition lift {S A} (r : res A) : M S A := fun s => (s, r).
Definition get {S} : M S S := fun s => (s, Ok s).
Definition put {S} (s : S) : M S unit := fun _ => (s, Ok tt).
Definition bind {S A B} (x : M S A) (f : A -> M S B) : M S B :=
  fun s => match x s with
           | (s', Ok a) => f a s'
           | (s', Throw e) => (s', Throw e)
           | (s', UB u) => (s', UB u)
           | (s', Diverge) => (s', Diverge)
           end.

Declare Scope m_scope.
Notation "x <- e ;; f" := (bind e (fun x => f)) (at level 61, e at next level, right associativity) : m_scope.
Notation "e ;;; f" := (bind e (fun _ => f)) (at level 61, right associativity) : m_scope.
Notation "'let?' x := e 'in' f" := (rbind e (fun x => f)) (at level 200, x name, right associativity) : m_scope.

(** v[i] for std::vector: no bounds check, so out of range is undefined. *)
Definition vget {A} (v : list A) (i : nat) : res A :=
  match nth_error v i with Some a => Ok a | None => UB OutOfBounds end.

Fixpoint list_set {A} (v : list A) (i : nat) (a : A) : list A :=
  match v, i with
  | [], _ => []
  | _ :: t, O => a :: t
  | x :: t, S i' => x :: list_set t i' a
  end.

(** v[i] = a *)
Definition vset {A} (v : list A) (i : nat) (a : A) : res (list A) :=
  if Nat.ltb i (List.length v) then Ok (list_set v i a) else UB OutOfBounds.

(** *p for a shared_ptr / raw pointer *)
Definition deref {A} (p : option A) : res A :=
  match p with Some a => Ok a | None => UB NullDeref end.

(** for (x : l) body *)
Fixpoint for_each {S A B} (l : list A) (acc : B) (body : A -> B -> M S B) : M S B :=
  match l with
  | [] => ret acc
  | a :: t => bind (body a acc) (fun acc' => for_each t acc' body)
  end.

Fixpoint rfor {A B} (l : list A) (acc : B) (body : A -> B -> res B) : res B :=
  match l with
  | [] => Ok acc
  | a :: t => rbind (body a acc) (fun acc' => rfor t acc' body)
  end.

(** while loop run for at most 2^k iterations; [inl] = still running. *)
Fixpoint loop2 {S R} (k : nat) (step : S -> S + R) (s : S) : S + R :=
  match k with
  | O => step s
  | Datatypes.S k' => match loop2 k' step s with
            | inl s' => loop2 k' step s'
            | inr r => inr r
            end
  end.

(** Association lists. *)
Fixpoint assoc {A} (k : string) (l : list (string * A)) : option A :=
  match l with
  | [] => None
  | (k', a) :: t => if String.eqb k k' then Some a else assoc k t
  end.
