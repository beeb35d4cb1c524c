(** Model of include/data_structure.hpp. *)
From Coq Require Import List Arith.
From Verif Require Import Base.
Import ListNotations.
Local Open Scope m_scope.

Section SizedCache.
Context {D : Type} (dflt : D).   (* [dflt]: the default-constructed DataT *)

(** data_structure.hpp:34-37 *)
Record SizedCache := mkCache {
  cache_size : nat;
  cache_data : list D;
  cache_pred : list bool
}.

(** data_structure.hpp:7-9, constructor *)
Definition cache_new (n : nat) : SizedCache := mkCache n (repeat dflt n) (repeat false n).

(** data_structure.hpp:13-16, set_cache *)
Definition set_cache (id : nat) (d : D) (c : SizedCache) : res SizedCache :=
  let? p := vset (cache_pred c) id true in
  let? v := vset (cache_data c) id d in
  Ok (mkCache (cache_size c) v p).

(** data_structure.hpp:18-24, get_cache; [None] = nullptr *)
Definition get_cache (id : nat) (c : SizedCache) : res (option D) :=
  let? b := vget (cache_pred c) id in
  if b then let? d := vget (cache_data c) id in Ok (Some d) else Ok None.

(** data_structure.hpp:32, clear *)
Definition cache_clear (c : SizedCache) : SizedCache :=
  mkCache (cache_size c) (cache_data c) (repeat false (cache_size c)).

(** data_structure.hpp:26-31, extend *)
Definition cache_extend (c : SizedCache) : SizedCache :=
  cache_clear (mkCache (S (cache_size c)) (cache_data c ++ [dflt]) (cache_pred c ++ [false])).

End SizedCache.
Arguments SizedCache : clear implicits.

Section SizedStack.
Context {E : Type} (dflt : E).

(** data_structure.hpp:58-60 *)
Record SizedStack := mkStack { stack_data : list E; stack_idx : nat }.

(** data_structure.hpp:43-44, constructor *)
Definition stack_new (n : nat) : SizedStack := mkStack (repeat dflt n) 0.

(** data_structure.hpp:46-48 *)
Definition stack_size (s : SizedStack) : nat := stack_idx s.
Definition stack_empty (s : SizedStack) : bool := Nat.eqb (stack_idx s) 0.
Definition stack_reset (s : SizedStack) : SizedStack := mkStack (stack_data s) 0.

(** data_structure.hpp:49-52, push: no test against the capacity *)
Definition stack_push (e : E) (s : SizedStack) : res SizedStack :=
  let? d := vset (stack_data s) (stack_idx s) e in
  Ok (mkStack d (S (stack_idx s))).

(** data_structure.hpp:53-55, top.  Simplification: with index 0 the C++ index
    wraps around to 2^64-1, which is out of bounds. *)
Definition stack_top (s : SizedStack) : res E :=
  match stack_idx s with
  | O => UB OutOfBounds
  | S i => vget (stack_data s) i
  end.

(** data_structure.hpp:56, pop.  Simplification: popping an empty stack wraps the
    index around in C++; the model reports it at once. *)
Definition stack_pop (s : SizedStack) : res SizedStack :=
  match stack_idx s with
  | O => UB StackUnderflow
  | S i => Ok (mkStack (stack_data s) i)
  end.

End SizedStack.
Arguments SizedStack : clear implicits.
