(** C58, C59: the containers of include/data_structure.hpp. *)
From Coq Require Import List Arith.
From Verif Require Import Base DataStructure Spec_Data Pf_Data.
Import ListNotations.

(** C58.  For every history of calls: it is defined behaviour exactly when every store
    was in range, and then a lookup gives the value last stored under that id since the
    last clear or extend; lookups out of range are undefined. *)
Theorem C58_cache_is_finite_map :
  forall (D : Type) (dflt : D) (n : nat) (ops : list (cache_op D)),
    ((exists c, cache_run dflt n ops = Ok c) <-> stores_in_range n (rev ops)) /\
    (~ stores_in_range n (rev ops) -> cache_run dflt n ops = UB OutOfBounds) /\
    (forall c id, cache_run dflt n ops = Ok c ->
       get_cache id c = if Nat.ltb id (slots n (rev ops)) then Ok (last_stored id (rev ops)) else UB OutOfBounds).
Proof.
  intros D dflt n ops. split; [|split].
  - exact (cache_run_ok_iff dflt n ops).
  - exact (cache_run_out_of_range dflt n ops).
  - intros c id. exact (cache_as_map dflt n ops c id).
Qed.
Print Assumptions C58_cache_is_finite_map.

Example C58_example :
  exists c, cache_run 0 2 [OpSet 1 5; OpSet 0 7; OpSet 1 6] = Ok c /\ get_cache 1 c = Ok (Some 6) /\
  exists c', cache_run 0 2 [OpSet 1 5; OpExtend; OpSet 2 9] = Ok c' /\
             get_cache 1 c' = Ok None /\ get_cache 2 c' = Ok (Some 9).
Proof. eexists. repeat split. eexists. repeat split. Qed.

(** C59.  For every history of calls the stack is a LIFO list of bounded capacity; pushing
    beyond the capacity and popping an empty stack are undefined. *)
Theorem C59_stack_is_bounded_lifo :
  forall (E : Type) (dflt : E) (n : nat) (ops : list (stack_op E)),
    match lifo_run n ops [] with
    | Some l => exists s, stack_run dflt n ops = Ok s /\ stack_size s = length l /\
                  (stack_empty s = true <-> l = []) /\
                  (forall e t, l = e :: t -> stack_top s = Ok e)
    | None => exists u, stack_run dflt n ops = UB u
    end.
Proof. intros E dflt n ops. exact (stack_as_lifo dflt n ops). Qed.
Print Assumptions C59_stack_is_bounded_lifo.

Example C59_example :
  lifo_run 2 [OpPush 4; OpPush 5; OpPop; OpPush 6] [] = Some [6; 4] /\
  lifo_run 2 [OpPush 4; OpPush 5; OpPush 6] [] = None.
Proof. split; reflexivity. Qed.
