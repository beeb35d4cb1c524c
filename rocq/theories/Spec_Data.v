(** Specification of the two containers of include/data_structure.hpp, in terms of
    histories of calls only. *)
From Coq Require Import List Arith.
From Verif Require Import Base DataStructure.
Import ListNotations.

(** Calls on a cache. *)
Inductive cache_op (D : Type) := OpSet (id : nat) (d : D) | OpClear | OpExtend.
Arguments OpSet {D}. Arguments OpClear {D}. Arguments OpExtend {D}.

(** Number of slots after a history (most recent call first) starting with n slots. *)
Fixpoint slots {D} (n : nat) (hist : list (cache_op D)) : nat :=
  match hist with
  | [] => n
  | OpExtend :: t => S (slots n t)
  | _ :: t => slots n t
  end.

(** Value last stored under [id] since the last clear or extend (most recent first). *)
Fixpoint last_stored {D} (id : nat) (hist : list (cache_op D)) : option D :=
  match hist with
  | [] => None
  | OpSet i d :: t => if Nat.eqb i id then Some d else last_stored id t
  | OpClear :: _ => None
  | OpExtend :: _ => None
  end.

(** All stores were in range when they were made. *)
Fixpoint stores_in_range {D} (n : nat) (hist : list (cache_op D)) : Prop :=
  match hist with
  | [] => True
  | OpSet i _ :: t => i < slots n t /\ stores_in_range n t
  | _ :: t => stores_in_range n t
  end.

(** The code's cache after a history (oldest call first). *)
Definition cache_step {D} (dflt : D) (o : cache_op D) (c : SizedCache D) : res (SizedCache D) :=
  match o with
  | OpSet i d => set_cache i d c
  | OpClear => Ok (cache_clear c)
  | OpExtend => Ok (cache_extend dflt c)
  end.
Definition cache_run {D} (dflt : D) (n : nat) (ops : list (cache_op D)) : res (SizedCache D) :=
  rfor ops (cache_new dflt n) (cache_step dflt).

(** Calls on a stack. *)
Inductive stack_op (E : Type) := OpPush (e : E) | OpPop | OpReset.
Arguments OpPush {E}. Arguments OpPop {E}. Arguments OpReset {E}.

(** A list of at most [cap] elements, last pushed first; [None]: pushed beyond the
    capacity or popped while empty. *)
Definition lifo_step {E} (cap : nat) (o : stack_op E) (l : list E) : option (list E) :=
  match o with
  | OpPush e => if Nat.ltb (length l) cap then Some (e :: l) else None
  | OpPop => match l with [] => None | _ :: t => Some t end
  | OpReset => Some []
  end.
Fixpoint lifo_run {E} (cap : nat) (ops : list (stack_op E)) (l : list E) : option (list E) :=
  match ops with
  | [] => Some l
  | o :: t => match lifo_step cap o l with None => None | Some l' => lifo_run cap t l' end
  end.

Definition stack_step {E} (o : stack_op E) (s : SizedStack E) : res (SizedStack E) :=
  match o with
  | OpPush e => stack_push e s
  | OpPop => stack_pop s
  | OpReset => Ok (stack_reset s)
  end.
Definition stack_run {E} (dflt : E) (n : nat) (ops : list (stack_op E)) : res (SizedStack E) :=
  rfor ops (stack_new dflt n) stack_step.
