(** Several threads calling the const method get_link_pose on one model: the statements of
    kinematics.cpp:37-103 as steps that each make one access to the shared members
    transform_stack_ and transform_cache_ (include/tinyfk.hpp, both mutable).
    Simplifications: accesses are sequentially consistent, and reading and writing back the
    stack index in push and pop is one step (the C++ memory model, for which any such race is
    undefined behaviour, allows more). *)
From Coq Require Import List Arith.
From Verif Require Import Base Num Pose DataStructure Urdf Kin.
Import ListNotations.
Local Open Scope m_scope.

Section Conc.
Context `{A : Arith}.

(** Where a thread is inside get_link_pose. *)
Inductive pc :=
| P_test (i : nat)                    (* :39  about to look up link_id in the cache *)
| P_reset (i : nat)                   (* :53  about to reset the stack *)
| P_up (h : nat)                      (* :56-66 about to look at hlink *)
| P_push (p : nat) (e : nat * Pose)   (* :85  about to store e at the top (data_structure.hpp:50) *)
| P_inc (p : nat)                     (* :85  about to increment the index (data_structure.hpp:51) *)
| P_drain (tf : Pose)                 (* :91  about to test whether the stack is empty *)
| P_top (tf : Pose)                   (* :93-95  about to read the id at the top *)
| P_pop (tf : Pose) (k hid : nat)     (* :96  about to pop; k is the slot of the reference *)
| P_mul (tf : Pose) (k hid : nat)     (* :97  about to read the pose through the reference *)
| P_mark (tf : Pose) (hid : nat)      (* :99  about to set the predicate (data_structure.hpp:14) *)
| P_store (tf : Pose) (hid : nat)     (* :99  about to store the pose (data_structure.hpp:15) *)
| P_done (tf : Pose).

Definition with_stack (s : SizedStack (nat * Pose)) (m : KM) : KM := set_scratch s (tcache m) m.
Definition with_cache (c : SizedCache Pose) (m : KM) : KM := set_scratch (tstack m) c m.

(** one step of a thread *)
Definition step (m : KM) (p : pc) : res (KM * pc) :=
  match p with
  | P_test i =>
      let? c := get_cache i (tcache m) in
      Ok (m, match c with Some tf => P_done tf | None => P_reset i end)
  | P_reset i => Ok (with_stack (stack_reset (tstack m)) m, P_up i)
  | P_up h =>
      let? l := vget (links m) h in
      match l_parent l with
      | None => Ok (m, P_drain (base_pose m))
      | Some p =>
          let? c := get_cache (l_id l) (tcache m) in
          match c with
          | Some tf => Ok (m, P_drain tf)
          | None =>
              let? pj := deref (l_pjoint l) in
              let? tf := tf_plink_to_hlink m pj in
              Ok (m, P_push p (l_id l, tf))
          end
      end
  | P_push p e =>
      let? d := vset (stack_data (tstack m)) (stack_idx (tstack m)) e in
      Ok (with_stack (mkStack d (stack_idx (tstack m))) m, P_inc p)
  | P_inc p => Ok (with_stack (mkStack (stack_data (tstack m)) (S (stack_idx (tstack m)))) m, P_up p)
  | P_drain tf => Ok (m, if stack_empty (tstack m) then P_done tf else P_top tf)
  | P_top tf =>
      let? e := stack_top (tstack m) in
      Ok (m, P_pop tf (stack_idx (tstack m) - 1) (fst e))
  | P_pop tf k hid =>
      let? s := stack_pop (tstack m) in
      Ok (with_stack s m, P_mul tf k hid)
  | P_mul tf k hid =>
      let? e := vget (stack_data (tstack m)) k in
      Ok (m, P_mark (pose_transform tf (snd e)) hid)
  | P_mark tf hid =>
      let? p := vset (cache_pred (tcache m)) hid true in
      Ok (with_cache (mkCache (cache_size (tcache m)) (cache_data (tcache m)) p) m, P_store tf hid)
  | P_store tf hid =>
      let? v := vset (cache_data (tcache m)) hid tf in
      Ok (with_cache (mkCache (cache_size (tcache m)) v (cache_pred (tcache m))) m, P_drain tf)
  | P_done tf => Ok (m, P_done tf)
  end.

(** A thread: what it is doing, the links it will ask for next, and the answers so far. *)
Record thread := mkT { t_pc : option pc; t_todo : list nat; t_answers : list Pose }.

(** A thread without a current call starts the next one; a completed call adds its answer. *)
Definition step_thread (m : KM) (t : thread) : res (KM * thread) :=
  match t_pc t with
  | None => match t_todo t with [] => Ok (m, t) | i :: q => Ok (m, mkT (Some (P_test i)) q (t_answers t)) end
  | Some (P_done tf) => Ok (m, mkT None (t_todo t) (t_answers t ++ [tf]))
  | Some p => let? r := step m p in Ok (fst r, mkT (Some (snd r)) (t_todo t) (t_answers t))
  end.

(** A schedule says which thread moves next. *)
Fixpoint schedule (s : list nat) (m : KM) (ts : list thread) : res (KM * list thread) :=
  match s with
  | [] => Ok (m, ts)
  | k :: s' =>
      match nth_error ts k with
      | None => schedule s' m ts
      | Some t => let? r := step_thread m t in schedule s' (fst r) (list_set ts k (snd r))
      end
  end.

(** threads that are going to ask for the links [q] *)
Definition caller (q : list nat) : thread := mkT None q [].
Definition finished (t : thread) : Prop := t_pc t = None /\ t_todo t = [].

End Conc.
