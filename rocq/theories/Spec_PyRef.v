(** Programs that do not write to arrays they have passed on, and the same programs with
    every argument copied. *)
From Coq Require Import String List Arith Bool.
From Verif Require Import Base Num Pose DataStructure Urdf Kin Wrapper Py Spec_Py PyRef.
Import ListNotations.

Section SpecPyRef.
Context `{A : Arith}.

(** [untouched cs g h]: [cs] writes neither to the arrays [g] and lists [h] nor to those it
    has passed to set_q or add_new_link before *)
Fixpoint untouched (cs : list (@rcall A)) (g h : list nat) : Prop :=
  match cs with
  | [] => True
  | R_set_q _ js q _ :: t => untouched t (q :: g) (js :: h)
  | R_add_new_link _ _ _ p r :: t => untouched t (match r with Some r => [r; p] | None => [p] end ++ g) h
  | R_write a _ :: t => ~ In a g /\ untouched t g h
  | R_write_list l _ :: t => ~ In l h /\ untouched t g h
  | _ :: t => untouched t g h
  end.

(** the calls of [cs], with the contents the arguments have at the time of the call; [ar],
    [li]: the contents of the arrays and lists at the start *)
Fixpoint by_value (cs : list rcall) (ar : list (list num)) (li : list (list nat)) : list call :=
  match cs with
  | [] => []
  | R_call c :: t => c :: by_value t ar li
  | R_array v :: t => by_value t (ar ++ [v]) li
  | R_list v :: t => by_value t ar (li ++ [v])
  | R_set_q i js q bt :: t => C_set_q i (nth js li []) (nth q ar []) bt :: by_value t ar li
  | R_add_new_link i n k p r :: t =>
      C_add_new_link i n k (vec3 (nth p ar [])) (option_map (fun r => vec3 (nth r ar [])) r) :: by_value t ar li
  | R_write a v :: t =>
      by_value t (if Nat.eqb (List.length v) (List.length (nth a ar [])) then list_set ar a v else ar) li
  | R_write_list l v :: t => by_value t ar (list_set li l v)
  end.
End SpecPyRef.

(** ** Programs whose histories only hold arrays and lists by reference *)
Section SpecPyRef2.
Context `{A : Arith}.

(** calls that record nothing and make no instances *)
Definition records_nothing (c : call) : Prop :=
  match c with C_new _ | C_set_q _ _ _ _ | C_add_new_link _ _ _ _ _ | C_copy _ | C_loads _ => False | _ => True end.
(** statements other than set_q and add_new_link with temporaries, copy.copy and loads *)
Definition direct (c : rcall) : Prop :=
  match c with R_call (C_new _) => True | R_call c => records_nothing c | _ => True end.

(** the set_q calls on instance [i] in the program, in order: list, array, base type *)
Definition sets_of (i : nat) (cs : list rcall) : list (nat * nat * BaseType) :=
  flat_map (fun c => match c with R_set_q j js q bt => if Nat.eqb j i then [(js, q, bt)] else [] | _ => [] end) cs.
(** its add_new_link calls: name, parent, position array, rpy array *)
Definition adds_of (i : nat) (cs : list rcall) : list (string * nat * nat * option nat) :=
  flat_map (fun c => match c with R_add_new_link j n k p r => if Nat.eqb j i then [(n, k, p, r)] else [] | _ => [] end) cs.

(** such a call with the contents that lists and arrays have now *)
Definition set_now (w : RWorld) (t : nat * nat * BaseType) : SetArgs :=
  let '(js, q, bt) := t in mkSet (nth js (r_lists w) []) (nth q (r_arrays w) []) bt.
Definition add_now (w : RWorld) (t : string * nat * nat * option nat) : AddArgs :=
  let '(n, k, p, r) := t in mkAdd n k (vec3 (nth p (r_arrays w) [])) (option_map (fun r => vec3 (nth r (r_arrays w) [])) r).
End SpecPyRef2.
