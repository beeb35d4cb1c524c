(** Arguments by reference: the numpy arrays and Python lists a program passes to set_q and
    add_new_link are kept in the instance's histories (__init__.py:80-81, 226-227) as they
    are, so that the program and the history hold the same object.  On top of Py.v: the
    caller's arrays and lists, and for each of them where a history holds it. *)
From Coq Require Import String List Arith Bool.
From Verif Require Import Base Num Pose DataStructure Urdf Kin Wrapper Py Spec_Py.
Import ListNotations.
Local Open Scope m_scope.

Section PyRef.
Context `{A : Arith}.
Context (tinyxml : string -> option (list xml)).

(** __init__.py:80, 226: the entry of a history (number of the list, position in it) that
    holds an array: as q of set_q, as position or rpy of add_new_link *)
Inductive slot := HeldQ (h k : nat) | HeldPos (h k : nat) | HeldRpy (h k : nat).

(** All objects: those of Py.v, float arrays, lists of ids, and who holds them *)
Record RWorld := mkR {
  r_world : World;
  r_arrays : list (list num);
  r_lists : list (list nat);
  r_held : list (nat * slot);              (* array, where it is held *)
  r_held_ids : list (nat * (nat * nat)) }. (* list, set_q entry that holds it *)

Definition r_none : RWorld := mkR (mkW [] [] []) [] [] [] [].

Definition vec3 (v : list num) : Vector3 := V3 (nth 0 v n0) (nth 1 v n0) (nth 2 v n0).

Definition at_entry {B} (f : B -> B) (h k : nat) (l : list (list B)) : list (list B) :=
  match nth_error l h with
  | Some e => match nth_error e k with Some b => list_set l h (list_set e k (f b)) | None => l end
  | None => l
  end.

(** the history sees the new contents [v] of the array it holds at [s] *)
Definition see (v : list num) (s : slot) (w : World) : World :=
  match s with
  | HeldQ h k => mkW (heap_add w) (at_entry (fun a => mkSet (s_jids a) v (s_base a)) h k (heap_set w)) (objs w)
  | HeldPos h k => mkW (at_entry (fun a => mkAdd (a_name a) (a_parent a) (vec3 v) (a_rpy a)) h k (heap_add w)) (heap_set w) (objs w)
  | HeldRpy h k => mkW (at_entry (fun a => mkAdd (a_name a) (a_parent a) (a_pos a) (Some (vec3 v))) h k (heap_add w)) (heap_set w) (objs w)
  end.
Definition see_ids (v : list nat) (s : nat * nat) (w : World) : World :=
  mkW (heap_add w) (at_entry (fun a => mkSet v (s_q a) (s_base a)) (fst s) (snd s) (heap_set w)) (objs w).

(** where the next entry of instance [i]'s histories will be *)
Definition next_set (w : World) (i : nat) : nat * nat :=
  match nth_error (objs w) i with Some o => (py_set o, List.length (nth (py_set o) (heap_set w) [])) | None => (0, 0) end.
Definition next_add (w : World) (i : nat) : nat * nat :=
  match nth_error (objs w) i with Some o => (py_add o, List.length (nth (py_add o) (heap_add w) [])) | None => (0, 0) end.

(** Statements of a program.  Arrays and lists are numbered in the order of their creation. *)
Inductive rcall :=
| R_call (c : call)                                       (* a call with temporaries as arguments *)
| R_array (v : list num)                                  (* a = np.array(v) *)
| R_list (l : list nat)                                   (* l = [...] *)
| R_set_q (i js q : nat) (bt : BaseType)                  (* set_q with list js and array q *)
| R_add_new_link (i : nat) (name : string) (parent pos : nat) (rpy : option nat)
| R_write (a : nat) (v : list num)                        (* a[:] = v *)
| R_write_list (l : nat) (v : list nat).                  (* l[:] = v *)

Definition hold (w : RWorld) (w' : World) (s : list (nat * slot)) (t : list (nat * (nat * nat))) : RWorld :=
  mkR w' (r_arrays w) (r_lists w) (r_held w ++ s) (r_held_ids w ++ t).

(** __init__.py:77-96 and 223-231 on arguments by reference; assigning to an array in
    place keeps its length.  add_new_link takes arrays of length 3 (wrapper.cpp:237-241,
    std::array<double, 3>): pybind11 raises TypeError for others, after the history has been
    extended; a history entry of such a call is only seen through [vec3], so those calls are
    excluded here. *)
Definition r_exec (c : rcall) : M RWorld unit :=
  fun w =>
    match c with
    | R_call c => let (w', x) := py_exec tinyxml c (r_world w) in (hold w w' [] [], x)
    | R_array v => (mkR (r_world w) (r_arrays w ++ [v]) (r_lists w) (r_held w) (r_held_ids w), Ok tt)
    | R_list v => (mkR (r_world w) (r_arrays w) (r_lists w ++ [v]) (r_held w) (r_held_ids w), Ok tt)
    | R_set_q i js q bt =>
        match nth_error (r_lists w) js, nth_error (r_arrays w) q with
        | Some vj, Some vq =>
            let (w', x) := py_set_q i vj vq bt (r_world w) in
            let s := next_set (r_world w) i in
            (hold w w' [(q, HeldQ (fst s) (snd s))] [(js, s)], x)
        | _, _ => (w, UB OutOfBounds)
        end
    | R_add_new_link i name parent pos rpy =>
        match nth_error (r_arrays w) pos, match rpy with None => Some None | Some r => option_map Some (nth_error (r_arrays w) r) end with
        | Some vp, Some vr =>
            if Nat.eqb (List.length vp) 3 && match vr with Some r => Nat.eqb (List.length r) 3 | None => true end then
              let (w', x) := py_add_new_link i name parent (vec3 vp) (option_map vec3 vr) (r_world w) in
              let s := next_add (r_world w) i in
              (hold w w' ((pos, HeldPos (fst s) (snd s)) :: match rpy with Some r => [(r, HeldRpy (fst s) (snd s))] | None => [] end) [], x)
            else (w, UB OutOfBounds)
        | _, _ => (w, UB OutOfBounds)
        end
    | R_write a v =>
        match nth_error (r_arrays w) a with
        | Some old =>
            if Nat.eqb (List.length v) (List.length old) then
              (mkR (fold_left (fun u s => if Nat.eqb (fst s) a then see v (snd s) u else u) (r_held w) (r_world w))
                   (list_set (r_arrays w) a v) (r_lists w) (r_held w) (r_held_ids w), Ok tt)
            else (w, Throw ValueError)
        | None => (w, UB OutOfBounds)
        end
    | R_write_list l v =>
        match nth_error (r_lists w) l with
        | Some _ =>
            (mkR (fold_left (fun u s => if Nat.eqb (fst s) l then see_ids v (snd s) u else u) (r_held_ids w) (r_world w))
                 (r_arrays w) (list_set (r_lists w) l v) (r_held w) (r_held_ids w), Ok tt)
        | None => (w, UB OutOfBounds)
        end
    end.

(** a program; it catches exceptions, as in [py_run] *)
Fixpoint r_run (cs : list rcall) (w : RWorld) : option RWorld :=
  match cs with
  | [] => Some w
  | c :: t => match r_exec c w with
              | (w', Ok _) => r_run t w'
              | (w', Throw _) => r_run t w'
              | _ => None
              end
  end.

End PyRef.
